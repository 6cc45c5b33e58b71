(** Contents of the messages, at the reals. *)
From Coq Require Import ZArith NArith List Bool Arith Permutation Lia Reals Lra.
From Verif Require Import Num Outcome ModelComm SpecComm LemmasPart LemmasComm.
Import ListNotations.
Open Scope nat_scope.

Section Pack.
  Context {T : Type} {NT : Num T}.
  Definition block (f : nat -> nat -> T) (l : list nat) : list T := flat_map (fun gp => map (fun var => f var gp) [0; 1; 2]) l.
  Lemma block_length : forall f l, length (block f l) = 3 * length l.
  Proof. intros f l. unfold block. induction l as [|a l IH]; [reflexivity|]. cbn [flat_map]. rewrite app_length, IH. cbn. lia. Qed.
  Lemma block_nth : forall f n a gp var, gp < n -> var < 3 -> nth_error (block f (seq a n)) (3 * gp + var) = Some (f var (a + gp)).
  Proof.
    intros f. induction n as [|n IH]; intros a gp var Hg Hv; [lia|]. unfold block. cbn [seq flat_map]. fold (block f (seq (S a) n)).
    destruct gp as [|gp].
    - rewrite Nat.add_0_r. destruct var as [|[|[|]]]; try reflexivity. lia.
    - replace (3 * S gp + var) with (3 + (3 * gp + var)) by lia. cbn [map app nth_error Nat.add]. rewrite IH by lia. f_equal. f_equal. lia.
  Qed.
  Lemma map_seq_nth : forall (f : nat -> T) n i, i < n -> nth_error (map f (seq 0 n)) i = Some (f i).
  Proof. intros f n i H. rewrite nth_error_map, (nth_error_nth' _ 0) by (rewrite seq_length; exact H). rewrite seq_nth by exact H. reflexivity. Qed.

  Lemma message_fits : forall s c k (d : side) ngp, nth_error (comms s) c = Some k -> d_ngp d = N.to_nat ngp ->
    (N.of_nat (length (message s k d)) <= capacity s k ngp)%N.
  Proof.
    intros s c k d ngp Hc Hd. destruct k; cbn [message capacity].
    - cbn. lia.
    - destruct s.
      + destruct c as [|[|[|[]]]]; discriminate.
      + unfold ehdg_init_message. rewrite map_length, seq_length. lia.
      + unfold ihdg_init_message. fold (block (d_q d) (seq 0 (d_ngp d))). rewrite !app_length, block_length, map_length, seq_length.
        destruct (d_owner d); cbn [length]; lia.
    - unfold state_message. fold (block (d_q d) (seq 0 (d_ngp d))). cbn [length]. rewrite block_length, seq_length. lia.
    - unfold slope_message. destruct (d_wet d); cbn [length]; rewrite ?app_length, ?map_length, ?repeat_length, ?seq_length; cbn [length]; lia.
  Qed.

  (** Reading into a matrix. *)
  Lemma put_same : forall (q : nat -> nat -> T) v g x, put q v g x v g = x.
  Proof. intros. unfold put. rewrite !Nat.eqb_refl. reflexivity. Qed.
  Lemma put_gp : forall (q : nat -> nat -> T) v g x v' g', g' <> g -> put q v g x v' g' = q v' g'.
  Proof. intros. unfold put. apply Nat.eqb_neq in H. rewrite H, andb_false_r. reflexivity. Qed.
  Lemma put_var : forall (q : nat -> nat -> T) v g x v' g', v' <> v -> put q v g x v' g' = q v' g'.
  Proof. intros. unfold put. apply Nat.eqb_neq in H. rewrite H. reflexivity. Qed.

  Lemma read_q_ok : forall base ngp (m : list T) (f : nat -> nat -> T) q0,
    (forall gp var, gp < ngp -> var < 3 -> nth_error m (base + 3 * gp + var) = Some (f var gp)) ->
    exists q, read_q base ngp m q0 = Ok q /\ forall var gp, var < 3 -> gp < ngp -> q var gp = f var (ngp - 1 - gp).
  Proof.
    intros base ngp m f q0 H. unfold read_q.
    assert (G : forall t, t <= ngp -> exists q,
      ofold (fun q gp => ofold (fun q var => do v <- at_ m (base + 3 * gp + var) ; Ok (put q var (ngp - gp - 1) v)) [0; 1; 2] q) (seq 0 t) q0 = Ok q /\
      forall var gp, var < 3 -> gp < t -> q var (ngp - gp - 1) = f var gp).
    { induction t as [|t IH]; intros Ht.
      - exists q0. split; [reflexivity|]. intros; lia.
      - destruct IH as (q & E & Hq); [lia|]. rewrite seq_S, ofold_app, E. cbn [bind ofold Nat.add].
        unfold at_. rewrite !H by lia. cbn [of_index bind]. eexists. split; [reflexivity|].
        intros var gp Hv Hg. destruct (Nat.eq_dec gp t) as [->|Hne].
        + destruct var as [|[|[|]]]; try lia.
          * rewrite !put_var by lia. apply put_same.
          * rewrite put_var by lia. apply put_same.
          * apply put_same.
        + rewrite !put_gp by lia. apply Hq; lia. }
    destruct (G ngp (le_n _)) as (q & E & Hq). exists q. split; [exact E|]. intros var gp Hv Hg.
    rewrite <- (Hq var (ngp - 1 - gp)) by lia. f_equal. lia.
  Qed.

  Lemma read_rev_ok : forall base ngp (m : list T) (f : nat -> T) q0,
    (forall gp, gp < ngp -> nth_error m (base + gp) = Some (f gp)) ->
    exists q, read_rev base ngp m q0 = Ok q /\ forall gp, gp < ngp -> q 0 gp = f (ngp - 1 - gp).
  Proof.
    intros base ngp m f q0 H. unfold read_rev.
    assert (G : forall t, t <= ngp -> exists q,
      ofold (fun b gp => do v <- at_ m (base + gp) ; Ok (put b 0 (ngp - gp - 1) v)) (seq 0 t) q0 = Ok q /\
      forall gp, gp < t -> q 0 (ngp - gp - 1) = f gp).
    { induction t as [|t IH]; intros Ht.
      - exists q0. split; [reflexivity|]. intros; lia.
      - destruct IH as (q & E & Hq); [lia|]. rewrite seq_S, ofold_app, E. cbn [bind ofold Nat.add].
        unfold at_. rewrite !H by lia. cbn [of_index bind]. eexists. split; [reflexivity|].
        intros gp Hg. destruct (Nat.eq_dec gp t) as [->|Hne]; [apply put_same|]. rewrite put_gp by lia. apply Hq; lia. }
    destruct (G ngp (le_n _)) as (q & E & Hq). exists q. split; [exact E|]. intros gp Hg.
    rewrite <- (Hq (ngp - 1 - gp)) by lia. f_equal. lia.
  Qed.

  Lemma read_hdif_ok : forall ngp (m : list T) (f h : nat -> T),
    (forall gp, gp < ngp -> nth_error m (4 + gp) = Some (f gp)) ->
    exists q, read_hdif ngp m h = Ok q /\ forall gp, gp < ngp -> q 0 gp = nsub (h gp) (f (ngp - 1 - gp)).
  Proof.
    intros ngp m f h H. unfold read_hdif.
    assert (G : forall t, t <= ngp -> exists q,
      ofold (fun b gp => do v <- at_ m (1 + 3 + (ngp - gp - 1)) ; Ok (put b 0 gp (nsub (b 0 gp) v))) (seq 0 t) (fun _ => h) = Ok q /\
      (forall gp, gp < t -> q 0 gp = nsub (h gp) (f (ngp - 1 - gp))) /\ forall gp, t <= gp -> q 0 gp = h gp).
    { induction t as [|t IH]; intros Ht.
      - exists (fun _ => h). split; [reflexivity|]. split; [intros; lia | reflexivity].
      - destruct IH as (q & E & Hq & Hr); [lia|]. rewrite seq_S, ofold_app, E. cbn [bind ofold]. change (0 + t) with t.
        unfold at_. change (1 + 3 + (ngp - t - 1)) with (4 + (ngp - t - 1)). rewrite H by lia. cbn [of_index bind]. eexists. split; [reflexivity|]. split.
        + intros gp Hg. destruct (Nat.eq_dec gp t) as [->|Hne].
          * rewrite put_same, Hr by lia. do 2 f_equal. lia.
          * rewrite put_gp by lia. apply Hq; lia.
        + intros gp Hg. rewrite put_gp by lia. apply Hr. lia. }
    destruct (G ngp (le_n _)) as (q & E & Hq & _). exists q. split; [exact E | exact Hq].
  Qed.
End Pack.

Lemma to_of_bool : forall b, to_bool (of_bool b : R) = b.
Proof.
  intros []; unfold to_bool, of_bool; cbn [nltb Num_R nofZ].
  - rewrite (Rltb_true 0 1) by lra. apply orb_true_r.
  - rewrite (Rltb_false 0 0) by lra. reflexivity.
Qed.

Lemma to_uint_IZR : forall n, (n < 2 ^ 32)%N -> to_uint (IZR (Z.of_N n)) = Ok n.
Proof.
  intros n H. unfold to_uint.
  assert (E : Int_part (IZR (Z.of_N n)) = Z.of_N n).
  { destruct (base_Int_part (IZR (Z.of_N n))) as (A & B). set (z := Int_part _) in *. clearbody z.
    apply le_IZR in A. assert (IZR (Z.of_N n) < IZR (z + 1))%R by (rewrite plus_IZR; lra). apply lt_IZR in H0. lia. }
  rewrite E. assert (X : ((0 <=? Z.of_N n) && (Z.of_N n <? 2 ^ 32))%Z = true).
  { apply andb_true_iff. split; [apply Z.leb_le | apply Z.ltb_lt]; lia. }
  rewrite X, N2Z.id. reflexivity.
Qed.

Section Values.
  Variables (s : scheme) (d : side (T := R)).
  Let ngp := d_ngp d.

  Lemma carries_nth : forall (m msg : list R) n j x, carries m msg n -> j < n -> nth_error msg j = Some x -> nth_error m j = Some x.
  Proof. intros m msg n j x (_ & H) Hj Hx. rewrite H; [exact Hx | exact Hj | apply nth_error_Some; congruence]. Qed.

  Lemma bary_values : forall m, carries m (message s baryctr_coord d) 2 -> m = [d_bary d 0; d_bary d 1].
  Proof.
    intros m (L & H). destruct m as [|a [|b [|]]]; try discriminate. pose proof (H 0 ltac:(lia) ltac:(cbn; lia)) as H0.
    pose proof (H 1 ltac:(lia) ltac:(cbn; lia)) as H1. cbn in H0, H1. congruence.
  Qed.

  Lemma wet_values : forall k m n, k = bound_state \/ k = baryctr_state -> 0 < n -> carries m (message s k d) n ->
    exists x, at_ m 0 = Ok x /\ to_bool x = d_wet d.
  Proof.
    intros k m n Hk Hn Hc. exists (of_bool (d_wet d)). split; [|apply to_of_bool]. unfold at_.
    rewrite (carries_nth m (message s k d) n 0 (of_bool (d_wet d)) Hc Hn); [reflexivity|].
    destruct Hk as [->| ->]; cbn; [reflexivity|]. unfold slope_message. destruct (d_wet d); reflexivity.
  Qed.

  Lemma state_values : forall m q0, carries m (message s bound_state d) (1 + 3 * ngp) ->
    exists q, read_q 1 ngp m q0 = Ok q /\ forall var gp, var < 3 -> gp < ngp -> q var gp = d_q d var (ngp - 1 - gp).
  Proof.
    intros m q0 Hc. apply (read_q_ok 1 ngp m (d_q d)). intros gp var Hg Hv. eapply carries_nth; [exact Hc | lia|].
    cbn [message]. unfold state_message. fold ngp. fold (block (d_q d) (seq 0 ngp)). change (1 + 3 * gp + var) with (S (3 * gp + var)). cbn [nth_error].
    rewrite block_nth by assumption. reflexivity.
  Qed.

  Lemma slope_values : forall m, carries m (message s baryctr_state d) (1 + 3) ->
    forall var, var < 3 -> at_ m (1 + var) = Ok (if d_wet d then d_qbary d var else 0%R).
  Proof.
    intros m Hc var Hv. unfold at_. erewrite carries_nth; [|exact Hc | lia |]; [reflexivity|].
    cbn [message]. unfold slope_message. destruct (d_wet d); destruct var as [|[|[|]]]; try lia; reflexivity.
  Qed.

  Lemma hdif_values : forall m h, carries m (message s baryctr_state d) (1 + 3 + ngp) ->
    exists q, read_hdif ngp m h = Ok q /\
      forall gp, gp < ngp -> q 0 gp = (h gp - (if d_wet d then d_h d (ngp - 1 - gp)%nat else 0))%R.
  Proof.
    intros m h Hc. destruct (read_hdif_ok ngp m (fun gp => if d_wet d then d_h d gp else 0%R) h) as (q & E & Hq).
    - intros gp Hg. eapply carries_nth; [exact Hc | lia|]. cbn [message]. unfold slope_message. destruct (d_wet d).
      + cbn [map app Nat.add nth_error]. apply map_seq_nth. exact Hg.
      + cbn [Nat.add nth_error repeat]. rewrite (nth_error_nth' _ 0%R) by (rewrite repeat_length; exact Hg). rewrite nth_repeat. reflexivity.
    - exists q. split; [exact E|]. intros gp Hg. rewrite Hq by exact Hg. reflexivity.
  Qed.

  Lemma ehdg_values : forall m b0, s = EHDG -> carries m (message s init_global_prob d) ngp ->
    exists b, read_rev 0 ngp m b0 = Ok b /\ forall gp, gp < ngp -> b 0 gp = d_bath d (ngp - 1 - gp).
  Proof.
    intros m b0 -> Hc. apply (read_rev_ok 0 ngp m (d_bath d)). intros gp Hg. eapply carries_nth; [exact Hc | exact Hg|].
    cbn [message Nat.add]. unfold ehdg_init_message. apply map_seq_nth. exact Hg.
  Qed.

  Lemma ihdg_values : forall m q0 b0, s = IHDG -> carries m (message s init_global_prob d) (1 + 4 * ngp) ->
    (exists q, read_q 0 ngp m q0 = Ok q /\ forall var gp, var < 3 -> gp < ngp -> q var gp = d_q d var (ngp - 1 - gp)) /\
    (exists b, read_rev (3 * ngp) ngp m b0 = Ok b /\ forall gp, gp < ngp -> b 0 gp = d_bath d (ngp - 1 - gp)) /\
    (d_owner d = true -> (d_dof d < 2 ^ 32)%N -> exists x, back m = Ok x /\ to_uint x = Ok (d_dof d)).
  Proof.
    intros m q0 b0 -> Hc.
    assert (Lb : length (block (d_q d) (seq 0 ngp)) = 3 * ngp) by (rewrite block_length, seq_length; reflexivity).
    split; [|split].
    - apply (read_q_ok 0 ngp m (d_q d)). intros gp var Hg Hv. eapply carries_nth; [exact Hc | lia|]. cbn [message Nat.add]. unfold ihdg_init_message.
      fold ngp. fold (block (d_q d) (seq 0 ngp)). rewrite nth_error_app1 by lia. rewrite block_nth by assumption. reflexivity.
    - apply (read_rev_ok (3 * ngp) ngp m (d_bath d)). intros gp Hg. eapply carries_nth; [exact Hc | lia|]. cbn [message]. unfold ihdg_init_message.
      fold ngp. fold (block (d_q d) (seq 0 ngp)). rewrite nth_error_app2 by lia. rewrite Lb. replace (3 * ngp + gp - 3 * ngp) with gp by lia.
      rewrite nth_error_app1 by (rewrite map_length, seq_length; exact Hg). apply map_seq_nth. exact Hg.
    - intros Ho Hd. exists (IZR (Z.of_N (d_dof d))). split; [|apply to_uint_IZR; exact Hd]. unfold back.
      assert (L := proj1 Hc). assert (X : nth_error m (4 * ngp) = Some (IZR (Z.of_N (d_dof d)))).
      { eapply carries_nth; [exact Hc | lia|]. cbn [message]. unfold ihdg_init_message. fold ngp. fold (block (d_q d) (seq 0 ngp)).
        rewrite nth_error_app2 by lia. rewrite Lb. rewrite nth_error_app2; rewrite map_length, seq_length; [|lia].
        rewrite Ho. replace (4 * ngp - 3 * ngp - ngp) with 0 by lia. reflexivity. }
      destruct m as [|y m] using rev_ind; [discriminate|]. rewrite rev_app_distr. cbn [rev app]. f_equal.
      rewrite app_length in L. cbn in L. rewrite nth_error_app2 in X by lia. replace (4 * ngp - length m) with 0 in X by lia. cbn in X. congruence.
  Qed.
End Values.

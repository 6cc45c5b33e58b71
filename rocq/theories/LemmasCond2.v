(** Static condensation: the serial and the distributed solver. *)
From Coq Require Import Reals List Arith Bool Lia Lra Permutation.
From Verif Require Import Num Outcome ModelSWE LemmasSWE ModelCond SpecStepper SpecStep SpecCond LemmasRK LemmasStep LemmasCond.
Import ListNotations.
Open Scope R_scope.

Definition all_lt (size : nat) (l : list nat) : Prop := forall y, In y l -> (y < size)%nat.

Lemma in_range_app : forall size (a b : list (nat * nat * R)), in_range size (a ++ b) = in_range size a && in_range size b.
Proof. intros. unfold in_range. apply forallb_app. Qed.
Lemma in_range_block : forall size rows cols (f : nat -> nat -> R), all_lt size rows -> all_lt size cols -> in_range size (block rows cols f) = true.
Proof.
  intros size rows cols f Hr Hc. unfold in_range. apply forallb_forall. intros t Ht. unfold block in Ht. apply in_flat_map in Ht.
  destruct Ht as (i & Hi & Ht). apply in_map_iff in Ht. destruct Ht as (j & <- & Hj). cbn [fst snd]. apply in_seq in Hi, Hj.
  apply andb_true_iff. split; apply Nat.ltb_lt; [apply Hr|apply Hc]; apply nth_In; lia.
Qed.
Lemma in_range_off : forall size els inv s (ed : edge R), all_lt size (d_dofs ed) ->
  (forall b, (b < e_nbound (els (fst s)))%nat -> all_lt size (b_dofs (bnd_of els (fst s, b)))) ->
  in_range size (off_diagonal els inv s ed) = true.
Proof.
  intros size els inv s ed H1 H2. unfold in_range. apply forallb_forall. intros t Ht. unfold off_diagonal in Ht. apply in_flat_map in Ht.
  destruct Ht as (b & Hb & Ht). apply in_seq in Hb. destruct (Nat.eqb b (snd s)); [destruct Ht|].
  pose proof (in_range_block size (d_dofs ed) (b_dofs (bnd_of els (fst s, b))) (side_block_neg els inv s b) H1 (H2 b ltac:(lia))) as Q.
  unfold in_range in Q. rewrite forallb_forall in Q. apply Q. exact Ht.
Qed.

Lemma slots_nodup_in : forall nelt els (edges : list (list slot * edge R)) s, attached nelt els edges -> In s (slots_of nelt els) ->
  exists sides ed, In (sides, ed) edges /\ In s sides.
Proof.
  intros nelt els edges s [HP _] Hs. apply Permutation_sym in HP. apply (Permutation_in _ HP) in Hs. apply in_flat_map in Hs.
  destruct Hs as ([sides ed] & H1 & H2). exists sides, ed. auto.
Qed.
Lemma attached_slot : forall nelt els (edges : list (list slot * edge R)) sides ed s, attached nelt els edges ->
  In (sides, ed) edges -> In s sides -> (fst s < nelt)%nat /\ (snd s < e_nbound (els (fst s)))%nat.
Proof.
  intros nelt els edges sides ed s [HP _] H1 H2. apply in_slots. eapply Permutation_in; [exact HP|]. apply in_flat_map. exists (sides, ed). auto.
Qed.

Section WellFormed.
  Context (size nelt : nat) (els : nat -> elt R) (edges : list (list slot * edge R)).
  Context (HA : attached nelt els edges) (HP : Permutation (concat (map (fun e => d_dofs (snd e)) edges)) (seq 0 size)).

  Lemma dofs_lt : forall sides ed, In (sides, ed) edges -> all_lt size (d_dofs ed).
  Proof.
    intros sides ed H y Hy. assert (Q : In y (seq 0 size)).
    { eapply Permutation_in; [exact HP|]. apply in_concat. exists (d_dofs ed). split; [|exact Hy]. apply in_map_iff. exists (sides, ed). auto. }
    apply in_seq in Q. lia.
  Qed.
  Lemma slot_dofs_lt : forall K b, (K < nelt)%nat -> (b < e_nbound (els K))%nat -> all_lt size (b_dofs (bnd_of els (K, b))).
  Proof.
    intros K b HK Hb. destruct (slots_nodup_in nelt els edges (K, b) HA) as (sides & ed & H1 & H2); [apply in_slots; auto|].
    destruct (proj2 HA sides ed H1) as (_ & _ & H3). unfold bnd_of. rewrite (H3 (K, b) H2). exact (dofs_lt sides ed H1).
  Qed.
  Lemma edge_sides_ok : forall sides ed, In (sides, ed) edges -> sides_ok els sides ed.
  Proof.
    intros sides ed H s Hs. destruct (proj2 HA sides ed H) as (_ & _ & H3). split; [exact (H3 s Hs)|].
    exact (proj2 (attached_slot _ _ _ _ _ _ HA H Hs)).
  Qed.
  Lemma side_range : forall inv sides ed s ed', In (sides, ed) edges -> In s sides -> all_lt size (d_dofs ed') ->
    in_range size (off_diagonal els inv s ed') = true.
  Proof.
    intros inv sides ed s ed' H Hs Hd. apply in_range_off; [exact Hd|]. intros b Hb. apply slot_dofs_lt; [|exact Hb].
    exact (proj1 (attached_slot _ _ _ _ _ _ HA H Hs)).
  Qed.

  (** Rows and equations. *)
  Lemma rows_iff : forall inv ts w x, in_range size ts = true ->
    (forall x r, (r < size)%nat -> rowdot ts x r - w r = lsum edges (fun c => hit (d_dofs (snd c)) r (edge_res els inv x (fst c) (snd c)))) ->
    (solves size (entry ts) w x <-> edge_equations els edges (dqx els inv x) x).
  Proof.
    intros inv ts w x Hr H. rewrite <- (residual_iff els inv x edges size HP).
    2:{ intros sides ed Hin. exact (proj1 (proj2 (proj2 HA sides ed Hin))). }
    unfold solves. split; intros Q r Hlt.
    - rewrite <- H by exact Hlt. rewrite <- (entry_dot size) by exact Hr. rewrite Q by exact Hlt. ring.
    - rewrite (entry_dot size) by exact Hr. specialize (Q r Hlt). rewrite <- H in Q by exact Hlt. lra.
  Qed.

  Lemma full_iff : forall inv dq x, (forall K, (K < nelt)%nat -> two_sided (3 * e_ndof (els K)) (e_delta (els K)) (inv K)) ->
    (element_equations nelt els dq x /\ edge_equations els edges dq x <->
     (forall K, (K < nelt)%nat -> agree (3 * e_ndof (els K)) (dq K) (dqx els inv x K)) /\ edge_equations els edges (dqx els inv x) x).
  Proof.
    intros inv dq x Hinv. assert (HS : forall sides ed s, In (sides, ed) edges -> In s sides -> (fst s < nelt)%nat).
    { intros sides ed s H1 H2. exact (proj1 (attached_slot _ _ _ _ _ _ HA H1 H2)). }
    split; intros [H1 H2].
    - split; [|apply (edge_equations_ext nelt els inv Hinv edges dq x HS H1); exact H2].
      intros K HK l Hl. apply (dq_unique nelt); assumption.
    - assert (HE : element_equations nelt els dq x).
      { intros K i HK Hi. rewrite <- (dqx_solves nelt els inv Hinv x K i HK Hi). f_equal. apply rsum_ext. intros j Hj. rewrite (H1 K HK j Hj). reflexivity. }
      split; [exact HE|]. apply (edge_equations_ext nelt els inv Hinv edges dq x HS HE). exact H2.
  Qed.
End WellFormed.

(** ** Serial assembly *)
Definition inv_state (size : nat) (els : nat -> elt R) (inv : nat -> nat -> nat -> R) (pre : list (list slot * edge R)) (k : nat)
    (a : (nat -> R) * list (nat * nat * R)) : Prop :=
  in_range size (snd a) = true /\
  (forall x r, (r < k)%nat -> rowdot (snd a) x r - fst a r = lsum pre (fun c => hit (d_dofs (snd c)) r (edge_res els inv x (fst c) (snd c)))) /\
  (forall x r, (k <= r)%nat -> rowdot (snd a) x r = 0) /\
  (forall c y, In c pre -> In y (d_dofs (snd c)) -> (y < k)%nat).

Lemma hit_seq : forall k n r f, (k <= r < k + n)%nat -> hit (seq k n) r f = f (r - k)%nat.
Proof.
  intros k n r f H. replace r with (nth (r - k) (seq k n) 0%nat) at 1 by (rewrite seq_nth by lia; lia).
  apply hit_at; [apply seq_NoDup|]. rewrite seq_length. lia.
Qed.

Lemma set_sub_seq : forall size (w : nat -> R) k n v, (0 < n)%nat -> (k + n <= size)%nat ->
  set_sub size w (seq k n) v = Ok (fun r => if Nat.leb k r && Nat.ltb r (k + n) then v (r - k)%nat else w r).
Proof.
  intros size w k n v Hn Hs. unfold set_sub. destruct n as [|n]; [lia|]. cbn [seq].
  replace (length (k :: seq (S k) n)) with (S n) by (cbn [length]; rewrite seq_length; reflexivity).
  rewrite (proj2 (Nat.leb_le _ _) Hs). reflexivity.
Qed.

Lemma serial_step : forall size els inv pre k a sides ed v tc,
  inv_state size els inv pre k a -> d_dofs ed = seq k (length (d_dofs ed)) -> (0 < length (d_dofs ed))%nat -> (k + length (d_dofs ed) <= size)%nat ->
  in_range size tc = true ->
  (forall x r, rowdot tc x r - hit (d_dofs ed) r v = hit (d_dofs ed) r (edge_res els inv x sides ed)) ->
  exists w, set_sub size (fst a) (d_dofs ed) v = Ok w /\
    inv_state size els inv (pre ++ [(sides, ed)]) (k + length (d_dofs ed)) (w, snd a ++ tc).
Proof.
  intros size els inv pre k [w ts] sides ed v tc (I1 & I2 & I3 & I4) Hs Hpos Hsz Hr Hrow. cbn [fst snd] in *.
  set (n := length (d_dofs ed)) in *.
  eexists. split; [rewrite Hs; apply set_sub_seq; assumption|].
  split; [|split; [|split]]; cbn [fst snd].
  - rewrite in_range_app, I1, Hr. reflexivity.
  - intros x r Hlt. rewrite rowdot_app, lsum_app, lsum_cons. unfold lsum at 2. cbn [map fold_right fst snd].
    specialize (Hrow x r). rewrite Hs in Hrow. rewrite Hs. destruct (Nat.leb_spec k r) as [Hk|Hk]; cbn [andb].
    + rewrite I3 by exact Hk. rewrite (proj2 (Nat.ltb_lt _ _) Hlt).
      rewrite (lsum_const0 _ pre); [|intros c Hc; apply hit_out; intros Y; specialize (I4 c r Hc Y); lia].
      rewrite <- Hrow. rewrite (hit_seq k n r v) by lia. ring.
    + rewrite <- (I2 x r Hk). rewrite <- Hrow. rewrite (hit_out (seq k n) r v) by (rewrite in_seq; lia). ring.
  - intros x r Hlt. rewrite rowdot_app, I3 by lia. specialize (Hrow x r). rewrite Hs in Hrow.
    rewrite !hit_out in Hrow by (rewrite in_seq; lia). lra.
  - intros c y Hc Hy. apply in_app_or in Hc. destruct Hc as [Hc|[<-|[]]]; [specialize (I4 c y Hc Hy); lia|].
    cbn [snd] in Hy. rewrite Hs in Hy. apply in_seq in Hy. lia.
Qed.

Lemma ints_loop : forall size nelt els inv edges l pre k m a,
  attached nelt els edges -> Permutation (concat (map (fun e => d_dofs (snd e)) edges)) (seq 0 size) ->
  (forall e, In e l -> In ([fst (fst e); snd (fst e)], snd e) edges) ->
  inv_state size els inv pre k a -> (k + m <= size)%nat -> concat (map (fun e => d_dofs (snd e)) l) = seq k m ->
  exists a', ofold (fun a (e : slot * slot * edge R) =>
        let '(s1, s2, ed) := e in
        do w <- set_sub size (fst a) (d_dofs ed) (int_rhs els inv s1 s2 ed) ;
        Ok (w, snd a ++ int_triplets els inv s1 s2 ed)) l a = Ok a' /\
    inv_state size els inv (pre ++ map (fun e => ([fst (fst e); snd (fst e)], snd e)) l) (k + m) a'.
Proof.
  intros size nelt els inv edges l. induction l as [|[[s1 s2] ed] l IH]; intros pre k m a HA HP Hin HI Hsz Hc.
  - cbn in Hc. destruct m; [|discriminate]. exists a. split; [reflexivity|]. cbn [map]. rewrite List.app_nil_r, Nat.add_0_r. exact HI.
  - cbn [map concat] in Hc. cbn [snd] in Hc. destruct (seq_app_inv _ _ _ _ Hc) as (E1 & E2 & E3).
    assert (He : In ([s1; s2], ed) edges) by (apply (Hin (s1, s2, ed)); left; reflexivity).
    pose proof (edge_sides_ok nelt els edges HA _ _ He) as HS.
    pose proof (dofs_lt size edges HP _ _ He) as HD.
    destruct (proj2 HA _ _ He) as (Hn & Hl & _).
    destruct (serial_step size els inv pre k a [s1; s2] ed (int_rhs els inv s1 s2 ed) (int_triplets els inv s1 s2 ed)) as (w & W1 & W2); try assumption; try lia.
    { unfold int_triplets. rewrite !in_range_app, in_range_block by exact HD.
      rewrite (side_range size nelt els edges HA HP inv _ _ s1 ed He) by (cbn; auto).
      rewrite (side_range size nelt els edges HA HP inv _ _ s2 ed He) by (cbn; auto). reflexivity. }
    { intros x r. apply int_row. exact HS. }
    cbn [ofold]. rewrite W1. cbn [bind].
    destruct (IH (pre ++ [([s1; s2], ed)]) (k + length (d_dofs ed))%nat (length (concat (map (fun e => d_dofs (snd e)) l)))
               (w, snd a ++ int_triplets els inv s1 s2 ed)) as (a' & F1 & F2); try assumption; try lia.
    { intros e H. apply Hin. right. exact H. }
    exists a'. split; [exact F1|]. rewrite <- app_assoc in F2. cbn [map fst snd]. replace (k + m)%nat with (k + length (d_dofs ed) + length (concat (map (fun e => d_dofs (snd e)) l)))%nat by lia.
    exact F2.
Qed.

Lemma bnds_loop : forall size nelt els inv edges l pre k m a,
  attached nelt els edges -> Permutation (concat (map (fun e => d_dofs (snd e)) edges)) (seq 0 size) ->
  (forall e, In e l -> In ([fst e], snd e) edges) ->
  inv_state size els inv pre k a -> (k + m <= size)%nat -> concat (map (fun e => d_dofs (snd e)) l) = seq k m ->
  exists a', ofold (fun a (e : slot * edge R) =>
        let '(s, ed) := e in
        do w <- set_sub size (fst a) (d_dofs ed) (bnd_rhs els inv s ed) ;
        Ok (w, snd a ++ bnd_triplets els inv s ed)) l a = Ok a' /\
    inv_state size els inv (pre ++ map (fun e => ([fst e], snd e)) l) (k + m) a'.
Proof.
  intros size nelt els inv edges l. induction l as [|[s1 ed] l IH]; intros pre k m a HA HP Hin HI Hsz Hc.
  - cbn in Hc. destruct m; [|discriminate]. exists a. split; [reflexivity|]. cbn [map]. rewrite List.app_nil_r, Nat.add_0_r. exact HI.
  - cbn [map concat] in Hc. cbn [snd] in Hc. destruct (seq_app_inv _ _ _ _ Hc) as (E1 & E2 & E3).
    assert (He : In ([s1], ed) edges) by (apply (Hin (s1, ed)); left; reflexivity).
    pose proof (edge_sides_ok nelt els edges HA _ _ He) as HS.
    pose proof (dofs_lt size edges HP _ _ He) as HD.
    destruct (proj2 HA _ _ He) as (Hn & Hl & _).
    destruct (serial_step size els inv pre k a [s1] ed (bnd_rhs els inv s1 ed) (bnd_triplets els inv s1 ed)) as (w & W1 & W2); try assumption; try lia.
    { unfold bnd_triplets. rewrite !in_range_app, in_range_block by exact HD.
      rewrite (side_range size nelt els edges HA HP inv _ _ s1 ed He) by (cbn; auto). reflexivity. }
    { intros x r. apply bnd_row. exact HS. }
    cbn [ofold]. rewrite W1. cbn [bind].
    destruct (IH (pre ++ [([s1], ed)]) (k + length (d_dofs ed))%nat (length (concat (map (fun e => d_dofs (snd e)) l)))
               (w, snd a ++ bnd_triplets els inv s1 ed)) as (a' & F1 & F2); try assumption; try lia.
    { intros e H. apply Hin. right. exact H. }
    exists a'. split; [exact F1|]. rewrite <- app_assoc in F2. cbn [map fst snd]. replace (k + m)%nat with (k + length (d_dofs ed) + length (concat (map (fun e => d_dofs (snd e)) l)))%nat by lia.
    exact F2.
Qed.

Lemma assemble_ok : forall sk inv, well_formed sk -> exists w ts, assemble sk inv = Ok (w, ts) /\ in_range (s_size sk) ts = true /\
  forall x r, (r < s_size sk)%nat -> rowdot ts x r - w r = lsum (edges_of sk) (fun c => hit (d_dofs (snd c)) r (edge_res (s_elt sk) inv x (fst c) (snd c))).
Proof.
  intros sk inv [HA HN]. assert (HP := HN). unfold numbered in HP.
  assert (HP' : Permutation (concat (map (fun e => d_dofs (snd e)) (edges_of sk))) (seq 0 (s_size sk))) by (rewrite HP; apply Permutation_refl).
  unfold edges_of in HP. rewrite map_app, concat_app, !map_map in HP. cbn [snd] in HP. destruct (seq_app_inv _ _ _ _ HP) as (E1 & E2 & E3).
  unfold assemble.
  assert (I0 : inv_state (s_size sk) (s_elt sk) inv [] 0 (s_rhs sk, [])).
  { split; [reflexivity|]. split; [intros; lia|]. split; [reflexivity|]. intros c y []. }
  assert (M1 : forall e, In e (s_int sk) -> In ([fst (fst e); snd (fst e)], snd e) (edges_of sk)).
  { intros e He. unfold edges_of. apply in_or_app. left. apply in_map_iff. exists e. auto. }
  assert (M2 : forall e, In e (s_bnd sk) -> In ([fst e], snd e) (edges_of sk)).
  { intros e He. unfold edges_of. apply in_or_app. right. apply in_map_iff. exists e. auto. }
  set (n1 := length (concat (map (fun x => d_dofs (snd x)) (s_int sk)))) in *.
  set (n2 := length (concat (map (fun x => d_dofs (snd x)) (s_bnd sk)))) in *.
  assert (L1 : (0 + n1 <= s_size sk)%nat) by lia. assert (L2 : (0 + n1 + n2 <= s_size sk)%nat) by lia.
  destruct (ints_loop (s_size sk) (s_nelt sk) (s_elt sk) inv (edges_of sk) (s_int sk) [] 0 n1 (s_rhs sk, []) HA HP' M1 I0 L1 E1) as (a1 & A1 & I1).
  rewrite A1. cbn [bind]. cbn [app] in I1.
  destruct (bnds_loop (s_size sk) (s_nelt sk) (s_elt sk) inv (edges_of sk) (s_bnd sk) _ _ n2 a1 HA HP' M2 I1 L2 E2) as (a2 & A2 & I2).
  cbn [plus] in A2, I2. rewrite E3 in I2. destruct a2 as [w ts]. exists w, ts. split; [exact A2|]. destruct I2 as (J1 & J2 & _).
  split; [exact J1|]. exact J2.
Qed.

(** ** Back-substitution *)
Lemma back_substitute_eq : forall els inv ints bnds dx K var dof,
  back_substitute els inv ints bnds dx K var dof = e_q (els K) var dof +
  rsum (3 * e_ndof (els K)) (fun m => inv K (3 * dof + var)%nat m * (e_rhs (els K) m -
    sub_all els dx (flat_sides (map (fun e => ([fst (fst e); snd (fst e)], snd e)) ints ++ map (fun e => ([fst e], snd e)) bnds)) K m)).
Proof.
  intros. unfold back_substitute, reshape3. num_R. f_equal. rewrite mv_eq. replace (var + 3 * dof)%nat with (3 * dof + var)%nat by lia.
  apply rsum_ext. intros m _. f_equal. rewrite fold_bnd_eq, fold_int_eq. unfold flat_sides at 2. rewrite flat_map_app.
  fold (flat_sides (map (fun e : slot * slot * edge R => ([fst (fst e); snd (fst e)], snd e)) ints)).
  fold (flat_sides (map (fun e : slot * edge R => ([fst e], snd e)) bnds)). rewrite flat_sides_single.
  unfold sub_all at 3. rewrite lsum_app. unfold sub_all. ring.
Qed.

Lemma in_flat_sides : forall edges s ed, In (s, ed) (flat_sides edges) -> exists sides, In (sides, ed) edges /\ In s sides.
Proof.
  intros edges s ed H. apply in_flat_map in H. destruct H as ([sides ed'] & H1 & H2). apply in_map_iff in H2. destruct H2 as (s' & E & H2).
  cbn in *. injection E as -> ->. eauto.
Qed.

Lemma converged_spec : forall size x, conv_spec size x (converged size x).
Proof.
  intros size x. unfold conv_spec, converged. rewrite nsum_rsum. num_R. rewrite <- INR_IZR_INZ.
  destruct (Rltb_spec (sqrt (rsum size (fun r => x r * x r)) / INR size) (1 / 100000000)); split; intros; try reflexivity; try discriminate; lra.
Qed.

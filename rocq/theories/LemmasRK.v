(** Runge-Kutta step: Shu-Osher form, Butcher form, order, invariants. *)
From Coq Require Import ZArith QArith Qabs List Bool Arith Reals Qreals Lra Lia Psatz FunctionalExtensionality.
From Verif Require Import Num ModelSWE ModelStepper SpecStepper LemmasSWE LemmasStepper.
Import ListNotations.

(** ** Sums *)
Lemma rsum_ext : forall n f g, (forall i, (i < n)%nat -> f i = g i) -> rsum n f = rsum n g.
Proof.
  induction n as [|n IH]; intros f g H; cbn; [reflexivity|].
  rewrite (IH f g), (H n) by (intros; try apply H; lia). reflexivity.
Qed.
Lemma rsum_0 : forall n, rsum n (fun _ => 0%R) = 0%R.
Proof. induction n; cbn; [reflexivity | rewrite IHn; ring]. Qed.
Lemma rsum_plus : forall n f g, rsum n (fun i => f i + g i)%R = (rsum n f + rsum n g)%R.
Proof. induction n; intros; cbn; [ring | rewrite IHn; ring]. Qed.
Lemma rsum_scal : forall n c f, rsum n (fun i => c * f i)%R = (c * rsum n f)%R.
Proof. induction n; intros; cbn; [ring | rewrite IHn; ring]. Qed.
Lemma rsum_scal_r : forall n c f, rsum n (fun i => f i * c)%R = (rsum n f * c)%R.
Proof. induction n; intros; cbn; [ring | rewrite IHn; ring]. Qed.
Lemma rsum_swap : forall n m (f : nat -> nat -> R),
  rsum n (fun i => rsum m (f i)) = rsum m (fun j => rsum n (fun i => f i j)).
Proof.
  induction n; intros m f; cbn; [symmetry; apply rsum_0|].
  rewrite IHn, <- rsum_plus. reflexivity.
Qed.
Lemma rsum_le : forall n f g, (forall i, (i < n)%nat -> f i <= g i)%R -> (rsum n f <= rsum n g)%R.
Proof.
  induction n; intros f g H; cbn; [lra|].
  pose proof (IHn f g (fun i Hi => H i ltac:(lia))). pose proof (H n ltac:(lia)). lra.
Qed.
Lemma rsum_extend : forall m n f, (n <= m)%nat -> (forall j, (n <= j < m)%nat -> f j = 0%R) -> rsum m f = rsum n f.
Proof.
  induction m; intros n f Hnm H; [replace n with 0%nat by lia; reflexivity|].
  destruct (Nat.eq_dec n (S m)) as [->|Hne]; [reflexivity|].
  cbn. rewrite (H m) by lia. rewrite (IHm n) by (try lia; intros; apply H; lia). ring.
Qed.

Lemma Q2R_qsum : forall n f, Q2R (qsum n f) = rsum n (fun i => Q2R (f i)).
Proof.
  induction n; intros f; cbn [qsum rsum]; [apply RMicromega.Q2R_0|].
  rewrite (Qeq_eqR _ _ (Qred_correct _)), Q2R_plus, IHn. reflexivity.
Qed.

(** ** UpdateState and the whole step *)
Section Step.
  Context {I : Type}.
  Lemma next_state_sum : forall A B dt k (q sol : nat -> I -> R) i,
    next_state A B dt k q sol i =
    rsum (S k) (fun s => Q2R (entry A k s) * q s i + dt * Q2R (entry B k s) * sol s i)%R.
  Proof.
    intros A B dt k q sol i. unfold next_state. rewrite Nat.add_1_r.
    set (n := S k). generalize n as m; clear n.
    induction m as [|m IH]; [reflexivity|].
    rewrite seq_S, fold_left_app. cbn [fold_left rsum Nat.add].
    unfold rvadd at 1. rewrite IH. unfold rvadd, rvscale. ring.
  Qed.

  Lemma rsum_next : forall A B dt k (q sol q' sol' : nat -> I -> R) i,
    (forall s, (s <= k)%nat -> q s = q' s) -> (forall s, (s <= k)%nat -> sol s = sol' s) ->
    next_state A B dt k q sol i = next_state A B dt k q' sol' i.
  Proof.
    intros. rewrite !next_state_sum. apply rsum_ext. intros s Hs.
    rewrite H, H0 by lia. reflexivity.
  Qed.

  (** State after k stages, before the final swap. *)
  Lemma rk_prefix : forall A B dt n rhs (st : (nat -> I -> R) * (nat -> I -> R)) k, (k < n)%nat ->
    let S' := fold_left (stage_update A B dt n rhs) (seq 0 k) st in
    let S'' := stage_update A B dt n rhs S' k in
    (forall s, (s <= k)%nat -> forall j, (j <= s)%nat ->
        fst (fold_left (stage_update A B dt n rhs) (seq 0 s) st) j = fst S' j /\ (j < s ->
        snd (fold_left (stage_update A B dt n rhs) (seq 0 s) st) j = snd S' j)%nat) /\
    fst S' 0%nat = fst st 0%nat.
  Proof.
    intros A B dt n rhs st k; induction k as [|k IH]; intros Hk; cbv zeta.
    - split; [|reflexivity]. intros s Hs j Hj. replace s with 0%nat by lia. split; [reflexivity | intros; lia].
    - specialize (IH ltac:(lia)). cbv zeta in IH. destruct IH as [I1 I2].
      rewrite !seq_S, !fold_left_app. cbn [fold_left Nat.add].
      set (P := fold_left (stage_update A B dt n rhs) (seq 0 k) st) in *.
      assert (U1 : forall j, (j <= k)%nat -> fst (stage_update A B dt n rhs P k) j = fst P j).
      { intros j Hj. unfold stage_update. cbn [fst].
        replace (Nat.eqb (k + 1) n) with false by (symmetry; apply Nat.eqb_neq; lia).
        apply upd_other; lia. }
      assert (U2 : forall j, (j < k)%nat -> snd (stage_update A B dt n rhs P k) j = snd P j).
      { intros j Hj. unfold stage_update. cbn [snd]. apply upd_other; lia. }
      split; [|rewrite U1 by lia; exact I2].
      intros s Hs j Hj. destruct (Nat.eq_dec s (S k)) as [->|Hne].
      + rewrite !seq_S, !fold_left_app. cbn [fold_left Nat.add]. fold P. split; [reflexivity | reflexivity].
      + destruct (I1 s ltac:(lia) j Hj) as [V1 V2]. split.
        * rewrite V1. symmetry; apply U1; lia.
        * intros Hlt. rewrite (V2 Hlt). symmetry; apply U2; lia.
  Qed.

  Theorem rk_step_spec : forall A B dt n rhs (st : (nat -> I -> R) * (nat -> I -> R)), (0 < n)%nat ->
    exists Qs sols : nat -> I -> R,
      Qs 0%nat = fst st 0%nat /\
      shu_osher (entry A) (entry B) dt n Qs sols /\
      fst (rk_step A B dt n rhs st) 0%nat = Qs n /\
      (forall k, (k < n)%nat -> exists arr, sols k = rhs k arr /\ forall s, (s <= k)%nat -> arr s = Qs s).
  Proof.
    intros A B dt n rhs st Hn.
    set (F := fun s => fold_left (stage_update A B dt n rhs) (seq 0 s) st).
    assert (FS : forall s, F (S s) = stage_update A B dt n rhs (F s) s).
    { intros s. unfold F. rewrite seq_S, fold_left_app. reflexivity. }
    set (Qs := fun s => if Nat.ltb s n then fst (F s) s else fst (F n) 0%nat).
    set (sols := fun s => rhs s (fst (F s))).
    assert (PF : forall k j, (k < n)%nat -> (j <= k)%nat -> fst (F k) j = Qs j).
    { intros k j Hk Hj. destruct (rk_prefix A B dt n rhs st k Hk) as [P _].
      destruct (P j ltac:(lia) j (le_n _)) as [P1 _]. unfold Qs.
      rewrite (proj2 (Nat.ltb_lt j n) ltac:(lia)). symmetry. exact P1. }
    assert (SF : forall k j, (k < n)%nat -> (j <= k)%nat -> snd (F (S k)) j = sols j).
    { intros k j Hk Hj.
      assert (SJ : forall m, (m < n)%nat -> snd (F (S m)) m = sols m).
      { intros m Hm. rewrite FS. unfold stage_update. cbn [snd]. apply upd_same. }
      destruct (Nat.eq_dec j k) as [->|Hne]; [apply SJ; assumption|].
      rewrite FS. unfold stage_update. cbn [snd]. rewrite upd_other by assumption.
      destruct (rk_prefix A B dt n rhs st k Hk) as [P _].
      destruct (P (S j) ltac:(lia) j ltac:(lia)) as [_ P2].
      fold (F (S j)) (F k) in P2. rewrite <- (P2 ltac:(lia)). apply SJ; lia. }
    exists Qs, sols. split; [|split; [|split]].
    - unfold Qs. rewrite (proj2 (Nat.ltb_lt 0 n) Hn). reflexivity.
    - intros k Hk i. rewrite <- next_state_sum.
      assert (E : Qs (S k) = next_state A B dt k (fst (F k)) (snd (F (S k)))).
      { assert (EF : snd (F (S k)) = upd (snd (F k)) k (rhs k (fst (F k)))) by (rewrite FS; reflexivity).
        rewrite EF. unfold Qs. destruct (Nat.ltb_spec (S k) n) as [L|L].
        - rewrite FS. unfold stage_update. cbn [fst].
          replace (Nat.eqb (k + 1) n) with false by (symmetry; apply Nat.eqb_neq; lia).
          rewrite Nat.add_1_r, upd_same. reflexivity.
        - replace (F n) with (F (S k)) by (f_equal; lia). rewrite FS. unfold stage_update. cbn [fst].
          replace (k + 1)%nat with n by lia. rewrite Nat.eqb_refl.
          rewrite upd_other by lia. rewrite upd_same. rewrite upd_same. reflexivity. }
      rewrite E. apply rsum_next; intros s Hs; [apply PF; lia | apply SF; lia].
    - unfold rk_step. fold (F n). unfold Qs. rewrite Nat.ltb_irrefl. reflexivity.
    - intros k Hk. exists (fst (F k)). split; [reflexivity|]. intros s Hs. apply PF; assumption.
  Qed.
End Step.

(** ** Butcher form computed from the tables *)
Fixpoint brow (a b : nat -> nat -> Q) (n k : nat) : list (Q * list Q) :=
  match k with
  | O => [(1%Q, repeat 0%Q n)]
  | S k' =>
      let prev := brow a b n k' in
      let rr s := fst (nth s prev (0%Q, [])) in
      let mm s j := nth j (snd (nth s prev (0%Q, []))) 0%Q in
      prev ++ [(qsum (S k') (fun s => a k' s * rr s)%Q,
                map (fun j => Qred (qsum (S k') (fun s => a k' s * mm s j)%Q
                                    + (if Nat.leb j k' then b k' j else 0))%Q) (seq 0 n))]
  end.
Definition br (a b : nat -> nat -> Q) (n k : nat) : Q := fst (nth k (brow a b n n) (0%Q, [])).
Definition bM (a b : nat -> nat -> Q) (n k j : nat) : Q := nth j (snd (nth k (brow a b n n) (0%Q, []))) 0%Q.

Lemma brow_length : forall a b n k, length (brow a b n k) = S k.
Proof. induction k; [reflexivity|]. cbn [brow]. cbv zeta. rewrite app_length, IHk. cbn. lia. Qed.

Lemma brow_stable : forall a b n k d s, (s <= k)%nat -> nth s (brow a b n (k + d)) (0%Q, []) = nth s (brow a b n k) (0%Q, []).
Proof.
  induction d as [|d IH]; intros s Hs; [now rewrite Nat.add_0_r|].
  rewrite Nat.add_succ_r. cbn [brow]. cbv zeta.
  rewrite app_nth1 by (rewrite brow_length; lia). apply IH; assumption.
Qed.

Lemma brow_top : forall a b n k s, (s <= k)%nat -> (k <= n)%nat ->
  nth s (brow a b n n) (0%Q, []) = nth s (brow a b n k) (0%Q, []).
Proof.
  intros. pose proof (brow_stable a b n k (n - k) s H) as E.
  replace (k + (n - k))%nat with n in E by lia. exact E.
Qed.

Lemma br_0 : forall a b n, br a b n 0 = 1%Q.
Proof. intros. unfold br. rewrite (brow_top a b n 0 0) by lia. reflexivity. Qed.
Lemma bM_0 : forall a b n j, bM a b n 0 j = 0%Q.
Proof.
  intros. unfold bM. rewrite (brow_top a b n 0 0) by lia. cbn [brow nth snd].
  destruct (Nat.lt_ge_cases j n).
  - apply nth_repeat.
  - apply nth_overflow. rewrite repeat_length; assumption.
Qed.
Lemma br_S : forall a b n k, (k < n)%nat -> br a b n (S k) = qsum (S k) (fun s => a k s * br a b n s)%Q.
Proof.
  intros a b n k Hk. unfold br. rewrite (brow_top a b n (S k) (S k)) by lia. cbn [brow]. cbv zeta.
  rewrite app_nth2 by (rewrite brow_length; lia). rewrite brow_length, Nat.sub_diag. cbn [nth fst].
  assert (E : forall m, (m <= S k)%nat ->
     qsum m (fun s => a k s * fst (nth s (brow a b n k) (0%Q, [])))%Q =
     qsum m (fun s => a k s * fst (nth s (brow a b n n) (0%Q, [])))%Q).
  { induction m; intros Hm; [reflexivity|]. cbn [qsum]. rewrite IHm by lia.
    rewrite (brow_top a b n k m) by lia. reflexivity. }
  apply E; lia.
Qed.
Lemma bM_S : forall a b n k j, (k < n)%nat -> (j < n)%nat ->
  Q2R (bM a b n (S k) j) = (rsum (S k) (fun s => Q2R (a k s) * Q2R (bM a b n s j))
                            + (if Nat.leb j k then Q2R (b k j) else 0))%R.
Proof.
  intros a b n k j Hk Hj. unfold bM at 1. rewrite (brow_top a b n (S k) (S k)) by lia. cbn [brow]. cbv zeta.
  rewrite app_nth2 by (rewrite brow_length; lia). rewrite brow_length, Nat.sub_diag. cbn [nth snd].
  match goal with |- context [map ?f (seq 0 n)] =>
    rewrite (nth_indep (map f (seq 0 n)) 0%Q (f 0%nat)) by (rewrite map_length, seq_length; lia);
    rewrite (map_nth f), seq_nth by lia end.
  cbv beta. rewrite (Qeq_eqR _ _ (Qred_correct _)), Q2R_plus, Q2R_qsum. rewrite Nat.add_0_l. f_equal.
  - apply rsum_ext. intros s Hs. rewrite Q2R_mult. f_equal. f_equal.
    unfold bM. rewrite (brow_top a b n k s) by lia. reflexivity.
  - destruct (Nat.leb j k); [reflexivity | apply RMicromega.Q2R_0].
Qed.

Theorem shu_osher_butcher : forall (I : Type) a b dt n (Qs sols : nat -> I -> R),
  shu_osher a b dt n Qs sols -> butcher_form (br a b n) (bM a b n) dt n Qs sols.
Proof.
  intros I a b dt n Qs sols H k. induction k as [k IH] using lt_wf_ind. intros Hk i.
  destruct k as [|k].
  - rewrite br_0. rewrite (rsum_ext n _ (fun _ => 0%R)).
    + rewrite rsum_0, RMicromega.Q2R_1. ring.
    + intros j Hj. rewrite bM_0, RMicromega.Q2R_0. ring.
  - rewrite (H k ltac:(lia) i).
    rewrite (rsum_ext (S k) _ (fun s => Q2R (a k s) * Q2R (br a b n s) * Qs 0%nat i
        + (dt * (Q2R (a k s) * rsum n (fun j => Q2R (bM a b n s j) * sols j i))
        + dt * (Q2R (b k s) * sols s i)))%R).
    2:{ intros s Hs. rewrite (IH s ltac:(lia) ltac:(lia) i). ring. }
    rewrite !rsum_plus, !rsum_scal, rsum_scal_r.
    rewrite (br_S a b n k ltac:(lia)), Q2R_qsum.
    rewrite (rsum_ext (S k) (fun s => Q2R (a k s * br a b n s)) (fun s => Q2R (a k s) * Q2R (br a b n s))%R)
      by (intros; apply Q2R_mult).
    rewrite (rsum_ext n (fun j => Q2R (bM a b n (S k) j) * sols j i)%R
      (fun j => rsum (S k) (fun s => Q2R (a k s) * (Q2R (bM a b n s j) * sols j i))
               + (if Nat.leb j k then Q2R (b k j) * sols j i else 0))%R).
    2:{ intros j Hj. rewrite (bM_S a b n k j ltac:(lia) Hj), Rmult_plus_distr_r, <- rsum_scal_r. f_equal.
        - apply rsum_ext; intros; ring.
        - destruct (Nat.leb j k); ring. }
    rewrite rsum_plus.
    rewrite <- (rsum_swap (S k) n (fun s j => Q2R (a k s) * (Q2R (bM a b n s j) * sols j i))%R).
    rewrite (rsum_ext (S k) (fun s => rsum n (fun j => Q2R (a k s) * (Q2R (bM a b n s j) * sols j i)))%R
       (fun s => Q2R (a k s) * rsum n (fun j => Q2R (bM a b n s j) * sols j i))%R)
      by (intros; apply rsum_scal).
    rewrite (rsum_extend n (S k) (fun j => if Nat.leb j k then Q2R (b k j) * sols j i else 0)%R).
    + rewrite (rsum_ext (S k) (fun j => if Nat.leb j k then Q2R (b k j) * sols j i else 0)%R
        (fun s => Q2R (b k s) * sols s i)%R).
      * ring.
      * intros j Hj. rewrite (proj2 (Nat.leb_le j k)) by lia. reflexivity.
    + lia.
    + intros j Hj. rewrite (proj2 (Nat.leb_gt j k)) by lia. reflexivity.
Qed.

(** ** Checks by computation *)
Definition tol10 : Q := 1 # 10000000000.
Definition tol13 : Q := 1 # 10000000000000.

Lemma qsum_ext : forall n f g, (forall i, (i < n)%nat -> f i = g i) -> qsum n f = qsum n g.
Proof.
  induction n as [|n IH]; intros f g H; cbn [qsum]; [reflexivity|].
  rewrite (IH f g), (H n) by (intros; try apply H; lia). reflexivity.
Qed.
(** Table of a function, computed once. *)
Definition memo (n : nat) (f : nat -> Q) : nat -> Q := let l := map f (seq 0 n) in fun i => nth i l 0%Q.
Lemma memo_eq : forall n f i, (i < n)%nat -> memo n f i = f i.
Proof.
  intros n f i Hi. unfold memo. rewrite (nth_indep _ 0%Q (f 0%nat)) by (rewrite map_length, seq_length; lia).
  rewrite (map_nth f), seq_nth by lia. reflexivity.
Qed.
Local Open Scope Q_scope.
Local Open Scope list_scope.
Definition order_memo (T : list (Q * list Q)) (n p : nat) : list Q :=
  let M k j := nth j (snd (nth k T (0%Q, []))) 0%Q in
  let b := M n in
  let S := qsum n in
  let c := memo n (fun k => S (M k)) in
  let Ac := memo n (fun i => S (fun j => M i j * c j)) in
  let Acc := memo n (fun i => S (fun j => M i j * (c j * c j))) in
  let AAc := memo n (fun i => S (fun j => M i j * Ac j)) in
  (if Nat.leb 1 p then [S b - 1] else []) ++
  (if Nat.leb 2 p then [S (fun i => b i * c i) - (1#2)] else []) ++
  (if Nat.leb 3 p then [S (fun i => b i * (c i * c i)) - (1#3);
                        S (fun i => b i * Ac i) - (1#6)] else []) ++
  (if Nat.leb 4 p then [S (fun i => b i * (c i * c i * c i)) - (1#4);
                        S (fun i => b i * c i * Ac i) - (1#8);
                        S (fun i => b i * Acc i) - (1#12);
                        S (fun i => b i * AAc i) - (1#24)] else []).

Local Close Scope Q_scope.
Lemma order_memo_eq : forall a b n p,
  order_residuals (bM a b n) n p = order_memo (brow a b n n) n p.
Proof.
  intros a b n p. unfold order_residuals, order_memo. cbv zeta.
  change (fun k j : nat => nth j (snd (nth k (brow a b n n) (0%Q, []))) 0%Q) with (bM a b n).
  change (fun j : nat => nth j (snd (nth n (brow a b n n) (0%Q, []))) 0%Q) with (bM a b n n).
  assert (C : forall i, (i < n)%nat -> memo n (fun k => qsum n (bM a b n k)) i = abscissa (bM a b n) n i)
    by (intros; rewrite memo_eq by assumption; reflexivity).
  repeat match goal with
  | |- _ ++ _ = _ ++ _ => f_equal
  | |- (if ?x then _ else _) = _ => destruct x; [|reflexivity]
  | |- _ :: _ = _ :: _ => f_equal
  | |- [] = [] => reflexivity
  | |- (_ - _)%Q = _ => f_equal
  | |- qsum n _ = qsum n _ => apply qsum_ext; intros
  | |- (_ * _)%Q = (_ * _)%Q => f_equal
  | |- abscissa _ _ _ = memo n _ _ => symmetry; apply C; assumption
  | |- qsum n _ = memo n _ _ => rewrite memo_eq by assumption
  | |- _ => reflexivity
  end.
Qed.

Lemma order_ok_sharp : forall n p A B, rk_table n p = Some (A, B) ->
  forall e, In e (order_residuals (bM (entry A) (entry B) n) n p) -> (Qabs e <= rk_accuracy n p)%Q.
Proof.
  intros n p A B E e He. rewrite order_memo_eq in He.
  pose proof (scheme_forall (fun n p A B =>
     forallb (fun e => Qle_bool (Qabs e) (rk_accuracy n p)) (order_memo (brow (entry A) (entry B) n n) n p))
     ltac:(vm_compute; reflexivity) n p A B E) as H. cbv beta in H.
  rewrite forallb_forall in H. apply Qle_bool_iff. apply H; assumption.
Qed.
Lemma order_ok : forall n p A B, rk_table n p = Some (A, B) ->
  forall e, In e (order_residuals (bM (entry A) (entry B) n) n p) -> (Qabs e <= tol10)%Q.
Proof.
  intros n p A B E e He. eapply Qle_trans; [exact (order_ok_sharp n p A B E e He)|].
  apply Qle_bool_iff. exact (scheme_forall (fun n p A B => Qle_bool (rk_accuracy n p) tol10) ltac:(vm_compute; reflexivity) n p A B E).
Qed.

Lemma rowsum_ok : forall n p A B, rk_table n p = Some (A, B) -> forall k, (k <= n)%nat ->
  (Qabs (br (entry A) (entry B) n k - 1) <= tol13)%Q.
Proof.
  intros n p A B E k Hk.
  pose proof (scheme_forall (fun n p A B =>
     forallb (fun k => Qle_bool (Qabs (br (entry A) (entry B) n k - 1)) tol13) (seq 0 (S n)))
     ltac:(vm_compute; reflexivity) n p A B E) as H. cbv beta in H.
  rewrite forallb_forall in H. apply Qle_bool_iff. apply H. apply in_seq; lia.
Qed.

Lemma coef_ok : forall n p A B, rk_table n p = Some (A, B) -> forall k s, (k < n)%nat -> (s <= k)%nat ->
  (0 <= entry A k s)%Q /\ (0 <= entry B k s)%Q /\ (entry B k s <= 3 * entry A k s)%Q.
Proof.
  intros n p A B E k s Hk Hs.
  pose proof (scheme_forall (fun n p A B =>
     forallb (fun k => forallb (fun s => Qle_bool 0 (entry A k s) && Qle_bool 0 (entry B k s)
         && Qle_bool (entry B k s) (3 * entry A k s)) (seq 0 (S k))) (seq 0 n))
     ltac:(vm_compute; reflexivity) n p A B E) as H. cbv beta in H.
  rewrite forallb_forall in H. specialize (H k ltac:(apply in_seq; lia)).
  rewrite forallb_forall in H. specialize (H s ltac:(apply in_seq; lia)).
  rewrite !andb_true_iff, !Qle_bool_iff in H. tauto.
Qed.

(** ** Linear functionals *)
Lemma lf_zero : forall (I : Type) (L : (I -> R) -> R), linear_functional L -> L (fun _ => 0%R) = 0%R.
Proof.
  intros I L HL. rewrite <- (lf_ext L HL (fun _ : I => 0 * 0)%R (fun _ => 0%R)) by (intros; ring).
  rewrite (lf_scal L HL 0 (fun _ => 0%R)). ring.
Qed.
Lemma lf_rsum : forall (I : Type) (L : (I -> R) -> R), linear_functional L -> forall n c (x : nat -> I -> R),
  L (fun i => rsum n (fun j => c j * x j i)%R) = rsum n (fun j => c j * L (x j))%R.
Proof.
  intros I L HL n c x. induction n as [|n IH]; cbn [rsum]; [apply lf_zero; assumption|].
  rewrite (lf_add L HL (fun i => rsum n (fun j => c j * x j i)%R) (fun i => c n * x n i)%R).
  rewrite IH, (lf_scal L HL). reflexivity.
Qed.
Lemma butcher_functional : forall (I : Type) (L : (I -> R) -> R) r M dt n (Qs sols : nat -> I -> R),
  linear_functional L -> butcher_form r M dt n Qs sols -> forall k, (k <= n)%nat ->
  L (Qs k) = (Q2R (r k) * L (Qs 0%nat) + dt * rsum n (fun j => Q2R (M k j) * L (sols j)))%R.
Proof.
  intros I L r M dt n Qs sols HL H k Hk.
  rewrite (lf_ext L HL (Qs k) (fun i => Q2R (r k) * Qs 0%nat i + dt * rsum n (fun j => Q2R (M k j) * sols j i))%R)
    by (apply H; assumption).
  rewrite (lf_add L HL (fun i => Q2R (r k) * Qs 0%nat i)%R (fun i => dt * rsum n (fun j => Q2R (M k j) * sols j i))%R).
  rewrite !(lf_scal L HL). rewrite (lf_rsum I L HL). reflexivity.
Qed.

(** ** Strong stability *)
Lemma sl_zero : forall (I : Type) (N : (I -> R) -> R), sublinear N -> N (fun _ => 0%R) = 0%R.
Proof.
  intros I N HN. rewrite <- (sl_ext N HN (fun _ : I => 0 * 0)%R (fun _ => 0%R)) by (intros; ring).
  rewrite (sl_scal N HN 0 (fun _ => 0%R)) by lra. ring.
Qed.
Lemma sl_rsum : forall (I : Type) (N : (I -> R) -> R), sublinear N -> forall n (x : nat -> I -> R),
  (N (fun i => rsum n (fun j => x j i)) <= rsum n (fun j => N (x j)))%R.
Proof.
  intros I N HN n x. induction n as [|n IH]; cbn [rsum]; [rewrite sl_zero by assumption; lra|].
  pose proof (sl_add N HN (fun i => rsum n (fun j => x j i)) (x n)). lra.
Qed.
Lemma shu_osher_ssp : forall (I : Type) (N : (I -> R) -> R) a b dt dtFE n (Qs sols : nat -> I -> R),
  sublinear N -> shu_osher a b dt n Qs sols -> (0 <= dt)%R ->
  (forall k s, (k < n)%nat -> (s <= k)%nat -> (0 <= a k s)%Q /\ (0 <= b k s)%Q /\ dt * Q2R (b k s) <= dtFE * Q2R (a k s))%R ->
  (forall k h, (k < n)%nat -> (0 <= h <= dtFE)%R -> (N (fun i => Qs k i + h * sols k i) <= N (Qs k))%R) ->
  forall k, (k <= n)%nat -> (N (Qs k) <= Q2R (br a b n k) * N (Qs 0%nat))%R.
Proof.
  intros I N a b dt dtFE n Qs sols HN HS Hdt Hab HFE.
  intros k; induction k as [k IH] using lt_wf_ind; intros Hk.
  destruct k as [|k]; [rewrite br_0, RMicromega.Q2R_1; lra|].
  rewrite (sl_ext N HN (Qs (S k)) _ (HS k ltac:(lia))).
  eapply Rle_trans; [apply (sl_rsum I N HN (S k) (fun s i => Q2R (a k s) * Qs s i + dt * Q2R (b k s) * sols s i)%R)|].
  rewrite br_S by lia. rewrite Q2R_qsum, <- rsum_scal_r.
  apply rsum_le. intros s Hs.
  destruct (Hab k s ltac:(lia) ltac:(lia)) as (A0 & B0 & AB).
  assert (A0' : (0 <= Q2R (a k s))%R) by (rewrite <- RMicromega.Q2R_0; apply Qle_Rle; assumption).
  assert (B0' : (0 <= Q2R (b k s))%R) by (rewrite <- RMicromega.Q2R_0; apply Qle_Rle; assumption).
  rewrite Q2R_mult, Rmult_assoc.
  apply Rle_trans with (Q2R (a k s) * N (Qs s))%R.
  2:{ apply Rmult_le_compat_l; [assumption|]. apply IH; lia. }
  assert (D : (0 <= dt * Q2R (b k s))%R) by (apply Rmult_le_pos; assumption).
  destruct (Req_dec (Q2R (a k s)) 0) as [Z|Z].
  - assert (dt * Q2R (b k s) = 0)%R by (rewrite Z in AB; lra).
    rewrite (sl_ext N HN _ (fun _ => 0%R)) by (intros i; rewrite Z, H; ring).
    rewrite sl_zero by assumption. rewrite Z. lra.
  - assert (A1 : (0 < Q2R (a k s))%R) by lra.
    rewrite (sl_ext N HN _ (fun i => Q2R (a k s) * (Qs s i + (dt * Q2R (b k s) / Q2R (a k s)) * sols s i))%R)
      by (intros i; field; lra).
    rewrite (sl_scal N HN (Q2R (a k s)) (fun i => Qs s i + dt * Q2R (b k s) / Q2R (a k s) * sols s i)%R) by assumption.
    apply Rmult_le_compat_l; [assumption|]. apply HFE; [lia|]. split.
    + apply Rmult_le_pos; [assumption|]. left; apply Rinv_0_lt_compat; assumption.
    + apply Rmult_le_reg_r with (Q2R (a k s)); [assumption|].
      unfold Rdiv. rewrite Rmult_assoc, Rinv_l by lra. lra.
Qed.

(** ** Linear test equation *)
Fixpoint padd (l m : list Q) : list Q :=
  match l, m with
  | [], _ => m
  | _, [] => l
  | x :: l', y :: m' => Qred (x + y)%Q :: padd l' m'
  end.
Definition pscale (c : Q) (l : list Q) : list Q := map (fun x => Qred (c * x)%Q) l.
Fixpoint psum (n : nat) (f : nat -> list Q) : list Q :=
  match n with O => [] | S m => padd (psum m f) (f m) end.
Lemma peval_padd : forall l m z, peval (padd l m) z = (peval l z + peval m z)%R.
Proof.
  induction l as [|x l IH]; intros [|y m] z; cbn [padd peval]; try ring.
  rewrite IH, (Qeq_eqR _ _ (Qred_correct _)), Q2R_plus. ring.
Qed.
Lemma peval_pscale : forall c l z, peval (pscale c l) z = (Q2R c * peval l z)%R.
Proof.
  induction l as [|x l IH]; intros z; [cbn; ring|].
  change (pscale c (x :: l)) with (Qred (c * x)%Q :: pscale c l). cbn [peval].
  rewrite IH, (Qeq_eqR _ _ (Qred_correct _)), Q2R_mult. ring.
Qed.
Lemma peval_psum : forall n f z, peval (psum n f) z = rsum n (fun s => peval (f s) z).
Proof. induction n; intros; cbn [psum rsum]; [reflexivity | rewrite peval_padd, IHn; reflexivity]. Qed.

Fixpoint prow (a b : nat -> nat -> Q) (k : nat) : list (list Q) :=
  match k with
  | O => [[1%Q]]
  | S k' =>
      let prev := prow a b k' in
      prev ++ [psum (S k') (fun s => padd (pscale (a k' s) (nth s prev []))
                                        (0%Q :: pscale (b k' s) (nth s prev [])))]
  end.
Lemma prow_length : forall a b k, length (prow a b k) = S k.
Proof. induction k; [reflexivity|]. cbn [prow]. cbv zeta. rewrite app_length, IHk. cbn. lia. Qed.

Theorem shu_osher_linear : forall (I : Type) a b dt n (Qs sols : nat -> I -> R) lam,
  shu_osher a b dt n Qs sols -> (forall k i, (k < n)%nat -> sols k i = lam * Qs k i)%R ->
  forall k, (k <= n)%nat -> forall s, (s <= k)%nat -> forall i,
    Qs s i = (peval (nth s (prow a b k) []) (dt * lam) * Qs 0%nat i)%R.
Proof.
  intros I a b dt n Qs sols lam HS HL k. induction k as [|k IH]; intros Hk s Hs i.
  - replace s with 0%nat by lia. cbn. rewrite RMicromega.Q2R_1. ring.
  - cbn [prow]. cbv zeta. destruct (Nat.eq_dec s (S k)) as [->|Hne].
    + rewrite app_nth2 by (rewrite prow_length; lia). rewrite prow_length, Nat.sub_diag.
      cbn [nth]. rewrite peval_psum, <- rsum_scal_r. rewrite (HS k ltac:(lia) i).
      apply rsum_ext. intros s Hs'. rewrite HL by lia. rewrite (IH ltac:(lia) s ltac:(lia) i).
      rewrite peval_padd, peval_pscale. cbn [peval]. rewrite peval_pscale, RMicromega.Q2R_0. ring.
    + rewrite app_nth1 by (rewrite prow_length; lia). apply IH; lia.
Qed.

Lemma linear_ok : forall n p A B, rk_table n p = Some (A, B) -> forall d, (d <= p)%nat ->
  (Qabs (nth d (nth n (prow (entry A) (entry B) n) []) 0 - / qfact d) <= tol10)%Q.
Proof.
  intros n p A B E d Hd.
  pose proof (scheme_forall (fun n p A B =>
     let P := nth n (prow (entry A) (entry B) n) [] in
     forallb (fun d => Qle_bool (Qabs (nth d P 0%Q - / qfact d)%Q) tol10) (seq 0 (S p)))
     ltac:(vm_compute; reflexivity) n p A B E) as H. cbv beta zeta in H.
  rewrite forallb_forall in H. apply Qle_bool_iff. apply H. apply in_seq; lia.
Qed.

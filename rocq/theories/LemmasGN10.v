(** Proofs: what a correction stage does to the state. *)
From Coq Require Import Reals List Arith Bool Lia Lra QArith Qreals.
From Verif Require Import Num Outcome ModelSWE LemmasSWE ModelShape ModelBasis ModelJac ModelStepper ModelStep ModelIHDG ModelCond SpecShape SpecBasis SpecStepper SpecStep SpecStage
  LemmasRK LemmasStep LemmasStage3 LemmasStage4 LemmasCond ModelGN.
Import ListNotations.
Open Scope R_scope.

Section Loop.
  Context (m : mesh) (c : config) (dt : R) (n k : nat) (M : nat -> coeffs).
  Definition set_all (l : list nat) (st : mstate) : mstate := fold_left (fun s e => set_rhs s e k (M e)) l st.
  Lemma update_set : forall s e e', e <> e' -> update_kernel m c dt n k (set_rhs s e k (M e)) e' = set_rhs (update_kernel m c dt n k s e') e k (M e).
  Proof.
    intros s e e' D. unfold update_kernel, set_rhs. cbn [ms_q ms_rhs ms_sol ms_wet ms_cd ms_slm]. rewrite (upd_other _ (ms_rhs s) e e') by congruence. reflexivity.
  Qed.
  Lemma update_set_all : forall l s e', ~ In e' l -> update_kernel m c dt n k (set_all l s) e' = set_all l (update_kernel m c dt n k s e').
  Proof.
    induction l as [|e l IH]; intros s e' N; [reflexivity|]. unfold set_all in *. cbn [fold_left]. rewrite IH by (intros H; apply N; right; exact H).
    rewrite update_set; [reflexivity|]. intros ->. apply N. left. reflexivity.
  Qed.
  Lemma interleaved : forall l s, NoDup l ->
    fold_left (fun s e => update_kernel m c dt n k (set_rhs s e k (M e)) e) l s = fold_left (update_kernel m c dt n k) l (set_all l s).
  Proof.
    induction l as [|e l IH]; intros s H; [reflexivity|]. inversion H as [|? ? N H']; subst. cbn [fold_left]. rewrite IH by exact H'.
    unfold set_all at 2. cbn [fold_left]. fold (set_all l (set_rhs s e k (M e))). rewrite update_set_all by exact N. reflexivity.
  Qed.
  Lemma set_all_same : forall l s, ms_q (set_all l s) = ms_q s /\ ms_sol (set_all l s) = ms_sol s /\ ms_wet (set_all l s) = ms_wet s.
  Proof. induction l as [|e l IH]; intros s; [repeat split|]. unfold set_all in *. cbn [fold_left]. destruct (IH (set_rhs s e k (M e))) as (A & B & D). rewrite A, B, D. repeat split. Qed.
  Lemma set_all_rhs : forall l s e, ms_rhs (set_all l s) e k = if existsb (Nat.eqb e) l then M e else ms_rhs s e k.
  Proof.
    induction l as [|e' l IH]; intros s e; [reflexivity|]. unfold set_all in *. cbn [fold_left existsb]. rewrite IH. destruct (existsb (Nat.eqb e) l); [rewrite orb_true_r; reflexivity|]. rewrite orb_false_r.
    unfold set_rhs. cbn [ms_rhs]. unfold upd. destruct (Nat.eqb_spec e e') as [->|D]; [rewrite Nat.eqb_refl; reflexivity|reflexivity].
  Qed.
  Lemma loop_result : forall s, (k < n)%nat ->
    let s' := fold_left (fun s e => update_kernel m c dt n k (set_rhs s e k (M e)) e) (seq 0 (m_n m)) s in
    ms_wet s' = ms_wet s /\ forall e, (e < m_n m)%nat ->
      (forall j, ms_sol s' e j = if Nat.eqb j k then apply_minv m e (M e) else ms_sol s e j) /\
      (forall v i, ms_q s' e ((k + 1) mod n)%nat v i = shu_osher c dt k (ms_q s e) (ms_sol s' e) v i) /\
      ((k + 1 < n)%nat -> forall j, j <> (k + 1)%nat -> ms_q s' e j = ms_q s e j).
  Proof.
    intros s Hk. cbv zeta. rewrite interleaved by apply seq_NoDup. destruct (set_all_same (seq 0 (m_n m)) s) as (Q & So & W).
    destruct (update_loop m c dt n k (m_n m) (set_all (seq 0 (m_n m)) s) Hk) as (A & _ & _ & D). split; [rewrite D; exact W|].
    intros e He. destruct (A e He) as (A1 & A2 & A3). rewrite A1. split; [|split].
    - intros j. unfold newsol, upd. rewrite So, set_all_rhs. replace (existsb (Nat.eqb e) (seq 0 (m_n m))) with true; [reflexivity|].
      symmetry. apply existsb_exists. exists e. split; [apply in_seq; lia|apply Nat.eqb_refl].
    - intros v i. rewrite A2. unfold newrow, shu_osher. rewrite next_state_sum. cbn [fst snd]. rewrite Q. reflexivity.
    - intros Hl j Hj. rewrite (A3 Hl j Hj), Q. reflexivity.
  Qed.
End Loop.

Section Stage.
  Context (m : mesh) (c : config) (disp : nat -> bool).
  Context (inverse : nat -> (nat -> nat -> R) -> nat -> nat -> R) (solve_dense : nat -> (nat -> nat -> R) -> (nat -> R) -> nat -> R)
          (solve_sparse : nat -> (nat -> nat -> R) -> (nat -> R) -> nat -> R) (troubled : nat -> bool).
  Notation stage := (correction_stage m c disp inverse solve_dense solve_sparse troubled).

  (** What any stage that returns did. *)
  Lemma stage_inv : forall st nb stp s' nb' stp', (st_stage stp < st_nstages stp)%nat -> stage ((st, nb), stp) = Ok ((s', nb'), stp') ->
    let k := st_stage stp in
    exists d w1, dc_blocks m (c_g c) (fun e => ms_q st e k) (ms_wet st) = Ok d /\ nb' = renumber m (c_wd c) (ms_wet st) nb /\
    solve_dc m inverse solve_dense solve_sparse (ms_wet st) nb' d = Ok w1 /\ stp' = stepper_incr stp /\ ms_wet s' = ms_wet st /\
    forall e, (e < m_n m)%nat ->
      (forall j, ms_sol s' e j = if Nat.eqb j k then apply_minv m e (correction_rhs m c disp troubled (fun e => ms_q st e k) (ms_wet st) w1 e) else ms_sol st e j) /\
      (forall v i, ms_q s' e ((k + 1) mod st_nstages stp)%nat v i = shu_osher c (st_dt stp) k (ms_q st e) (ms_sol s' e) v i) /\
      ((k + 1 < st_nstages stp)%nat -> forall j, j <> (k + 1)%nat -> ms_q s' e j = ms_q st e j).
  Proof.
    intros st nb stp s' nb' stp' Hk H k. unfold correction_stage in H. fold k in H, Hk.
    destruct (dc_blocks m (c_g c) (fun e => ms_q st e k) (ms_wet st)) as [d| |] eqn:Ed; cbn [bind] in H; try discriminate.
    destruct (solve_dc m inverse solve_dense solve_sparse (ms_wet st) (renumber m (c_wd c) (ms_wet st) nb) d) as [w1| |] eqn:Es; cbn [bind] in H; try discriminate.
    injection H as <- <- <-. exists d, w1. split; [reflexivity|]. split; [reflexivity|]. split; [exact Es|]. split; [reflexivity|].
    exact (loop_result m c (st_dt stp) (st_nstages stp) k (fun e => correction_rhs m c disp troubled (fun e => ms_q st e k) (ms_wet st) w1 e) st Hk).
  Qed.
  Lemma stage_ok_form : forall st nb stp d w1, let k := st_stage stp in
    dc_blocks m (c_g c) (fun e => ms_q st e k) (ms_wet st) = Ok d ->
    solve_dc m inverse solve_dense solve_sparse (ms_wet st) (renumber m (c_wd c) (ms_wet st) nb) d = Ok w1 ->
    exists s', stage ((st, nb), stp) = Ok ((s', renumber m (c_wd c) (ms_wet st) nb), stepper_incr stp).
  Proof. intros st nb stp d w1 k Ed Es. unfold correction_stage. fold k. rewrite Ed. cbn [bind]. rewrite Es. cbn [bind]. eexists. reflexivity. Qed.

  Lemma minv_zero : forall e (M : coeffs) v, (forall i, M v i = 0) -> forall i, apply_minv m e M v i = 0.
  Proof. intros e M v H i. unfold apply_minv. rewrite vmsum_rsum. apply rsum_const0. intros j _. rewrite H. ring. Qed.

  (** ** Rows without production *)
  Definition quiet (wet : nat -> bool) (e v : nat) : Prop := v = 0%nat \/ wet e && disp e && negb (troubled e) = false.
  Lemma quiet_rhs : forall q wet w1 e v i, quiet wet e v -> correction_rhs m c disp troubled q wet w1 e v i = 0.
  Proof. intros q wet w1 e v i [->|H]; unfold correction_rhs; [destruct (_ && _); reflexivity|rewrite H; reflexivity]. Qed.

  Context (n : nat) (Hn : (0 < n)%nat) (Row : forall k, (k < n)%nat -> rsum (S k) (fun s => Q2R (ModelStepper.entry (c_A c) k s)) = 1).
  Definition kept (st0 st : mstate) (k : nat) : Prop := ms_wet st = ms_wet st0 /\ forall e v i, (e < m_n m)%nat -> quiet (ms_wet st0) e v ->
    (forall j, (j <= k)%nat -> ms_q st e j v i = ms_q st0 e 0%nat v i) /\ (forall j, (j < k)%nat -> ms_sol st e j v i = 0).
  Lemma shu_kept : forall st0 st s' e v i k dt, kept st0 st k -> (k < n)%nat -> (e < m_n m)%nat -> quiet (ms_wet st0) e v ->
    (forall j, (j <= k)%nat -> ms_sol s' e j v i = 0) -> shu_osher c dt k (ms_q st e) (ms_sol s' e) v i = ms_q st0 e 0%nat v i.
  Proof.
    intros st0 st s' e v i k dt [_ H] Hk He Q Z. unfold shu_osher. destruct (H e v i He Q) as [H1 _].
    rewrite (rsum_ext _ _ (fun s => Q2R (ModelStepper.entry (c_A c) k s) * ms_q st0 e 0%nat v i)); [rewrite rsum_scal_r, Row by exact Hk; ring|].
    intros s Hs. rewrite H1, Z by lia. ring.
  Qed.
  Lemma kept_stage : forall st0 st nb stp s' nb' stp', st_nstages stp = n -> (st_stage stp < n)%nat -> kept st0 st (st_stage stp) ->
    stage ((st, nb), stp) = Ok ((s', nb'), stp') -> stp' = stepper_incr stp /\
    ((st_stage stp + 1 < n)%nat -> kept st0 s' (st_stage stp + 1)) /\
    (st_stage stp + 1 = n -> kept st0 s' 0)%nat.
  Proof.
    intros st0 st nb stp s' nb' stp' En Hk H E. destruct (stage_inv st nb stp s' nb' stp' ltac:(lia) E) as (d & w1 & _ & _ & _ & Es & W & A). split; [exact Es|].
    destruct H as [HW H]. set (k := st_stage stp) in *. rewrite En in A.
    assert (Z : forall e v i j, (e < m_n m)%nat -> quiet (ms_wet st0) e v -> (j <= k)%nat -> ms_sol s' e j v i = 0).
    { intros e v i j He Q Hj. destruct (A e He) as (A1 & _). rewrite A1. destruct (Nat.eqb_spec j k) as [->|D]; [|apply (H e v i He Q); lia].
      apply minv_zero. intros l. apply quiet_rhs. rewrite HW. exact Q. }
    assert (N : forall e v i, (e < m_n m)%nat -> quiet (ms_wet st0) e v -> ms_q s' e ((k + 1) mod n)%nat v i = ms_q st0 e 0%nat v i).
    { intros e v i He Q. destruct (A e He) as (_ & A2 & _). rewrite A2. apply (shu_kept st0 st s' e v i k _ (conj HW H) Hk He Q). intros j Hj. apply Z; assumption. }
    split; intros Hl; (split; [rewrite W; exact HW|]); intros e v i He Q.
    - rewrite Nat.mod_small in N by exact Hl. split; [|intros j Hj; apply Z; [exact He|exact Q|lia]].
      intros j Hj. destruct (Nat.eq_dec j (k + 1)) as [->|D]; [exact (N e v i He Q)|]. destruct (A e He) as (_ & _ & A3). rewrite A3 by assumption. apply (H e v i He Q). lia.
    - rewrite Hl, Nat.mod_same in N by lia. split; [|lia]. intros j Hj. replace j with 0%nat by lia. exact (N e v i He Q).
  Qed.
End Stage.

Section Correction.
  Context (m : mesh) (c : config) (disp : nat -> bool).
  Context (inverse : nat -> (nat -> nat -> R) -> nat -> nat -> R) (solve_dense : nat -> (nat -> nat -> R) -> (nat -> R) -> nat -> R)
          (solve_sparse : nat -> (nat -> nat -> R) -> (nat -> R) -> nat -> R) (troubled : nat -> bool).
  Notation stage := (correction_stage m c disp inverse solve_dense solve_sparse troubled).
  Notation corr := (correction m c disp inverse solve_dense solve_sparse troubled).
  Context (n : nat) (Hn : (0 < n)%nat) (Row : forall k, (k < n)%nat -> rsum (S k) (fun s => Q2R (ModelStepper.entry (c_A c) k s)) = 1).

  Definition run (j : nat) (s : gstate * stepper) : outcome (gstate * stepper) := ofold (fun s _ => stage s) (seq 0 j) s.
  Lemma run_S : forall j s, run (S j) s = bind (run j s) stage.
  Proof.
    intros j s. unfold run. rewrite seq_S. generalize (seq 0 j) as l. intros l. revert s. induction l as [|x l IH]; intros s; cbn [app ofold bind].
    - destruct (stage s); reflexivity.
    - destruct (stage s); cbn [bind]; [apply IH|reflexivity|reflexivity].
  Qed.
  Lemma kept_run : forall st nb stp, st_nstages stp = n -> st_stage stp = 0%nat -> forall j s, (j < n)%nat -> run j ((st, nb), stp) = Ok s ->
    kept m disp troubled st (fst (fst s)) j /\ st_nstages (snd s) = n /\ st_stage (snd s) = j.
  Proof.
    intros st nb stp En E0. induction j as [|j IH]; intros s Hj E.
    - cbn in E. injection E as <-. cbn [fst snd]. split; [|split; assumption]. split; [reflexivity|]. intros e v i _ _. split; [|lia]. intros j Hj'. replace j with 0%nat by lia. reflexivity.
    - rewrite run_S in E. destruct (run j ((st, nb), stp)) as [[[s1 nb1] p1]| |] eqn:E1; cbn [bind] in E; try discriminate.
      destruct (IH _ ltac:(lia) eq_refl) as (K & N1 & K1). cbn [fst snd] in *. destruct s as [[s2 nb2] p2].
      destruct (kept_stage m c disp inverse solve_dense solve_sparse troubled n Hn Row st s1 nb1 p1 s2 nb2 p2 N1 ltac:(lia) ltac:(rewrite K1; exact K) E) as (-> & A & _).
      cbn [fst snd]. destruct (incr_stage p1) as [I1 [I2 _]]. rewrite I1, I2, N1, K1. rewrite K1 in A. replace (S j) with (j + 1)%nat by lia. split; [apply A; lia|]. split; [reflexivity|apply Nat.mod_small; lia].
  Qed.
  Theorem correction_kept : forall st nb stp st' nb' stp', st_nstages stp = n -> st_stage stp = 0%nat -> corr ((st, nb), stp) = Ok ((st', nb'), stp') ->
    ms_wet st' = ms_wet st /\ st_stage stp' = 0%nat /\
    forall e v i, (e < m_n m)%nat -> v = 0%nat \/ ms_wet st e && disp e && negb (troubled e) = false -> ms_q st' e 0%nat v i = ms_q st e 0%nat v i.
  Proof.
    intros st nb stp st' nb' stp' En E0 E. unfold correction in E. cbn [snd] in E. rewrite En in E. change (run n ((st, nb), stp) = Ok ((st', nb'), stp')) in E.
    replace n with (S (n - 1)) in E by lia. rewrite run_S in E. destruct (run (n - 1) ((st, nb), stp)) as [[[s1 nb1] p1]| |] eqn:E1; cbn [bind] in E; try discriminate.
    destruct (kept_run st nb stp En E0 (n - 1)%nat _ ltac:(lia) E1) as (K & N1 & K1). cbn [fst snd] in *.
    destruct (kept_stage m c disp inverse solve_dense solve_sparse troubled n Hn Row st s1 nb1 p1 st' nb' stp' N1 ltac:(lia) ltac:(rewrite K1; exact K) E) as (-> & _ & A).
    destruct (A ltac:(lia)) as [W H]. split; [exact W|]. split.
    - destruct (incr_stage p1) as [I1 _]. rewrite I1, N1, K1. replace (n - 1 + 1)%nat with n by lia. apply Nat.mod_same. lia.
    - intros e v i He Q. apply (H e v i He Q). lia.
  Qed.
End Correction.

(** Newton's method for the trace of an open boundary. *)
From Coq Require Import Reals QArith Qreals List Bool Arith Lia Lra.
From Coquelicot Require Import Hierarchy Derive.
From Verif Require Import Num ModelSWE Outcome ModelShape ModelBasis ModelJac ModelStepper ModelWetDry ModelSlope ModelStep ModelInit ModelIHDG ModelEHDG
  SpecSWE SpecShape SpecBasis SpecJac SpecStepper SpecWetDry SpecSlope SpecStep SpecStage SpecIHDG SpecCond SpecEHDG
  LemmasSWE LemmasShape LemmasRK LemmasStep LemmasStage LemmasStage3 LemmasJac LemmasJac2 LemmasBasis2 LemmasBasis3 LemmasIHDG1 LemmasIHDG2 LemmasIHDG3 LemmasEHDG1 LemmasEHDG2.
Import ListNotations.
Open Scope R_scope.

Lemma rsum_three : forall n f, rsum (3 * n) f = rsum n (fun j => f (3 * j)%nat + f (3 * j + 1)%nat + f (3 * j + 2)%nat).
Proof.
  intros n f. induction n as [|n IH]; [reflexivity|]. replace (3 * S n)%nat with (S (S (S (3 * n)))) by lia. cbn [rsum]. rewrite IH.
  replace (S (3 * n)) with (3 * n + 1)%nat by lia. replace (S (3 * n + 1)) with (3 * n + 2)%nat by lia. ring.
Qed.
Lemma idx : forall j v, (v < 3)%nat -> ((3 * j + v) / 3 = j /\ (3 * j + v) mod 3 = v)%nat.
Proof.
  intros j v H. split; [rewrite Nat.mul_comm, Nat.div_add_l, (Nat.div_small v 3) by lia; lia|].
  rewrite Nat.add_comm, Nat.mul_comm, Nat.mod_add, Nat.mod_small by lia. reflexivity.
Qed.
Lemma rsum_blocks : forall n (g : nat -> nat -> R), rsum (3 * n) (fun c => g (c mod 3)%nat (c / 3)%nat) = rsum 3 (fun v => rsum n (g v)).
Proof.
  intros n g. rewrite rsum_three. cbn [rsum].
  rewrite (rsum_ext _ _ (fun j => (g 0%nat j + g 1%nat j) + g 2%nat j)).
  - rewrite !rsum_plus. ring.
  - intros j _. destruct (idx j 0 ltac:(lia)) as [A0 B0]. destruct (idx j 1 ltac:(lia)) as [A1 B1]. destruct (idx j 2 ltac:(lia)) as [A2 B2].
    rewrite Nat.add_0_r in A0, B0. rewrite A0, B0, A1, B1, A2, B2. reflexivity.
Qed.

Section Open.
  Context (m : mesh) (c : config) (b : bound) (q qinf : nat -> vec3 R).
  Notation n := (normal m (b_elt b) (b_id b)).

  Lemma mismatch_model : forall qh gp v, (v < 3)%nat ->
    mismatch_at m c b q qinf (edge_value m qh gp) gp v = vget (open_rhs (c_g c) (trace_at m qh gp) (trace_aux m b qh gp) n (q gp) (qinf gp)) v.
  Proof.
    intros qh gp v Hv. unfold mismatch_at, open_rhs, trace_aux, with_depth, edge_bath_b. rewrite <- (edge_value_model m qh gp). cbv zeta. cbn [bath sp].
    rewrite vget_sub. destruct v as [|[|[|v]]]; [| | |lia]; reflexivity.
  Qed.
  Lemma load_model : forall qh v j, (v < 3)%nat -> trace_load m c b q qinf qh (3 * j + v) = - mismatch m c b q qinf qh v j.
  Proof.
    intros qh v j Hv. unfold trace_load, mismatch. cbv zeta. destruct (idx j v Hv) as [-> ->]. f_equal. unfold edge_lambda. rewrite vmsum_rsum, <- rsum_scal.
    apply rsum_ext. intros gp _. rewrite <- mismatch_model by exact Hv. unfold lambda_fact, w1, z1. rewrite half_side_J.
    destruct (nth gp (m_rule1 m) (0, 0)) as [w s]. cbn [fst snd]. ring.
  Qed.

  Lemma trace_change_at : forall qh v j s gp, (v < 3)%nat -> (j <= m_p m)%nat ->
    trace_at m (one_changed qh v j s) gp = vset (trace_at m qh gp) v (vget (trace_at m qh gp) v + (s - qh v j) * legendre_phi j (z1 m gp)).
  Proof. intros qh v j s gp Hv Hj. exact (row_bump (S (m_p m)) (fun i => legendre_phi i (z1 m gp)) (fun _ => qh) 0 v j s Hv ltac:(lia)). Qed.
  Lemma jacobian_model : forall qh, 0 < c_g c -> noncritical_trace m c b qh ->
    trace_jacobian m c b q qinf qh (fun v j v' j' => trace_matrix m c b q qinf qh (3 * j + v) (3 * j' + v')).
  Proof.
    intros qh Hg NC v j v' j' Hv Hj Hv' Hj'. unfold trace_matrix. cbv zeta. destruct (idx j v Hv) as [-> ->]. destruct (idx j' v' Hv') as [-> ->].
    set (f := fun gp u => vget (open_rhs (c_g c) u (with_depth (edge_bath_b m b gp) u) n (q gp) (qinf gp)) v).
    set (W := fun gp => w1 m gp * legendre_phi j (z1 m gp) * half_side (m_nodes m (b_elt b)) (b_id b)).
    set (D := fun gp => mget (open_hat (c_g c) (trace_at m qh gp) (trace_aux m b qh gp) n (q gp) (qinf gp)) v).
    refine (is_derive_e _ _ _ _ _ (sum_line (ngp1 m) f (trace_at m qh) D W (fun gp => legendre_phi j' (z1 m gp)) v' (qh v' j') Hv' _) _ _).
    - intros gp Hgp. specialize (NC gp Hgp). cbv zeta in NC. rewrite <- edge_value_model in NC. destruct NC as (N1 & N2 & N3 & N4).
      apply open_hat_grad; [exact Hg|exact N1|split; [exact N3|split; [exact N2|exact N4]]|exact Hv].
    - intros s. rewrite vmsum_rsum. unfold mismatch. rewrite <- rsum_scal. apply rsum_ext. intros gp Hgp. rewrite mismatch_model by exact Hv.
      unfold f, W, trace_aux. rewrite trace_change_at by assumption. unfold w1, z1. destruct (nth gp (m_rule1 m) (0, 0)) as [w z]. cbn [fst snd]. ring.
    - unfold lambda_lambda. rewrite !vmsum_rsum. apply rsum_ext. intros gp _. unfold D, W, lambda_fact. rewrite half_side_J. ring.
  Qed.
  Lemma jacobian_unique : forall qh J J', trace_jacobian m c b q qinf qh J -> trace_jacobian m c b q qinf qh J' ->
    forall v j v' j', (v < 3)%nat -> (j <= m_p m)%nat -> (v' < 3)%nat -> (j' <= m_p m)%nat -> J v j v' j' = J' v j v' j'.
  Proof.
    intros qh J J' H H' v j v' j' A1 A2 A3 A4. pose proof (is_derive_unique _ _ _ (H v j v' j' A1 A2 A3 A4)) as E. 
    pose proof (is_derive_unique _ _ _ (H' v j v' j' A1 A2 A3 A4)) as E'. rewrite <- E, <- E'. reflexivity.
  Qed.
  (** Vectors of the system and increments. *)
  Lemma system_increment : forall qh J, 0 < c_g c -> noncritical_trace m c b qh -> trace_jacobian m c b q qinf qh J -> forall x,
    solves (trace_size m) (trace_matrix m c b q qinf qh) (trace_load m c b q qinf qh) x <->
    newton_increment m c b q qinf qh J (fun v j => x (3 * j + v)%nat).
  Proof.
    intros qh J Hg NC HJ x.
    assert (E : forall v j, (v < 3)%nat -> (j <= m_p m)%nat ->
      rsum (trace_size m) (fun col => trace_matrix m c b q qinf qh (3 * j + v) col * x col) =
      rsum 3 (fun v' => rsum (S (m_p m)) (fun j' => J v j v' j' * x (3 * j' + v')%nat))).
    { intros v j Hv Hj. unfold trace_size. rewrite <- (rsum_blocks (S (m_p m)) (fun v' j' => J v j v' j' * x (3 * j' + v')%nat)).
      apply rsum_ext. intros col Hc. pose proof (Nat.div_mod col 3 ltac:(lia)) as Dm. pose proof (Nat.mod_upper_bound col 3 ltac:(lia)) as Mb.
      assert (Db : (col / 3 <= m_p m)%nat) by (assert (col / 3 < S (m_p m))%nat by (apply Nat.div_lt_upper_bound; lia); lia).
      rewrite (jacobian_unique qh J _ HJ (jacobian_model qh Hg NC) v j (col mod 3)%nat (col / 3)%nat Hv Hj Mb Db). rewrite <- Dm. reflexivity. }
    split.
    - intros S v j Hv Hj. rewrite <- E by assumption. rewrite <- load_model by exact Hv. apply S. unfold trace_size. lia.
    - intros I r Hr. pose proof (Nat.div_mod r 3 ltac:(lia)) as Dm. pose proof (Nat.mod_upper_bound r 3 ltac:(lia)) as Mb.
      assert (Db : (r / 3 <= m_p m)%nat) by (assert (r / 3 < S (m_p m))%nat by (apply Nat.div_lt_upper_bound; unfold trace_size in Hr; lia); lia).
      rewrite Dm. rewrite E, load_model by assumption. apply I; assumption.
  Qed.
  Lemma newton_ext : forall qh J d d', same_trace m d d' -> newton_increment m c b q qinf qh J d -> newton_increment m c b q qinf qh J d'.
  Proof.
    intros qh J d d' E H v j Hv Hj. rewrite <- (H v j Hv Hj). apply rsum_ext. intros v' Hv'. apply rsum_ext. intros j' Hj'. rewrite (E v' j') by lia. reflexivity.
  Qed.
  Lemma pass_newton : forall solve qh J, solver_ok solve -> 0 < c_g c -> noncritical_trace m c b qh -> trace_jacobian m c b q qinf qh J ->
    one_increment m c b q qinf qh J -> newton_increment m c b q qinf qh J (trace_change qh (fst (trace_pass m c solve b q qinf qh))).
  Proof.
    intros solve qh J So Hg NC HJ (d & Hd & Hu). 
    assert (S : solves (trace_size m) (trace_matrix m c b q qinf qh) (trace_load m c b q qinf qh)
      (solve (trace_size m) (trace_matrix m c b q qinf qh) (trace_load m c b q qinf qh))).
    { apply So. exists (fun r => d (r mod 3)%nat (r / 3)%nat). split.
      - apply (system_increment qh J Hg NC HJ). apply (newton_ext qh J d); [|exact Hd]. intros v j Hv Hj. destruct (idx j v Hv) as [-> ->]. reflexivity.
      - intros y Hy r Hr. apply (system_increment qh J Hg NC HJ) in Hy. specialize (Hu _ Hy).
        pose proof (Nat.div_mod r 3 ltac:(lia)) as Dm. pose proof (Nat.mod_upper_bound r 3 ltac:(lia)) as Mb.
        assert (Db : (r / 3 <= m_p m)%nat) by (assert (r / 3 < Datatypes.S (m_p m))%nat by (apply Nat.div_lt_upper_bound; unfold trace_size in Hr; lia); lia).
        rewrite (Hu _ _ Mb Db). rewrite <- Dm. reflexivity. }
    apply (system_increment qh J Hg NC HJ) in S. refine (newton_ext qh J _ _ _ S). intros v j Hv Hj. unfold trace_change, trace_pass. cbn [fst]. ring.
  Qed.
  Lemma pass_fixed : forall solve qh J, solver_ok solve -> 0 < c_g c -> noncritical_trace m c b qh -> trace_jacobian m c b q qinf qh J ->
    one_increment m c b q qinf qh J ->
    (same_trace m qh (fst (trace_pass m c solve b q qinf qh)) <-> forall v j, (v < 3)%nat -> (j <= m_p m)%nat -> mismatch m c b q qinf qh v j = 0).
  Proof.
    intros solve qh J So Hg NC HJ U. pose proof (pass_newton solve qh J So Hg NC HJ U) as P. split.
    - intros E v j Hv Hj. specialize (P v j Hv Hj). rewrite rsum_const0 in P; [lra|]. intros v' Hv'. apply rsum_const0. intros j' Hj'.
      unfold trace_change. rewrite <- (E v' j') by lia. ring.
    - intros Z. destruct U as (d & Hd & Hu). intros v j Hv Hj.
      assert (Z0 : newton_increment m c b q qinf qh J (fun _ _ => 0)).
      { intros v' j' A B. rewrite (Z v' j' A B), rsum_const0; [ring|]. intros x _. apply rsum_const0. intros y _. ring. }
      pose proof (Hu _ P v j Hv Hj) as E1. pose proof (Hu _ Z0 v j Hv Hj) as E2. unfold trace_change in E1. cbv beta in E2. lra.
  Qed.

  (** The loop. *)
  Context (solve : nat -> (nat -> nat -> R) -> (nat -> R) -> nat -> R).
  Definition pass (qh : coeffs) : coeffs := fst (trace_pass m c solve b q qinf qh).
  Lemma norm_model : forall qh, trace_norm m (snd (trace_pass m c solve b q qinf qh)) = change_size m (trace_change qh (pass qh)).
  Proof.
    intros qh. unfold trace_norm, change_size, trace_size, pass, trace_change, trace_pass. cbn [fst snd]. set (x := solve _ _ _).
    rewrite vmsum_rsum, rsum_three. f_equal; [f_equal|rewrite mult_INR; f_equal; cbn; ring].
    apply rsum_ext. intros j _. cbn [rsum]. rewrite Nat.add_0_r. ring.
  Qed.
  Lemma bc_loop : forall fuel qh, exists j, (j <= fuel)%nat /\ bc_trace m c solve fuel b q qinf qh = Nat.iter j pass qh /\
    (forall i, (S i < j)%nat -> 1 / 10 ^ 12 <= change_size m (trace_change (Nat.iter i pass qh) (Nat.iter (S i) pass qh))) /\
    (j = fuel \/ exists i, j = S i /\ change_size m (trace_change (Nat.iter i pass qh) (Nat.iter j pass qh)) < 1 / 10 ^ 12).
  Proof.
    intros fuel. induction fuel as [|f IH]; intros qh.
    - exists 0%nat. split; [lia|]. split; [reflexivity|]. split; [lia|left; reflexivity].
    - cbn [bc_trace]. pose proof (norm_model qh) as Nm. unfold pass in Nm at 1. change (fst (trace_pass m c solve b q qinf qh)) with (pass qh) in Nm.
      destruct (trace_pass m c solve b q qinf qh) as [qh' x] eqn:E. assert (Q : qh' = pass qh) by (unfold pass; rewrite E; reflexivity). subst qh'. cbn [snd] in Nm. rewrite Nm.
      unfold Rltb. destruct (Rlt_dec (change_size m (trace_change qh (pass qh))) (1 / 10 ^ 12)) as [L|L].
      + exists 1%nat. split; [lia|]. split; [reflexivity|]. split; [lia|]. right. exists 0%nat. split; [reflexivity|exact L].
      + destruct (IH (pass qh)) as (j & J1 & J2 & J3 & J4). exists (S j). split; [lia|].
        assert (Sh : forall i, Nat.iter i pass (pass qh) = Nat.iter (S i) pass qh) by (intros i; induction i as [|i Ii]; [reflexivity|exact (f_equal pass Ii)]).
        rewrite Sh in J2. split; [exact J2|]. split.
        * intros i Hi. destruct i as [|i]; [cbn [Nat.iter nat_rect]; apply Rnot_lt_le; exact L|]. specialize (J3 i ltac:(lia)). rewrite !Sh in J3. exact J3.
        * destruct J4 as [J4|(i & J4 & J5)]; [left; lia|]. right. exists j. split; [reflexivity|]. rewrite J4 in J5 |- *. rewrite !Sh in J5. exact J5.
  Qed.
End Open.

(** ** Water at rest: the system is singular *)
Lemma rest_matrix : forall g z a n, 0 < g -> 0 < hh a ->
  let M := open_hat g (V3 z 0 0) a n (V3 z 0 0) (V3 z 0 0) in
  forall v, (v < 3)%nat -> mget M v 1 * - ny n + mget M v 2 * nx n = 0.
Proof.
  intros g z a n Hg Hh M v Hv. unfold M, open_hat. rewrite !mget_add, !mget_sub, !mget_columns by lia. cbn [Nat.eqb].
  assert (Z : forall A w, (w < 3)%nat -> vget (ModelIHDG.mvec A (ModelSWE.vsub (V3 z 0 0) (V3 z 0 0))) w = 0).
  { intros A w Hw. rewrite vget_mvec, !vget_sub. unfold vget. cbn [ze qx qy]. destruct w as [|[|[|w]]]; [| | |lia]; ring. }
  destruct (A_parts g (V3 z 0 0) a n) as [_ E].
  assert (D : forall b, mget (get_Aminus g (V3 z 0 0) a n) v b - mget (get_Aplus g (V3 z 0 0) a n) v b = - mget (get_absA g (V3 z 0 0) a n) v b).
  { intros b. rewrite <- E, mget_sub. ring. }
  rewrite !D. rewrite !vget_sub, !Z by exact Hv.
  assert (C0 : sqrt (g * hh a) <> 0) by (apply Rgt_not_eq, sqrt_lt_R0, Rmult_lt_0_compat; assumption).
  unfold get_absA, at_point, conj3. cbn [qx qy]. replace (0 / hh a) with 0 by (field; lra).
  set (cc := sqrt (g * hh a)) in *. unfold absL, eigR, invR, mdiag. fold cc. rewrite (Rmult_0_l (nx n)), (Rmult_0_l (ny n)), Rplus_0_r, Rabs_R0.
  destruct v as [|[|[|v]]]; [| | |lia]; cbn; field; exact C0.
Qed.

Section Rest.
  Context (m : mesh) (c : config) (b : bound) (q qinf : nat -> vec3 R).
  Notation n := (normal m (b_elt b) (b_id b)).
  Lemma rest_kernel : forall qh z s r, 0 < c_g c -> 
    (forall gp, (gp < ngp1 m)%nat -> edge_value m qh gp = V3 z 0 0 /\ q gp = V3 z 0 0 /\ qinf gp = V3 z 0 0 /\ 0 < z + bath (m_faux m (b_elt b) (b_id b) gp)) ->
    rsum (trace_size m) (fun col => trace_matrix m c b q qinf qh r col * along n s col) = 0.
  Proof.
    intros qh z s r Hg H. unfold trace_size. rewrite rsum_three. apply rsum_const0. intros j Hj.
    unfold along. destruct (idx j 0 ltac:(lia)) as [D0 M0]. destruct (idx j 1 ltac:(lia)) as [D1 M1]. destruct (idx j 2 ltac:(lia)) as [D2 M2].
    rewrite Nat.add_0_r in D0, M0. unfold trace_matrix. cbv zeta. rewrite D0, M0, D1, M1, D2, M2. unfold lambda_lambda. rewrite !vmsum_rsum.
    rewrite Rmult_0_r, Rplus_0_l.
    set (H1 := fun gp v => mget (open_hat (c_g c) (trace_at m qh gp) (trace_aux m b qh gp) n (q gp) (qinf gp)) (r mod 3) v).
    set (L := fun gp => legendre_phi (r / 3) (z1 m gp) * lambda_fact m (b_elt b) (b_id b) gp j).
    transitivity (s j * rsum (ngp1 m) (fun gp => (H1 gp 1%nat * - ny n + H1 gp 2%nat * nx n) * L gp)).
    - rewrite (rsum_ext _ (fun gp => (H1 gp 1%nat * - ny n + H1 gp 2%nat * nx n) * L gp) (fun gp => - ny n * (H1 gp 1%nat * L gp) + nx n * (H1 gp 2%nat * L gp))) by (intros; ring).
      rewrite rsum_plus, !rsum_scal.
      transitivity (rsum (ngp1 m) (fun gp => H1 gp 1%nat * L gp) * (- ny n * s j) + rsum (ngp1 m) (fun gp => H1 gp 2%nat * L gp) * (nx n * s j)); [reflexivity|ring].
    - rewrite rsum_const0; [ring|]. intros gp Hgp. unfold H1. destruct (H gp Hgp) as (E1 & E2 & E3 & E4). unfold trace_aux. rewrite !edge_value_model, E1, E2, E3.
      rewrite rest_matrix; [ring|exact Hg|unfold with_depth, edge_bath_b; cbn; lra|apply Nat.mod_upper_bound; lia].
  Qed.
  Lemma rest_load : forall qh z r,
    (forall gp, (gp < ngp1 m)%nat -> edge_value m qh gp = V3 z 0 0 /\ q gp = V3 z 0 0 /\ qinf gp = V3 z 0 0) -> trace_load m c b q qinf qh r = 0.
  Proof.
    intros qh z r H. unfold trace_load, edge_lambda. cbv zeta. rewrite vmsum_rsum, rsum_const0; [ring|]. intros gp Hgp. destruct (H gp Hgp) as (E1 & E2 & E3).
    rewrite !edge_value_model, E1, E2, E3. unfold open_rhs. rewrite vget_sub, !vget_mvec, !vget_sub. unfold vget. cbn [ze qx qy]. 
    pose proof (Nat.mod_upper_bound r 3 ltac:(lia)). destruct (r mod 3)%nat as [|[|[|v]]]; [| | |lia]; ring.
  Qed.
  Lemma rest_singular : forall qh z, 0 < c_g c ->
    (forall gp, (gp < ngp1 m)%nat -> edge_value m qh gp = V3 z 0 0 /\ q gp = V3 z 0 0 /\ qinf gp = V3 z 0 0 /\ 0 < z + bath (m_faux m (b_elt b) (b_id b) gp)) ->
    forall s, solves (trace_size m) (trace_matrix m c b q qinf qh) (trace_load m c b q qinf qh) (along n s).
  Proof.
    intros qh z Hg H s r Hr. rewrite (rest_load qh z); [exact (rest_kernel qh z s r Hg H)|]. intros gp Hgp. destruct (H gp Hgp) as (E1 & E2 & E3 & _). split; [exact E1|split; assumption].
  Qed.
End Rest.

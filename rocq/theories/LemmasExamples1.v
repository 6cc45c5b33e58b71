(** The solver's form of the equations, and the manufactured and the bowl solution. *)
From Coq Require Import Reals List Lra Lia Psatz.
From Coquelicot Require Import Hierarchy Derive AutoDerive.
From Verif Require Import Num ModelSWE ModelJac ModelStep SpecGN SpecExamples ModelExamples.
Open Scope R_scope.

Lemma is_derive_eq : forall (f : R -> R) (x a b : R), is_derive f x a -> a = b -> is_derive f x b.
Proof. intros f x a b H <-. exact H. Qed.

Section Forms.
  Context (g : R) (B Bx By : R -> R -> R) (src q : R -> R -> R -> vec3 R).
  Hypothesis HB : bed_slope B Bx By.
  Lemma press : forall Z b Q k, Q ^ 2 / k + g * (Z + b) ^ 2 / 2 = Q / k * Q + g * (1 / 2 * (Z * Z) + Z * b) + g * b ^ 2 / 2.
  Proof. intros Z b Q k. unfold Rdiv. generalize (/ k). intros. field. Qed.
  Lemma bed_square : forall x y, is_derive (fun s => g * B s y ^ 2 / 2) x (g * B x y * Bx x y) /\ is_derive (fun s => g * B x s ^ 2 / 2) y (g * B x y * By x y).
  Proof.
    intros x y. destruct (HB x y) as [H1 H2]. split.
    - auto_derive; [repeat split; exists (Bx x y); exact H1|]. replace (Derive (fun s => B s y) x) with (Bx x y) by (symmetry; apply is_derive_unique; exact H1). field.
    - auto_derive; [repeat split; exists (By x y); exact H2|]. replace (Derive (fun s => B x s) y) with (By x y) by (symmetry; apply is_derive_unique; exact H2). field.
  Qed.

  Lemma forms_agree : forall t x y, solver_equations g B Bx By src q t x y <-> shallow_water g B Bx By src q t x y.
  Proof.
    intros t x y.
    assert (Sum : forall (f h k : R -> R) z a b, is_derive f z a -> is_derive h z b -> (forall s, k s = f s + h s) -> is_derive k z (a + b)).
    { intros f h k z a b Hf Hh E. apply (is_derive_ext (fun s => f s + h s)); [intros s; symmetry; apply E|]. exact (is_derive_plus f h z a b Hf Hh). }
    assert (Dif : forall (f h k : R -> R) z a b, is_derive f z a -> is_derive h z b -> (forall s, k s = f s - h s) -> is_derive k z (a - b)).
    { intros f h k z a b Hf Hh E. apply (is_derive_ext (fun s => f s - h s)); [intros s; symmetry; apply E|]. exact (is_derive_minus f h z a b Hf Hh). }
    destruct (bed_square x y) as [Q1 Q2].
    unfold solver_equations, shallow_water. split.
    - intros A. destruct (A 0%nat ltac:(lia)) as (a0 & b0 & c0 & A0 & B0 & C0 & E0).
      destruct (A 1%nat ltac:(lia)) as (a1 & b1 & c1 & A1 & B1 & C1 & E1). destruct (A 2%nat ltac:(lia)) as (a2 & b2 & c2 & A2 & B2 & C2 & E2).
      cbn in E0, E1, E2.
      refine (conj _ (conj _ _)).
      + exists a0, b0, c0. refine (conj A0 (conj B0 (conj C0 _))). lra.
      + exists a1, (b1 + g * B x y * Bx x y), c1. refine (conj _ (conj _ (conj _ _))).
        * exact A1.
        * eapply Sum; [exact B1|exact Q1|]. intros s. cbn -[pow]. unfold column. apply press.
        * eapply is_derive_ext; [|exact C1]. intros s. cbn. unfold Rdiv. ring.
        * unfold column in *. cbn in E1. lra.
      + exists a2, b2, (c2 + g * B x y * By x y). refine (conj _ (conj _ (conj _ _))).
        * exact A2.
        * eapply is_derive_ext; [|exact B2]. intros s. cbn. unfold Rdiv. ring.
        * eapply Sum; [exact C2|exact Q2|]. intros s. cbn -[pow]. unfold column. apply press.
        * unfold column in *. cbn in E2. lra.
    - intros (Hm & Hx & Hy). destruct Hm as (a0 & b0 & c0 & A0 & B0 & C0 & E0). destruct Hx as (a1 & b1 & c1 & A1 & B1 & C1 & E1). destruct Hy as (a2 & b2 & c2 & A2 & B2 & C2 & E2).
      intros [|[|[|v]]] Hv; [| | |lia].
      + exists a0, b0, c0. refine (conj A0 (conj B0 (conj C0 _))). cbn. lra.
      + exists a1, (b1 - g * B x y * Bx x y), c1. refine (conj _ (conj _ (conj _ _))); [exact A1| | |].
        * eapply Dif; [exact B1|exact Q1|]. intros s. cbn -[pow]. unfold column. rewrite press. ring.
        * eapply is_derive_ext; [|exact C1]. intros s. cbn. unfold Rdiv. ring.
        * unfold column in *. cbn in *. lra.
      + exists a2, b2, (c2 - g * B x y * By x y). refine (conj _ (conj _ (conj _ _))); [exact A2| | |].
        * eapply is_derive_ext; [|exact B2]. intros s. cbn. unfold Rdiv. ring.
        * eapply Dif; [exact C2|exact Q2|]. intros s. cbn -[pow]. unfold column. rewrite press. ring.
        * unfold column in *. cbn in *. lra.
  Qed.
End Forms.

(** ** The manufactured solution, for any gravity and any constant depth. *)
Section Manufactured.
  Context (g b : R).
  Hypothesis Hb : 0 < b.
  Let e (t x y : R) : R := exp (sin (3 * x) * sin (3 * y) - sin (3 * t)).
  Let ex (t x y : R) : R := 3 * cos (3 * x) * sin (3 * y) * e t x y.
  Let ey (t x y : R) : R := 3 * sin (3 * x) * cos (3 * y) * e t x y.
  Lemma e_pos : forall t x y, 0 < e t x y + b.
  Proof. intros t x y. unfold e. pose proof (exp_pos (sin (3 * x) * sin (3 * y) - sin (3 * t))). lra. Qed.
  Lemma man_mass : forall t x y,
    is_derive (fun s => ze (man_true s x y)) t (- (3) * cos (3 * t) * e t x y) /\
    is_derive (fun s => qx (man_true t s y)) x (- sin (x - 4 * t)) /\
    is_derive (fun s => qy (man_true t x s)) y (cos (y + 4 * t)).
  Proof.
    intros t x y. cbn [ze qx qy man_true]. refine (conj _ (conj _ _)); auto_derive; try exact I; unfold e, Rminus; ring.
  Qed.
  Lemma man_qx : forall t x y,
    is_derive (fun s => qx (man_true s x y)) t (4 * sin (x - 4 * t)) /\
    is_derive (fun s => qx (man_true t s y) ^ 2 / (ze (man_true t s y) + b) + g * (ze (man_true t s y) + b) ^ 2 / 2) x
      (- (2) * cos (x - 4 * t) * sin (x - 4 * t) / (e t x y + b) - cos (x - 4 * t) ^ 2 * ex t x y / (e t x y + b) ^ 2 + g * (e t x y + b) * ex t x y) /\
    is_derive (fun s => qx (man_true t x s) * qy (man_true t x s) / (ze (man_true t x s) + b)) y
      (cos (x - 4 * t) * cos (y + 4 * t) / (e t x y + b) - cos (x - 4 * t) * sin (y + 4 * t) * ey t x y / (e t x y + b) ^ 2).
  Proof.
    intros t x y. pose proof (e_pos t x y) as P. cbn [ze qx qy man_true]. unfold ex, ey, e in *. refine (conj _ (conj _ _)).
    - auto_derive; [exact I|unfold Rminus; ring].
    - auto_derive; [repeat match goal with |- _ /\ _ => split end; try exact I; unfold Rminus in P; lra|]. unfold Rminus in *. set (E := exp _) in *. field. lra.
    - auto_derive; [repeat match goal with |- _ /\ _ => split end; try exact I; unfold Rminus in P; lra|]. unfold Rminus in *. set (E := exp _) in *. field. lra.
  Qed.
  Lemma man_qy : forall t x y,
    is_derive (fun s => qy (man_true s x y)) t (4 * cos (y + 4 * t)) /\
    is_derive (fun s => qx (man_true t s y) * qy (man_true t s y) / (ze (man_true t s y) + b)) x
      (- sin (x - 4 * t) * sin (y + 4 * t) / (e t x y + b) - cos (x - 4 * t) * sin (y + 4 * t) * ex t x y / (e t x y + b) ^ 2) /\
    is_derive (fun s => qy (man_true t x s) ^ 2 / (ze (man_true t x s) + b) + g * (ze (man_true t x s) + b) ^ 2 / 2) y
      (2 * cos (y + 4 * t) * sin (y + 4 * t) / (e t x y + b) - sin (y + 4 * t) ^ 2 * ey t x y / (e t x y + b) ^ 2 + g * (e t x y + b) * ey t x y).
  Proof.
    intros t x y. pose proof (e_pos t x y) as P. cbn [ze qx qy man_true]. unfold ex, ey, e in *. refine (conj _ (conj _ _)).
    - auto_derive; [exact I|unfold Rminus; ring].
    - auto_derive; [repeat match goal with |- _ /\ _ => split end; try exact I; unfold Rminus in P; lra|]. unfold Rminus in *. set (E := exp _) in *. field. lra.
    - auto_derive; [repeat match goal with |- _ /\ _ => split end; try exact I; unfold Rminus in P; lra|]. unfold Rminus in *. set (E := exp _) in *. field. lra.
  Qed.
  Lemma man_args : forall t x y, exp (- sin (3 * t) + sin (3 * x) * sin (3 * y)) = e t x y /\
    cos (4 * t - x) = cos (x - 4 * t) /\ sin (4 * t - x) = - sin (x - 4 * t) /\ 4 * t + y = y + 4 * t.
  Proof.
    intros t x y. refine (conj _ (conj _ (conj _ _))).
    - unfold e. f_equal. ring.
    - rewrite <- cos_neg. f_equal. ring.
    - rewrite <- sin_neg. f_equal. ring.
    - ring.
  Qed.
  Definition man_solves (t x y : R) : Prop := shallow_water g (fun _ _ => b) (fun _ _ => 0) (fun _ _ => 0) man_source man_true t x y.

  (** It only fits the depth 2 and the gravity 1. *)
  Lemma man_only : (forall t x y, man_solves t x y) -> g = 1 /\ b = 2.
  Proof.
    intros A.
    assert (M : forall t x y, 4 * sin (x - 4 * t) + (- (2) * cos (x - 4 * t) * sin (x - 4 * t) / (e t x y + b) - cos (x - 4 * t) ^ 2 * ex t x y / (e t x y + b) ^ 2 + g * (e t x y + b) * ex t x y) +
       (cos (x - 4 * t) * cos (y + 4 * t) / (e t x y + b) - cos (x - 4 * t) * sin (y + 4 * t) * ey t x y / (e t x y + b) ^ 2) = qx (man_source t x y)).
    { intros t x y. destruct (A t x y) as (_ & (a1 & b1 & c1 & A1 & B1 & C1 & E1) & _). destruct (man_qx t x y) as (D1 & D2 & D3). unfold column in *.
      rewrite <- (is_derive_unique _ _ _ D1), <- (is_derive_unique _ _ _ D2), <- (is_derive_unique _ _ _ D3).
      rewrite (is_derive_unique _ _ _ A1), (is_derive_unique _ _ _ B1), (is_derive_unique _ _ _ C1), E1. ring. }
    assert (B2 : b = 2).
    { specialize (M 0 0 0). unfold ex, ey, e, man_source in M. cbn [qx] in M. revert M.
      replace (0 - 4 * 0) with 0 by ring. replace (0 + 4 * 0) with 0 by ring. replace (4 * 0 - 0) with 0 by ring. replace (4 * 0 + 0) with 0 by ring. replace (3 * 0) with 0 by ring.
      rewrite sin_0, cos_0. replace (0 * 0 - 0) with 0 by ring. replace (- 0 + 0 * 0) with 0 by ring. rewrite exp_0. intros M.
      match type of M with ?l = ?r => assert (L : l = 1 / (1 + b)) by (field; lra); assert (Q : r = 1 / 3) by field end. rewrite L, Q in M.
      assert (E' : 1 / (1 + b) * (1 + b) = 1) by (field; lra). rewrite M in E'. lra. }
    split; [|exact B2].
    specialize (M 0 0 (PI / 6)). unfold ex, ey, e, man_source in M. cbn [qx] in M. revert M.
    replace (3 * (PI / 6)) with (PI / 2) by field. replace (0 - 4 * 0) with 0 by ring. replace (4 * 0 - 0) with 0 by ring. replace (3 * 0) with 0 by ring.
    replace (4 * 0 + PI / 6) with (PI / 6) by ring. replace (PI / 6 + 4 * 0) with (PI / 6) by ring.
    rewrite sin_0, cos_0, sin_PI2, cos_PI2. replace (0 * 1 - 0) with 0 by ring. replace (- 0 + 0 * 1) with 0 by ring. rewrite exp_0, B2.
    generalize (cos (PI / 6)) (sin (PI / 6)). intros c s M.
    match type of M with ?l = ?r => assert (L : l = - (1 / 3) + 9 * g + c / 3) by field; assert (Q : r = - (1 / 3) + 9 + c / 3) by field end. lra.
  Qed.
  Lemma man_fits : g = 1 -> b = 2 -> forall t x y, man_solves t x y.
  Proof.
    intros Hg H2 t x y. destruct (man_mass t x y) as (M1 & M2 & M3). destruct (man_qx t x y) as (X1 & X2 & X3). destruct (man_qy t x y) as (Y1 & Y2 & Y3).
    destruct (man_args t x y) as (N1 & N2 & N3 & N4). pose proof (e_pos t x y) as P.
    unfold man_solves, shallow_water, column. unfold man_source. cbv zeta. cbn [ze qx qy]. refine (conj _ (conj _ _)).
    - exists (- (3) * cos (3 * t) * e t x y), (- sin (x - 4 * t)), (cos (y + 4 * t)). refine (conj M1 (conj M2 (conj M3 _))). rewrite N1, N3, N4. ring.
    - eexists _, _, _. refine (conj X1 (conj X2 (conj X3 _))). rewrite N1, N2, N3, N4, Hg, H2. unfold ex, ey. rewrite H2 in P. set (E := e t x y) in *. field. lra.
    - eexists _, _, _. refine (conj Y1 (conj Y2 (conj Y3 _))). rewrite N1, N2, N3, N4, Hg, H2. unfold ex, ey. rewrite H2 in P. set (E := e t x y) in *. field. lra.
  Qed.
End Manufactured.

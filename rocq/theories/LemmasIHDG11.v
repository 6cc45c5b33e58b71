(** Balance of one pass, the land condition, conservation of volume. *)
From Coq Require Import Reals List Bool Arith Lra Lia.
From Coquelicot Require Import Coquelicot.
From Verif Require Import Num ModelSWE ModelShape ModelBasis SpecBasis ModelJac SpecJac SpecShape SpecStepper SpecStep LemmasShape LemmasSWE LemmasRK LemmasBasis4 LemmasStep
  ModelStep ModelIHDG SpecIHDG SpecIHDG2 LemmasIHDG2 LemmasIHDG3 LemmasIHDG4 LemmasIHDG5 LemmasIHDG6 LemmasIHDG7 LemmasIHDG9 LemmasIHDG10 LemmasIHDG1.
Import ListNotations.
Open Scope R_scope.

Lemma expand_add : forall m x y z, expand m (cadd x y) z = vadd (expand m x z) (expand m y z).
Proof.
  intros m x y z. unfold expand. cbv zeta. unfold vadd, cadd. num_R. cbn [ze qx qy].
  f_equal; rewrite !vmsum_rsum, <- rsum_plus; apply rsum_ext; intros; ring.
Qed.
Lemma edge_add : forall m qh dqh ed gp, u_edge m (plus qh dqh) ed gp = vadd (u_edge m qh ed gp) (u_edge m dqh ed gp).
Proof.
  intros m qh dqh ed gp. unfold u_edge, plus. cbv zeta. unfold vadd, cadd. num_R. cbn [ze qx qy].
  f_equal; rewrite !vmsum_rsum, <- rsum_plus; apply rsum_ext; intros; ring.
Qed.
Lemma elt_add : forall m q dq e gp, u_elt m (plus q dq) e gp = vadd (u_elt m q e gp) (u_elt m dq e gp).
Proof. intros. unfold u_elt, plus. apply expand_add. Qed.
Lemma face_add : forall m q dq e b gp, u_face m (plus q dq) e b gp = vadd (u_face m q e b gp) (u_face m dq e b gp).
Proof. intros. unfold u_face, plus. apply expand_add. Qed.
Lemma W2_area : forall m e gp, w2 m gp * 1 * Rabs (GetJdet (m_nodes m e)) = tri_area (m_nodes m e) / 2 * w2 m gp.
Proof. intros. rewrite area_jdet. field. Qed.
Lemma integration_phi_row0 : forall m e u a, integration_phi m e u a 0%nat = tri_area (m_nodes m e) / 2 * rsum (ngp2 m) (fun gp => w2 m gp * vget (u gp) a).
Proof.
  intros m e u a. unfold integration_phi. rewrite vmsum_rsum, <- rsum_scal. apply rsum_ext. intros gp _. rewrite phi0, W2_area. ring.
Qed.
Lemma phi_dphi_row0 : forall m e j dir M a b, (dir = fst \/ dir = snd) -> phi_dphi m e j dir 0 M a b = 0.
Proof.
  intros m e j dir M a b H. unfold phi_dphi. rewrite vmsum_rsum. apply rsum_const0. intros gp _.
  rewrite dphi0. destruct H as [-> | ->]; unfold physical_derivative; cbn [fst snd]; ring.
Qed.

Section System.
  Context (m : mesh) (eaux : nat -> nat -> aux3 R) (g dt theta t : R) (qp rp : nat -> coeffs) (s0 : newton).
  Notation sys := (fun q qh => newton_system m eaux g dt theta t qp rp q qh s0).
  Notation ni := (length (m_intfaces m)).
  Notation nb := (length (m_bounds m)).

  Lemma elt_delta_0 : forall q dq e a, (a < 3)%nat ->
    applied (ndof m) (elt_delta m g dt theta t qp rp q e) (dq e) a 0 =
    tri_area (m_nodes m e) / 2 * rsum (ngp2 m) (fun gp => w2 m gp * (vget (u_elt m dq e gp) a / dt -
      (1 - theta) * vget (mvec (dsource_dq (m_src m e) (u_elt m q e gp) (a_elt m q e gp)) (u_elt m dq e gp)) a)).
  Proof.
    intros q dq e a Ha.
    rewrite (applied_quad (ndof m) (ngp2 m)
      (fun gp => msub (mdiag (1 / dt) (1 / dt) (1 / dt)) (mscale (1 - theta) (dsource_dq (m_src m e) (u_elt m q e gp) (a_elt m q e gp))))
      (fun j gp => GetPhi j (z2 m gp)) (fun gp => tri_area (m_nodes m e) / 2 * w2 m gp) (dq e) a 0%nat _ Ha).
    - rewrite <- rsum_scal. apply rsum_ext. intros gp _. rewrite rsum_V3. rewrite !vget_mvec, !mget_sub, !mget_diag, !mget_scale by lia.
      unfold u_elt. set (S := dsource_dq _ _ _). set (x := expand m (dq e) (z2 m gp)).
      destruct a as [|[|[|a]]]; try lia; unfold kron; cbn [Nat.eqb vget]; unfold Rdiv; ring.
    - intros j b _ Hb. rewrite elt_delta_form. rewrite !phi_dphi_row0 by (left; reflexivity) || (right; reflexivity).
      unfold phi_phi. change (vmsum (ngp2 m)) with (rsum (ngp2 m)).
      rewrite (rsum_ext (ngp2 m) (fun gp => mget (msub _ _) a b * _) (fun gp => mget (mdiag (1 / dt) (1 / dt) (1 / dt)) a b * (GetPhi j (z2 m gp) * (w2 m gp * GetPhi 0 (z2 m gp) * Rabs (GetJdet (m_nodes m e)))) +
        (- (1 - theta)) * (mget (dsource_dq (m_src m e) (u_elt m q e gp) (a_elt m q e gp)) a b * (GetPhi j (z2 m gp) * (w2 m gp * GetPhi 0 (z2 m gp) * Rabs (GetJdet (m_nodes m e))))))).
      + rewrite rsum_plus, (rsum_scal (ngp2 m) (- (1 - theta))). ring.
      + intros gp _. rewrite mget_sub, mget_scale, phi0, W2_area. ring.
  Qed.
  Lemma elt_rhs_0 : forall q e a, (a < 3)%nat ->
    elt_rhs m g dt theta t qp rp q e a 0%nat =
    tri_area (m_nodes m e) / 2 * rsum (ngp2 m) (fun gp => w2 m gp * ((1 - theta) * vget (source_gp m g t q e gp) a - (vget (u_elt m q e gp) a - vget (u_elt m qp e gp) a) / dt))
    + theta * rp e a 0%nat.
  Proof.
    intros q e a Ha. rewrite elt_rhs_form. rewrite !integration_phi_row0.
    assert (Z : forall dir u, (dir = fst \/ dir = snd) -> integration_dphi m e dir u a 0%nat = 0) by (intros; apply integration_dphi_0; assumption).
    rewrite !Z by ((left; reflexivity) || (right; reflexivity)).
    rewrite (rsum_ext (ngp2 m) (fun gp => w2 m gp * ((1 - theta) * vget (source_gp m g t q e gp) a - (vget (u_elt m q e gp) a - vget (u_elt m qp e gp) a) / dt))
      (fun gp => (1 - theta) * (w2 m gp * vget (source_gp m g t q e gp) a) + (-1) * (w2 m gp * vget (vscale (/ dt) (ModelSWE.vsub (u_elt m q e gp) (u_elt m qp e gp))) a))).
    - rewrite rsum_plus, !rsum_scal. ring.
    - intros gp _. rewrite vget_scale, vget_sub. unfold Rdiv. ring.
  Qed.
  Lemma bd_lhs_0 : forall q qh dq dqh ed a, (a < 3)%nat ->
    bd_lhs m eaux g theta q qh dq dqh ed a = (1 - theta) * (half_side (m_nodes m (b_elt (the_bnd m ed))) (b_id (the_bnd m ed)) * rsum (ngp1 m) (fun gp => w1 m gp *
      vget (vadd (mvec (tau_mat m eaux g qh ed gp (normal m (b_elt (the_bnd m ed)) (b_id (the_bnd m ed)))) (u_face m dq (b_elt (the_bnd m ed)) (b_id (the_bnd m ed)) gp))
                 (mvec (dF_in m eaux g qh ed gp (normal m (b_elt (the_bnd m ed)) (b_id (the_bnd m ed))) (u_face m q (b_elt (the_bnd m ed)) (b_id (the_bnd m ed)) gp)) (u_edge m dqh ed gp))) a)).
  Proof.
    intros q qh dq dqh ed a Ha. unfold bd_lhs. cbv zeta. set (b := the_bnd m ed). set (n := normal m (b_elt b) (b_id b)). rewrite applied_scal.
    rewrite (applied_quad (ndof m) (ngp1 m) (fun gp => tau_mat m eaux g qh ed gp n)
      (fun j gp => GetPhi j (BoundaryToMasterCoordinates (b_id b) (z1 m gp))) (fun gp => half_side (m_nodes m (b_elt b)) (b_id b) * w1 m gp) (dq (b_elt b)) a 0%nat _ Ha).
    2:{ intros j c _ _. unfold face_phi_phi. rewrite vmsum_rsum. apply rsum_ext. intros gp _. rewrite phi0, half_side_J. ring. }
    rewrite (applied_ext _ (bd_hat m eaux g theta q qh ed) (fun i a j c => (1 - theta) * phi_lambda_in m (b_elt b) (b_id b) (b_id b) i j (fun gp => dF_in m eaux g qh ed gp n (u_face m q (b_elt b) (b_id b) gp)) a c))
      by reflexivity.
    rewrite applied_scal.
    rewrite (applied_quad (nedof m) (ngp1 m) (fun gp => dF_in m eaux g qh ed gp n (u_face m q (b_elt b) (b_id b) gp))
      (fun j gp => legendre_phi j (z1 m gp)) (fun gp => half_side (m_nodes m (b_elt b)) (b_id b) * w1 m gp) (dqh ed) a 0%nat _ Ha).
    2:{ intros j c _ _. unfold phi_lambda_in, lambda_fact. rewrite vmsum_rsum. apply rsum_ext. intros gp _. rewrite phi0, half_side_J. ring. }
    rewrite <- Rmult_plus_distr_l. f_equal. rewrite <- rsum_plus, <- rsum_scal. apply rsum_ext. intros gp _.
    rewrite rsum_V3, rsum_V3e, vget_add. unfold u_face. ring.
  Qed.
  Lemma bd_rhs_0 : forall q qh ed a, bd_rhs0 m eaux g theta q qh ed a = - ((1 - theta) * (half_side (m_nodes m (b_elt (the_bnd m ed))) (b_id (the_bnd m ed)) * rsum (ngp1 m) (fun gp => w1 m gp *
      vget (F_in m eaux g qh ed gp (normal m (b_elt (the_bnd m ed)) (b_id (the_bnd m ed))) (u_face m q (b_elt (the_bnd m ed)) (b_id (the_bnd m ed)) gp)) a))).
  Proof.
    intros q qh ed a. unfold bd_rhs0. cbv zeta. unfold integration_face. rewrite vmsum_rsum.
    rewrite (rsum_ext (ngp1 m) _ (fun gp => half_side (m_nodes m (b_elt (the_bnd m ed))) (b_id (the_bnd m ed)) * (w1 m gp *
      vget (F_in m eaux g qh ed gp (normal m (b_elt (the_bnd m ed)) (b_id (the_bnd m ed))) (u_face m q (b_elt (the_bnd m ed)) (b_id (the_bnd m ed)) gp)) a))).
    - rewrite rsum_scal. ring.
    - intros gp _. rewrite phi0, half_side_J. ring.
  Qed.

  Lemma balance_elt : forall q dq a, dt <> 0 -> (a < 3)%nat -> rsum (m_n m) (fun e => applied (ndof m) (elt_delta m g dt theta t qp rp q e) (dq e) a 0) - rsum (m_n m) (fun e => elt_rhs m g dt theta t qp rp q e a 0%nat) =
      (total m (plus q dq) a - total m qp a) / dt - (1 - theta) * volume_int m (linear_source m g t q dq) a - theta * rsum (m_n m) (fun e => rp e a 0%nat).
  Proof.
    intros q dq a Hdt Ha. unfold total, volume_int.
      match goal with |- ?A - ?B = (?X - ?Y) / dt - ?c * ?Z - ?d * ?W => replace (A - B) with (rsum (m_n m) (fun e => applied (ndof m) (elt_delta m g dt theta t qp rp q e) (dq e) a 0 + (-1) * elt_rhs m g dt theta t qp rp q e a 0%nat)) by (rewrite rsum_plus, rsum_scal; ring);
        replace ((X - Y) / dt - c * Z - d * W) with (/ dt * X + (- / dt) * Y + (- c) * Z + (- d) * W) by (unfold Rdiv; ring) end.
      rewrite <- !rsum_scal, <- !rsum_plus. apply rsum_ext. intros e _. rewrite elt_delta_0, elt_rhs_0 by exact Ha.
      set (A := tri_area _ / 2).
      match goal with |- A * rsum _ ?f1 + -1 * (A * rsum _ ?f2 + ?r) = / dt * (A * rsum _ ?h1) + - / dt * (A * rsum _ ?h2) + ?c * (A * rsum _ ?h3) + ?rr =>
        transitivity (A * (rsum (ngp2 m) f1 + (-1) * rsum (ngp2 m) f2) - r); [ring|];
        transitivity (A * (/ dt * rsum (ngp2 m) h1 + (- / dt) * rsum (ngp2 m) h2 + c * rsum (ngp2 m) h3) + rr); [|unfold ngp2; ring] end.
      rewrite <- !rsum_scal, <- !rsum_plus.
      match goal with |- A * ?x - ?r = A * ?y + ?rr => assert (Q : x = y) end.
      { apply rsum_ext. intros gp _. unfold linear_source. rewrite elt_add, !vget_add. change (fst (nth gp (m_rule2 m) (0, (0, 0)))) with (w2 m gp). field. exact Hdt. }
      rewrite Q. ring.
  Qed.
  Lemma balance_bnd : forall q qh dq dqh a, (a < 3)%nat -> rsum nb (fun k => bd_lhs m eaux g theta q qh dq dqh (ni + k) a) - rsum nb (fun k => bd_rhs0 m eaux g theta q qh (ni + k) a) =
      (1 - theta) * bsum_edges m (fun ed => edge_int m ed (linear_flux m eaux g q qh dq dqh ed) a).
  Proof.
    intros q qh dq dqh a Ha. unfold bsum_edges.
      match goal with |- ?A - ?B = _ => replace (A - B) with (A + (-1) * B) by ring end.
      rewrite <- !rsum_scal, <- !rsum_plus. apply rsum_ext. intros k _. rewrite bd_lhs_0, bd_rhs_0 by exact Ha. unfold edge_int. rewrite side_bnd by lia. cbn [nth fst snd]. cbv zeta.
      set (b := the_bnd m (ni + k)). set (Lh := half_side _ _).
      match goal with |- ?c * (Lh * rsum _ ?f1) + -1 * - (?c * (Lh * rsum _ ?f2)) = _ => transitivity (c * (Lh * (rsum (ngp1 m) f1 + rsum (ngp1 m) f2))); [ring|] end.
      rewrite <- rsum_plus. f_equal. f_equal. apply rsum_ext. intros gp _. unfold linear_flux, trace_flux, edge_normal. rewrite side_bnd by lia. cbn [nth fst snd]. cbv zeta.
      change (fst (nth gp (m_rule1 m) (0, 0))) with (w1 m gp). fold b. rewrite !vget_add. ring.
  Qed.
  Lemma balance : forall q qh dq dqh a, conforming m -> symmetric_weights m -> in_range m -> dt <> 0 -> (a < 3)%nat -> solves m (sys q qh) dq dqh ->
    total m (plus q dq) a - total m qp a = dt * (theta * rsum (m_n m) (fun e => rp e a 0%nat) +
      (1 - theta) * (volume_int m (linear_source m g t q dq) a - bsum_edges m (fun ed => edge_int m ed (linear_flux m eaux g q qh dq dqh ed) a))).
  Proof.
    intros q qh dq dqh a C Sy Rg Hdt Ha H.
    pose proof (balance_raw m eaux g dt theta t qp rp s0 q qh dq dqh a C Sy Rg Ha H) as B.
    pose proof (balance_elt q dq a Hdt Ha) as E1. pose proof (balance_bnd q qh dq dqh a Ha) as E2.
    assert (X : (total m (plus q dq) a - total m qp a) / dt = theta * rsum (m_n m) (fun e => rp e a 0%nat) +
      (1 - theta) * (volume_int m (linear_source m g t q dq) a - bsum_edges m (fun ed => edge_int m ed (linear_flux m eaux g q qh dq dqh ed) a))) by lra.
    rewrite <- X. field. exact Hdt.
  Qed.
End System.

(** Property theorems about the Newton system of the implicit HDG solver: C49. *)
From Coq Require Import Reals List Bool Arith Lra Lia.
From Coquelicot Require Import Coquelicot.
From Verif Require Import Num ModelSWE ModelShape ModelBasis ModelJac ModelSlope ModelStep LemmasStep ModelIHDG SpecIHDG LemmasIHDG8.
Import ListNotations.
Open Scope R_scope.

(** Element equations in the element unknowns: the Jacobian up to sign, except for
    the bed slope, which is missing from delta_local. *)
Theorem C49_local_local : forall m eaux g dt theta t qp rp s0 q qh e e' a i v j,
  let sys q' := newton_system m eaux g dt theta t qp rp q' qh s0 in
  well_defined m eaux q qh = true -> (e < m_n m)%nat -> off_threshold m q e -> (a < 3)%nat -> (v < 3)%nat -> (j < ndof m)%nat ->
  partial (fun q' => nw_rhs (sys q') e a i) q e' v j
    (if (e =? e')%nat then - nw_delta (sys q) e i a j v + (1 - theta) * phi_phi m e j i (slope_mat m g e) a v else 0).
Proof. exact jac_local. Qed.
Print Assumptions C49_local_local.
Theorem C49_local_local_flat : forall m eaux g dt theta t qp rp s0 q qh e a i v j,
  let sys q' := newton_system m eaux g dt theta t qp rp q' qh s0 in
  well_defined m eaux q qh = true -> (e < m_n m)%nat -> off_threshold m q e -> flat m e -> (a < 3)%nat -> (v < 3)%nat -> (j < ndof m)%nat ->
  partial (fun q' => nw_rhs (sys q') e a i) q e v j (- nw_delta (sys q) e i a j v).
Proof. exact jac_local_flat. Qed.
Print Assumptions C49_local_local_flat.

(** Element equations in the trace unknowns. *)
Theorem C49_local_trace : forall m eaux g dt theta t qp rp s0 q qh ed e a i v j,
  let sys qh' := newton_system m eaux g dt theta t qp rp q qh' s0 in
  0 < g -> conforming m -> symmetric_weights m -> well_defined m eaux q qh = true ->
  (e < m_n m)%nat -> (ed < nedges m)%nat -> flowing m eaux qh ed -> (a < 3)%nat -> (v < 3)%nat -> (j < nedof m)%nat ->
  (forall f, In (e, f) (sides m ed) -> partial (fun q' => nw_rhs (sys q') e a i) qh ed v j (- nw_hat (sys qh) e f i a j v)) /\
  ((forall f, ~ In (e, f) (sides m ed)) -> partial (fun q' => nw_rhs (sys q') e a i) qh ed v j 0).
Proof. exact jac_local_trace. Qed.
Print Assumptions C49_local_trace.

(** Trace equations in the element unknowns. *)
Theorem C49_trace_local : forall m eaux g dt theta t qp rp s0 q qh ed e a i v j,
  let sys q' := newton_system m eaux g dt theta t qp rp q' qh s0 in
  conforming m -> (ed < nedges m)%nat -> (a < 3)%nat -> (v < 3)%nat -> (j < ndof m)%nat ->
  (forall f, In (e, f) (sides m ed) -> prescribed_edge m ed ->
    partial (fun q' => nw_grhs (sys q') ed a i) q e v j (- nw_glob (sys q) e f i a j v)) /\
  ((forall f, ~ In (e, f) (sides m ed)) -> partial (fun q' => nw_grhs (sys q') ed a i) q e v j 0).
Proof. exact jac_trace_local. Qed.
Print Assumptions C49_trace_local.
(** An exterior state that is affine in the interior one (flow: E = diag(1,0,0),
    tide: E = diag(0,1,1)) leaves a part A^- E out of delta_global. *)
Theorem C49_trace_open : forall m eaux g dt theta t qp rp s0 q qh ed ex E c a i v j,
  let sys q' := newton_system m eaux g dt theta t qp rp q' qh s0 in
  conforming m -> (ed < nedges m)%nat -> edge_bc m ed = Some (Exterior ex) ->
  (forall gp w, ex t gp (edge_normal m ed) w = vadd (mvec (E gp) w) (c gp)) -> (a < 3)%nat -> (v < 3)%nat -> (j < ndof m)%nat ->
  forall e f, In (e, f) (sides m ed) ->
  partial (fun q' => nw_grhs (sys q') ed a i) q e v j (- nw_glob (sys q) e f i a j v +
    phi_lambda_in m e f f j i (fun gp => mmul (get_Aminus g (u_edge m qh ed gp) (a_edge m eaux qh ed gp) (edge_normal m ed)) (E gp)) a v).
Proof. exact jac_trace_open. Qed.
Print Assumptions C49_trace_open.

(** Trace equations in the trace unknowns. *)
Theorem C49_trace_trace : forall m eaux g dt theta t qp rp s0 q qh ed ed' a i v j,
  let sys qh' := newton_system m eaux g dt theta t qp rp q qh' s0 in
  0 < g -> well_defined m eaux q qh = true -> (ed' < nedges m)%nat -> smooth_edge m eaux g qh ed' ->
  (a < 3)%nat -> (v < 3)%nat -> (j < nedof m)%nat ->
  partial (fun q' => nw_grhs (sys q') ed' a i) qh ed v j (if (ed' =? ed)%nat then - nw_hglob (sys qh) ed i a j v else 0).
Proof. exact jac_trace. Qed.
Print Assumptions C49_trace_trace.

(** With bottom friction, water at rest at one Gauss point makes the derivative of
    the friction term a division by zero. *)
Theorem C49_friction_at_rest : forall m eaux q qh e gp, (e < m_n m)%nat -> (gp < ngp2 m)%nat -> s_bottom_friction (m_src m e) = true ->
  qx (u_elt m q e gp) = 0 -> qy (u_elt m q e gp) = 0 -> well_defined m eaux q qh = false.
Proof. exact rest_friction. Qed.
Print Assumptions C49_friction_at_rest.

(** ** One triangle, order 0: land on two faces, inflow on the third, bed slope 1 in x *)
Definition inflow : R -> nat -> vec2 R -> vec3 R -> vec3 R := fun _ _ n q => V3 (ze q) (- nx n) (- ny n).
Definition tri : mesh := Mesh 1 0 (fun _ i => match i with 0%nat => (0, 0) | 1%nat => (1, 0) | _ => (0, 1) end)
  [(2, (-1 / 3, -1 / 3))] [(2, 0)] (fun _ _ => Aux 1 1 1) (fun _ _ => V2 1 0) (fun _ _ _ => Aux 1 1 1)
  (fun _ => SourceIn false 0 false 0) None [] [Bnd 0 0 Land; Bnd 0 1 (Exterior inflow); Bnd 0 2 Land]
  (fun _ _ => 1) (fun _ => 1) (fun _ => SlIn 1 1 1 (fun _ => (1, 0)) (fun _ => (1, 0)) (fun _ => 1) 1 (fun _ _ => 0)).
Definition tri_q : nat -> coeffs := fun _ v _ => match v with 0%nat => 0 | 1%nat => - (1 / 2) | _ => 2 end.
Definition tri_aux : nat -> nat -> aux3 R := fun _ _ => Aux 1 1 1.
Definition zero_newton : newton :=
  Newton (fun _ _ _ _ _ => 0) (fun _ _ _ => 0) (fun _ _ _ _ _ _ => 0) (fun _ _ _ _ _ _ => 0) (fun _ _ _ _ _ => 0) (fun _ _ _ => 0).
Definition tri_sys (q qh : nat -> coeffs) : newton := newton_system tri tri_aux 1 1 0 0 tri_q (fun _ _ _ => 0) q qh zero_newton.

Lemma leg0 : forall x, legendre_phi 0 x = 1.
Proof. intros x. unfold legendre_phi, jacobi_polynomial, jacobi_rows, jacobi_first. cbn. reflexivity. Qed.
Lemma tri_expand : forall e z, expand tri (tri_q e) z = V3 0 (- (1 / 2)) 2.
Proof. intros e z. unfold expand. change (ndof tri) with 1%nat. unfold vmsum. cbn [seq fold_left]. rewrite phi0. cbn [tri_q]. f_equal; num_R; ring. Qed.
Lemma tri_edge : forall e gp, u_edge tri tri_q e gp = V3 0 (- (1 / 2)) 2.
Proof. intros e gp. unfold u_edge, nedof. cbn [tri m_p]. unfold vmsum. cbn [seq fold_left]. rewrite leg0. cbn. f_equal; num_R; ring. Qed.
Example tri_ok : conforming tri /\ symmetric_weights tri /\ well_defined tri tri_aux tri_q tri_q = true /\ off_threshold tri tri_q 0.
Proof.
  split; [|split; [|split]].
  - split; [|constructor]. cbn. repeat constructor; cbn; intuition congruence.
  - intros gp H. cbn in H. replace gp with 0%nat by lia. reflexivity.
  - unfold well_defined, ngp2, ngp1, nedges, nint. cbn [tri m_n m_rule2 m_rule1 m_intfaces m_bounds length seq forallb m_src Nat.add].
    unfold a_elt, a_edge, u_elt. cbn [m_aux tri tri_aux]. rewrite !tri_edge, !tri_expand. cbn.
    rewrite (Rltb_true 0 (0 + 1)) by lra. reflexivity.
  - intros F. discriminate.
Qed.

(** "delta_local is minus the derivative of rhs_local" is false over a sloping bed. *)
Theorem C49_bed_slope_refuted : exists m eaux g dt theta t qp rp s0 q qh e a i v j,
  let sys q' := newton_system m eaux g dt theta t qp rp q' qh s0 in
  0 < g /\ well_defined m eaux q qh = true /\ (e < m_n m)%nat /\ off_threshold m q e /\ (a < 3)%nat /\ (v < 3)%nat /\ (j < ndof m)%nat /\
  ~ partial (fun q' => nw_rhs (sys q') e a i) q e v j (- nw_delta (sys q) e i a j v).
Proof.
  destruct tri_ok as (_ & _ & W & Off).
  exists tri, tri_aux, 1, 1, 0, 0, tri_q, (fun _ _ _ => 0), zero_newton, tri_q, tri_q, 0%nat, 1%nat, 0%nat, 0%nat, 0%nat.
  cbv zeta. split; [lra|]. split; [exact W|]. split; [cbn; lia|]. split; [exact Off|]. split; [lia|]. split; [lia|]. split; [cbn; lia|].
  intros P. pose proof (C49_local_local tri tri_aux 1 1 0 0 tri_q (fun _ _ _ => 0) zero_newton tri_q tri_q 0 0 1 0 0 0 W) as K.
  specialize (K ltac:(cbn; lia) Off ltac:(lia) ltac:(lia) ltac:(cbn; lia)). cbv zeta in K. rewrite Nat.eqb_refl in K.
  unfold partial in P, K. apply is_derive_unique in P. apply is_derive_unique in K. rewrite P in K.
  assert (E : phi_phi tri 0 0 0 (slope_mat tri 1 0) 1 0 = 1 / 2).
  { unfold phi_phi, ngp2. cbn [tri m_rule2 length]. unfold vmsum. cbn [seq fold_left]. rewrite !phi0.
    unfold slope_mat, w2, GetJdet, determinant, deformation. cbn. num_R. rewrite Rabs_pos_eq; lra. }
  rewrite E in K. lra.
Qed.
Print Assumptions C49_bed_slope_refuted.

(** "delta_global is minus the derivative of rhs_global" is false on a flow boundary. *)
Theorem C49_open_state_refuted : exists m eaux g dt theta t qp rp s0 q qh ed e f ex a i v j qn,
  let sys q' := newton_system m eaux g dt theta t qp rp q' qh s0 in
  0 < g /\ conforming m /\ well_defined m eaux q qh = true /\ (ed < nedges m)%nat /\ noncritical_edge m eaux g qh ed /\ In (e, f) (sides m ed) /\
  edge_bc m ed = Some (Exterior ex) /\ (forall t gp n q, ex t gp n q = V3 (ze q) (qn * nx n) (qn * ny n)) /\
  (a < 3)%nat /\ (v < 3)%nat /\ (j < ndof m)%nat /\
  ~ partial (fun q' => nw_grhs (sys q') ed a i) q e v j (- nw_glob (sys q) e f i a j v).
Proof.
  destruct tri_ok as (C & _ & W & _).
  assert (N : normal tri 0 1 = V2 (-1) 0).
  { unfold normal, GetSurfaceNormal, ModelShape.hypot, determinant, deformation. cbn.
    replace ((0 - 0) * (0 - 0) + (0 - 1) * (0 - 1)) with 1 by ring. rewrite sqrt_1. rewrite Rabs_pos_eq by lra. f_equal; lra. }
  assert (N' : edge_normal tri 1 = V2 (-1) 0) by exact N.
  assert (Q : sqrt (1 * (0 + 1)) = 1) by (replace (1 * (0 + 1)) with 1 by ring; apply sqrt_1).
  exists tri, tri_aux, 1, 1, 0, 0, tri_q, (fun _ _ _ => 0), zero_newton, tri_q, tri_q, 1%nat, 0%nat, 1%nat, inflow, 0%nat, 0%nat, 0%nat, 0%nat, (-1).
  cbv zeta. split; [lra|]. split; [exact C|]. split; [exact W|]. split; [cbn; lia|]. split.
  { intros gp _. unfold a_edge, trace_un. rewrite tri_edge, N'. cbn [hh with_depth tri_aux ze qx qy bath nx ny]. cbv zeta.
    rewrite Q. unfold a_edge. rewrite tri_edge. cbn [hh with_depth tri_aux ze bath]. split; [|split]; lra. }
  split; [left; reflexivity|]. split; [reflexivity|]. split; [intros; unfold inflow; f_equal; ring|].
  split; [lia|]. split; [lia|]. split; [cbn; lia|].
  intros P. pose proof (C49_trace_open tri tri_aux 1 1 0 0 tri_q (fun _ _ _ => 0) zero_newton tri_q tri_q 1 inflow (fun _ => M3 1 0 0 0 0 0 0 0 0) (fun _ => V3 0 1 0) 0 0 0 0 C) as K.
  specialize (K ltac:(cbn; lia) eq_refl). rewrite N' in K.
  assert (X : forall (gp : nat) w, inflow 0 gp (V2 (-1) 0) w = vadd (mvec (M3 1 0 0 0 0 0 0 0 0) w) (V3 0 1 0)).
  { intros gp w. unfold inflow, vadd, mvec. cbn. f_equal; num_R; ring. }
  specialize (K X ltac:(lia) ltac:(lia) ltac:(cbn; lia) 0%nat 1%nat (or_introl eq_refl)). cbv zeta in K.
  unfold partial in P, K. apply is_derive_unique in P. apply is_derive_unique in K. rewrite P in K.
  assert (E : phi_lambda_in tri 0 1 1 0 0 (fun gp => mmul (get_Aminus 1 (u_edge tri tri_q 1 gp) (a_edge tri tri_aux tri_q 1 gp) (V2 (-1) 0)) (M3 1 0 0 0 0 0 0 0 0)) 0 0 = - (3 / 8)).
  { unfold phi_lambda_in, ngp1, lambda_fact. cbn [tri m_rule1 length]. unfold vmsum. cbn [seq fold_left]. rewrite phi0, leg0.
    assert (J : GetSurfaceJ (m_nodes tri 0) 1 = 1 / 2).
    { unfold GetSurfaceJ. cbn. replace ((0 - 0) * ((0 - 0) * 1) + (0 - 1) * ((0 - 1) * 1)) with 1 by ring. rewrite sqrt_1. lra. }
    fold tri. rewrite J. unfold a_edge. rewrite tri_edge. unfold get_Aminus, at_point, halfconj3, minus5, eigL, absL, eigR, invR. cbn [hh with_depth tri_aux ze qx qy bath nx ny]. cbv zeta.
    rewrite Q. unfold w1. cbn. rewrite (Rabs_left (_ - 1)) by lra. rewrite (Rabs_pos_eq (_ + 1)) by lra. rewrite Rabs_pos_eq by lra. field. }
  rewrite E in K. lra.
Qed.
Print Assumptions C49_open_state_refuted.

(** On the land face y = 0 the trace takes ze and the tangential discharge from the
    element and no normal discharge. *)
Example C49_ex : let s := tri_sys tri_q tri_q in
  nw_glob s 0 2 0%nat 1%nat 0%nat 1%nat = -1 /\ nw_glob s 0 2 0%nat 2%nat 0%nat 2%nat = 0 /\ nw_hglob s 2 0%nat 1%nat 0%nat 1%nat = 1 /\ nw_grhs s 2 1%nat 0%nat = 0 /\ nw_grhs s 2 2%nat 0%nat = -2.
Proof.
  destruct tri_ok as (C & _ & W & _).
  assert (N : normal tri 0 2 = V2 0 (-1)).
  { unfold normal, GetSurfaceNormal, ModelShape.hypot, determinant, deformation. cbn.
    replace ((1 - 0) * (1 - 0) + (0 - 0) * (0 - 0)) with 1 by ring. rewrite sqrt_1. rewrite Rabs_pos_eq by lra. f_equal; lra. }
  assert (J : GetSurfaceJ (m_nodes tri 0) 2 = 1 / 2).
  { unfold GetSurfaceJ. cbn. replace ((1 - 0) * ((1 - 0) * 1) + (0 - 0) * ((0 - 0) * 1)) with 1 by ring. rewrite sqrt_1. lra. }
  cbv zeta. unfold tri_sys.
  pose proof (LemmasIHDG4.glob_bnd tri tri_aux 1 1 0 0 tri_q (fun _ _ _ => 0) zero_newton tri_q tri_q 2 0 1 0 1 C ltac:(cbn; lia)) as G1.
  pose proof (LemmasIHDG4.glob_bnd tri tri_aux 1 1 0 0 tri_q (fun _ _ _ => 0) zero_newton tri_q tri_q 2 0 2 0 2 C ltac:(cbn; lia)) as G2.
  pose proof (LemmasIHDG4.hglob_bnd tri tri_aux 1 1 0 0 tri_q (fun _ _ _ => 0) zero_newton tri_q tri_q 2 0 1 0 1 ltac:(cbn; lia)) as G3.
  pose proof (LemmasIHDG4.grhs_bnd tri tri_aux 1 1 0 0 tri_q (fun _ _ _ => 0) zero_newton tri_q tri_q 2 1 0 ltac:(cbn; lia)) as G4.
  pose proof (LemmasIHDG4.grhs_bnd tri tri_aux 1 1 0 0 tri_q (fun _ _ _ => 0) zero_newton tri_q tri_q 2 2 0 ltac:(cbn; lia)) as G5.
  cbv beta in G1, G2, G3, G4, G5. change (b_elt (the_bnd tri 2)) with 0%nat in *. change (b_id (the_bnd tri 2)) with 2%nat in *.
  rewrite G1, G2, G3, G4, G5. unfold LemmasIHDG4.bd_glob, LemmasIHDG4.bd_kern, phi_lambda_in, lambda_lambda, edge_lambda, lambda_fact, u_face, ngp1.
  change (b_elt (the_bnd tri 2)) with 0%nat in *. change (b_id (the_bnd tri 2)) with 2%nat in *. change (b_bc (the_bnd tri 2)) with Land.
  change (length (m_rule1 tri)) with 1%nat. unfold vmsum. cbn [seq fold_left bc_kernels fst snd]. rewrite tri_expand, tri_edge, phi0, leg0, J, N.
  change (w1 tri 0) with 2. unfold land_delta, land_rhs. cbn. num_R. repeat split; lra.
Qed.

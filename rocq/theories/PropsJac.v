(** Property theorems about flux Jacobians, characteristic decomposition,
    stabilization and bottom friction: C04, C05, C06, C40. *)
From Coq Require Import Reals Lra Lia List Arith.
From Coquelicot Require Import Coquelicot.
From Verif Require Import Num ModelSWE SpecSWE LemmasSWE ModelJac SpecJac LemmasJac LemmasJac2 LemmasJac3.
Open Scope R_scope.

(** ** C04 *)
Theorem C04_flux_jacobians : forall g b s z x y, z + b <> 0 ->
  jacobian (fun z x y => fst (get_F g (state z x y) (auxil z b s))) z x y (fst (get_dF_dq g (state z x y) (auxil z b s))) /\
  jacobian (fun z x y => snd (get_F g (state z x y) (auxil z b s))) z x y (snd (get_dF_dq g (state z x y) (auxil z b s))).
Proof. exact (fun g b s z x y H => conj (flux_jacobian_x g b s z x y H) (flux_jacobian_y g b s z x y H)). Qed.
Print Assumptions C04_flux_jacobians.

Theorem C04_normal_flux_jacobian : forall g b s n z x y, z + b <> 0 ->
  jacobian (fun z x y => get_Fn g (state z x y) (auxil z b s) n) z x y (get_dFn_dq g (state z x y) (auxil z b s) n).
Proof. exact flux_jacobian_n. Qed.
Print Assumptions C04_normal_flux_jacobian.

(** The normal flux and its Jacobian are the n-combinations of the two directional ones. *)
Theorem C04_normal_combination : forall g q a n,
  get_Fn g q a n = vadd (vscale (nx n) (fst (get_F g q a))) (vscale (ny n) (snd (get_F g q a))) /\
  get_dFn_dq g q a n = madd (mscale (nx n) (fst (get_dF_dq g q a))) (mscale (ny n) (snd (get_dF_dq g q a))).
Proof. exact (fun g q a n => conj (Fn_combination g q a n) (dFn_combination g q a n)). Qed.
Print Assumptions C04_normal_combination.

(** At depth 3/2 over bathymetry 1, discharge (3, -1), normal (0, 1), g = 2. *)
Example C04_ex : get_dFn_dq 2 (state (1/2) 3 (-1)) (auxil (1/2) 1 1) (V2 0 1) =
  M3 0 0 1 (4/3) (-2/3) 2 (23/9) 0 (-4/3).
Proof. apply mat3_eq; cbn; field. Qed.

(** ** C05 *)
Theorem C05_eigenvectors_inverse : forall g h u v x y, 0 < g -> 0 < h -> x * x + y * y = 1 ->
  mmul (invR g h u v x y) (eigR g h u v x y) = ident /\ mmul (eigR g h u v x y) (invR g h u v x y) = ident.
Proof. exact inverse_lr. Qed.
Print Assumptions C05_eigenvectors_inverse.

Theorem C05_decomposition : forall g q a n, 0 < g -> 0 < hh a -> unit2 n -> get_A g q a n = get_dFn_dq g q a n.
Proof. exact get_A_is_dFn. Qed.
Print Assumptions C05_decomposition.

Theorem C05_upwind_parts : forall g q a n,
  madd (get_Aplus g q a n) (get_Aminus g q a n) = get_A g q a n /\
  msub (get_Aplus g q a n) (get_Aminus g q a n) = get_absA g q a n.
Proof. exact A_parts. Qed.
Print Assumptions C05_upwind_parts.

(** |A| squares to A^2 and has no negative eigenvalue; the upwind part has no
    negative and the downwind part no positive eigenvalue. *)
Theorem C05_absolute_value : forall g q a n, 0 < g -> 0 < hh a -> unit2 n ->
  mmul (get_absA g q a n) (get_absA g q a n) = mmul (get_A g q a n) (get_A g q a n).
Proof. exact absA_sq. Qed.
Print Assumptions C05_absolute_value.
Theorem C05_absolute_value_sign : forall g q a n l, 0 < g -> 0 < hh a -> unit2 n ->
  eigenvalue (get_absA g q a n) l -> 0 <= l.
Proof. exact absA_eigenvalues. Qed.
Print Assumptions C05_absolute_value_sign.
Theorem C05_parts_sign : forall g q a n l, 0 < g -> 0 < hh a -> unit2 n ->
  (eigenvalue (get_Aplus g q a n) l -> 0 <= l) /\ (eigenvalue (get_Aminus g q a n) l -> l <= 0).
Proof. exact Aplus_eigenvalues. Qed.
Print Assumptions C05_parts_sign.

Theorem C05_dA : forall g b s n z x y, 0 < g -> 0 < z + b ->
  mderive (fun t => get_A g (state t x y) (auxil t b s) n) z (get_dA_dze g (state z x y) (auxil z b s) n) /\
  mderive (fun t => get_A g (state z t y) (auxil z b s) n) x (get_dA_dqx g (state z x y) (auxil z b s) n) /\
  mderive (fun t => get_A g (state z x t) (auxil z b s) n) y (get_dA_dqy g (state z x y) (auxil z b s) n).
Proof. exact dA_is_derivative. Qed.
Print Assumptions C05_dA.

(** The derivatives of |A|, A+ and A- hold where no eigenvalue is zero. *)
Theorem C05_dabsA : forall g b s n z x y, 0 < g -> 0 < z + b ->
  noncritical g (state z x y) (auxil z b s) n ->
  mderive (fun t => get_absA g (state t x y) (auxil t b s) n) z (get_dabsA_dze g (state z x y) (auxil z b s) n) /\
  mderive (fun t => get_absA g (state z t y) (auxil z b s) n) x (get_dabsA_dqx g (state z x y) (auxil z b s) n) /\
  mderive (fun t => get_absA g (state z x t) (auxil z b s) n) y (get_dabsA_dqy g (state z x y) (auxil z b s) n).
Proof. exact dabsA_is_derivative. Qed.
Print Assumptions C05_dabsA.
Theorem C05_dAplus : forall g b s n z x y, 0 < g -> 0 < z + b ->
  noncritical g (state z x y) (auxil z b s) n ->
  mderive (fun t => get_Aplus g (state t x y) (auxil t b s) n) z (get_dAplus_dze g (state z x y) (auxil z b s) n) /\
  mderive (fun t => get_Aplus g (state z t y) (auxil z b s) n) x (get_dAplus_dqx g (state z x y) (auxil z b s) n) /\
  mderive (fun t => get_Aplus g (state z x t) (auxil z b s) n) y (get_dAplus_dqy g (state z x y) (auxil z b s) n).
Proof. exact dAplus_is_derivative. Qed.
Print Assumptions C05_dAplus.
Theorem C05_dAminus : forall g b s n z x y, 0 < g -> 0 < z + b ->
  noncritical g (state z x y) (auxil z b s) n ->
  mderive (fun t => get_Aminus g (state t x y) (auxil t b s) n) z (get_dAminus_dze g (state z x y) (auxil z b s) n) /\
  mderive (fun t => get_Aminus g (state z t y) (auxil z b s) n) x (get_dAminus_dqx g (state z x y) (auxil z b s) n) /\
  mderive (fun t => get_Aminus g (state z x t) (auxil z b s) n) y (get_dAminus_dqy g (state z x y) (auxil z b s) n).
Proof. exact dAminus_is_derivative. Qed.
Print Assumptions C05_dAminus.

(** A supercritical state, g = 1, depth 1, velocity (2, 1), normal (3/5, 4/5):
    un = 2, c = 1; hypotheses hold and the Jacobian is as expected. *)
Example C05_ex_hyp : 0 < 1 /\ 0 < 0 + 1 /\ unit2 (V2 (3/5) (4/5)) /\
  noncritical 1 (state 0 2 1) (auxil 0 1 1) (V2 (3/5) (4/5)) /\
  get_A 1 (state 0 2 1) (auxil 0 1 1) (V2 (3/5) (4/5)) =
    M3 0 (3/5) (4/5) (-17/5) (16/5) (8/5) (-6/5) (3/5) (14/5) /\
  get_Aminus 1 (state 0 2 1) (auxil 0 1 1) (V2 (3/5) (4/5)) = mzero.
Proof.
  assert (U : unit2 (V2 (3/5) (4/5))) by (unfold unit2; cbn; field).
  assert (S1 : sqrt (1 * (0 + 1)) = 1) by (replace (1 * (0 + 1)) with 1 by ring; apply sqrt_1).
  split; [lra|]. split; [lra|]. split; [assumption|]. split.
  { unfold noncritical, un_of. cbn. rewrite S1. lra. }
  split.
  { rewrite get_A_is_dFn by (try assumption; cbn; lra). apply mat3_eq; cbn; field. }
  unfold get_Aminus, at_point, halfconj3, minus5, eigL, absL. cbn. rewrite S1.
  rewrite !Rabs_pos_eq by lra. apply mat3_eq; cbn; field; rewrite S1; lra.
Qed.

(** ** C06 *)
Theorem C06_tau_bounds_eigenvalues : forall g q a n l, 0 < g -> 0 < hh a -> unit2 n ->
  eigenvalue (get_dFn_dq g q a n) l -> Rabs l <= tau_LF g q a n.
Proof. exact tau_bounds. Qed.
Print Assumptions C06_tau_bounds_eigenvalues.
(** and it is not larger than necessary *)
Theorem C06_tau_attained : forall g q a n, 0 < g -> 0 < hh a -> unit2 n ->
  exists l, eigenvalue (get_dFn_dq g q a n) l /\ Rabs l = tau_LF g q a n.
Proof. exact tau_attained. Qed.
Print Assumptions C06_tau_attained.
Theorem C06_tau_derivatives : forall g b s n z x y, 0 < g -> 0 < z + b ->
  un_of (state z x y) (auxil z b s) n <> 0 ->
  is_derive (fun t => tau_LF g (state t x y) (auxil t b s) n) z (dtau_dze_LF g (state z x y) (auxil z b s) n) /\
  is_derive (fun t => tau_LF g (state z t y) (auxil z b s) n) x (dtau_dqx_LF (state z x y) (auxil z b s) n) /\
  is_derive (fun t => tau_LF g (state z x t) (auxil z b s) n) y (dtau_dqy_LF (state z x y) (auxil z b s) n).
Proof. exact dtau_is_derivative. Qed.
Print Assumptions C06_tau_derivatives.
Theorem C06_derivative_at_rest_refuted : exists g b s n z x y, 0 < g /\ 0 < z + b /\ unit2 n /\
  dtau_dqx_LF (state z x y) (auxil z b s) n = 0 /\
  forall l, ~ is_derive (fun t => tau_LF g (state z t y) (auxil z b s) n) x l.
Proof. exact tau_kink_witness. Qed.
Print Assumptions C06_derivative_at_rest_refuted.
Theorem C06_gravity_argument_refuted : exists g gr q a n, 0 < g /\ 0 < hh a /\ unit2 n /\
  tau_LF_gravity g gr q a n <> tau_LF gr q a n.
Proof. exact tau_gravity_witness. Qed.
Print Assumptions C06_gravity_argument_refuted.

Example C06_ex : tau_LF 1 (state 0 2 1) (auxil 0 1 1) (V2 (3/5) (4/5)) = 3 /\
  dtau_dze_LF 1 (state 0 2 1) (auxil 0 1 1) (V2 (3/5) (4/5)) = -3/2 /\
  dtau_dqx_LF (state 0 2 1) (auxil 0 1 1) (V2 (3/5) (4/5)) = 3/5 /\
  dtau_dqy_LF (state 0 2 1) (auxil 0 1 1) (V2 (3/5) (4/5)) = 4/5.
Proof.
  unfold tau_LF, dtau_dze_LF, dtau_dqx_LF, dtau_dqy_LF, nsign. num_R. cbn.
  replace (2 / (0 + 1) * (3 / 5) + 1 / (0 + 1) * (4 / 5)) with 2 by field.
  replace (1 * (0 + 1)) with 1 by ring. replace (1 / (0 + 1)) with 1 by field.
  rewrite sqrt_1, Rltb_true, Rabs_pos_eq by lra. lra.
Qed.

(** ** C40 *)
Theorem C40_friction_dissipates : forall g p fs ngp q a db j, (j < ngp)%nat -> 0 <= s_Cf p -> 0 < hh (a j) ->
  let s := get_source g p fs ngp q a db j in
  let s0 := unfrictioned g fs (q j) (db j) j in
  ze s = ze s0 /\
  qx (vsub s s0) * qy (q j) = qy (vsub s s0) * qx (q j) /\
  power (vsub s s0) (q j) <= 0 /\
  (qx (q j) = 0 -> qy (q j) = 0 -> s = s0).
Proof. exact friction_dissipates. Qed.
Print Assumptions C40_friction_dissipates.
Theorem C40_friction_strict : forall g p fs ngp q a db j, (j < ngp)%nat -> s_bottom_friction p = true ->
  0 < s_Cf p -> 0 < hh (a j) -> qx (q j) <> 0 \/ qy (q j) <> 0 ->
  power (vsub (get_source g p fs ngp q a db j) (unfrictioned g fs (q j) (db j) j)) (q j) < 0.
Proof. exact friction_strict. Qed.
Print Assumptions C40_friction_strict.
(** The source is the pressure and function terms minus Cf |u| / h times the discharge. *)
Theorem C40_source_form : forall g p fs ngp q a db j, (j < ngp)%nat ->
  get_source g p fs ngp q a db j =
  vsub (unfrictioned g fs (q j) (db j) j)
    (if s_bottom_friction p then
       vscale (friction_coef p (hh (a j)) * speed_over_depth (q j) (hh (a j))) (V3 0 (qx (q j)) (qy (q j)))
     else V3 0 0 0).
Proof. exact source_form. Qed.
Print Assumptions C40_source_form.
Theorem C40_cube_root : forall h, 0 < h -> 0 < cube_root h /\ cube_root h * cube_root h * cube_root h = h.
Proof. exact (fun h H => conj (cube_root_pos h) (cube_root_cube h H)). Qed.
Print Assumptions C40_cube_root.

(** Depth 2, discharge (6, 8), Cf = 1/10, no Manning, two Gauss points: speed 5,
    friction (1/10)(5)/2 (6, 8) = (3/2, 2); bed slope (1, 0), elevation 1, g = 10. *)
Example C40_ex :
  get_source 10 (SourceIn true (1/10) false 0) None 2 (fun _ => V3 1 6 8) (fun _ => Aux 1 2 1) (fun _ => V2 1 0) 1
  = V3 0 (17/2) (-2).
Proof.
  rewrite C40_source_form by lia. cbn [s_bottom_friction].
  assert (E : speed_over_depth (V3 1 6 8) (hh (Aux 1 2 1)) = 5 / 2).
  { unfold speed_over_depth. cbn. replace (6 / 2 * (6 / 2) + 8 / 2 * (8 / 2)) with (5 * 5) by field. rewrite sqrt_square by lra. reflexivity. }
  rewrite E. apply vec3_eq; unfold vsub, vscale, unfrictioned, friction_coef; num_R; cbn; lra.
Qed.

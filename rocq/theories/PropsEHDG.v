(** Property C56: the explicit HDG solver of source/problem/SWE/discretization_EHDG. *)
From Coq Require Import Reals QArith Qreals List Bool Arith Lia Lra.
From Coquelicot Require Import Hierarchy Derive.
From Verif Require Import Num ModelSWE Outcome ModelShape ModelBasis ModelJac ModelStepper ModelWetDry ModelSlope ModelStep ModelInit ModelIHDG ModelEHDG
  SpecSWE SpecShape SpecBasis SpecJac SpecStepper SpecWetDry SpecSlope SpecStep SpecStage SpecIHDG SpecCond SpecEHDG
  LemmasShape LemmasRK LemmasStep LemmasRest6 LemmasStage LemmasStage3 LemmasRest2 LemmasRest3 LemmasIHDG1 LemmasIHDG2 LemmasEHDG1 LemmasEHDG2 LemmasEHDG4 LemmasEHDG5 LemmasEHDG6 LemmasEHDG7 LemmasEHDG8 PropsStep PropsStage PropsBasis.
From Verif Require Import SpecRest.
Import ListNotations.
Open Scope R_scope.

(** ** One stage *)
Theorem C56_stage : forall m c solve nbr s stp, stage_ok m c -> (st_stage stp < st_nstages stp)%nat ->
  (forall e b, (e < m_n m)%nat -> (b < 3)%nat -> seen_across m e b (nbr e b)) ->
  exists s' wd, ehdg_stage m c solve (s, stp) = Ok (s', stepper_incr stp) /\
    fluxes_of m c solve (time_at_stage stp) (st_stage stp) s s' /\
    stage_with (hdg_form m c (time_at_stage stp) (st_stage stp) (es_m s) (es_F s')) m c nbr stp (es_m s) wd (es_m s').
Proof. exact ehdg_stage_spec. Qed.
Print Assumptions C56_stage.

(** ** Water balance *)
Theorem C56_stage_balance : forall m c solve s stp, hdg_mesh_ok m -> 0 <= c_thr c -> 0 <= c_h_o c -> (st_stage stp < st_nstages stp)%nat ->
  let k := st_stage stp in
  let dt := st_dt stp in
  let slot := ((k + 1) mod st_nstages stp)%nat in
  exists s', ehdg_stage m c solve (s, stp) = Ok (s', stepper_incr stp) /\
  fluxes_of m c solve (time_at_stage stp) k s s' /\
  production m (es_m s') k = hdg_inflow m (es_F s') (s, stp) /\
  volume m (es_m s') slot = rsum (S k) (fun i => Q2R (entry (c_A c) k i) * volume m (es_m s) i + dt * Q2R (entry (c_B c) k i) * production m (es_m s') i)
                      + lifted m c dt k (es_m s) (es_m s') /\
  (forall i, i <> k -> production m (es_m s') i = production m (es_m s) i) /\
  ((k + 1 < st_nstages stp)%nat -> forall i, i <> (k + 1)%nat -> volume m (es_m s') i = volume m (es_m s) i).
Proof. exact ehdg_stage_balance. Qed.
Print Assumptions C56_stage_balance.

Theorem C56_step_balance : forall m c solve s stp p, hdg_mesh_ok m -> 0 <= c_thr c -> 0 <= c_h_o c -> st_stage stp = 0%nat ->
  rk_table (st_nstages stp) p = Some (c_A c, c_B c) ->
  let n := st_nstages stp in
  let x := (s, stp) in
  let V0 := volume m (es_m s) 0 in
  exists s' stp' (r : R) (w : nat -> R) created,
  ehdg_step m c solve x = Ok (s', stp') /\ st_stage stp' = 0%nat /\ st_nstages stp' = n /\
  Rabs (r - 1) <= Q2R (1 # 10000000000000) /\ (In (n, p) [(1, 1); (2, 2); (3, 3); (4, 3); (6, 3); (7, 4); (8, 4)]%nat -> r = 1) /\
  (forall k, (k < n)%nat -> 0 <= w k) /\ Rabs (rsum n w - 1) <= Q2R (1 # 10000000000) /\
  volume m (es_m s') 0 = r * V0 + st_dt stp * rsum n (fun k => w k * hdg_inflow_at m c solve x k) + created /\
  0 <= created /\ ((forall k, (k < n)%nat -> hdg_lifted_at m c solve x k = 0) -> created = 0).
Proof. exact ehdg_step_balance. Qed.
Print Assumptions C56_step_balance.

Theorem C56_closed_step : forall m c solve s stp p, hdg_mesh_ok m -> closed m -> 0 <= c_thr c -> 0 <= c_h_o c -> st_stage stp = 0%nat ->
  rk_table (st_nstages stp) p = Some (c_A c, c_B c) ->
  let n := st_nstages stp in
  let x := (s, stp) in
  let V0 := volume m (es_m s) 0 in
  let exact_row := In (n, p) [(1, 1); (2, 2); (3, 3); (4, 3); (6, 3); (7, 4); (8, 4)]%nat in
  exists s' stp', ehdg_step m c solve x = Ok (s', stp') /\ st_stage stp' = 0%nat /\ st_nstages stp' = n /\
  V0 - Q2R (1 # 10000000000000) * Rabs V0 <= volume m (es_m s') 0 /\ (exact_row -> V0 <= volume m (es_m s') 0) /\
  ((forall k, (k < n)%nat -> hdg_lifted_at m c solve x k = 0) ->
     Rabs (volume m (es_m s') 0 - V0) <= Q2R (1 # 10000000000000) * Rabs V0 /\ (exact_row -> volume m (es_m s') 0 = V0)).
Proof. exact ehdg_closed_step. Qed.
Print Assumptions C56_closed_step.

Theorem C56_closed_run : forall m c solve stp p N, hdg_mesh_ok m -> closed m -> 0 <= c_thr c -> 0 <= c_h_o c -> st_stage stp = 0%nat ->
  rk_table (st_nstages stp) p = Some (c_A c, c_B c) -> In (st_nstages stp, p) [(1, 1); (2, 2); (3, 3); (4, 3); (6, 3); (7, 4); (8, 4)]%nat ->
  forall s, exists s' stp', ofold (fun x _ => ehdg_step m c solve x) (seq 0 N) (s, stp) = Ok (s', stp') /\
  volume m (es_m s) 0 <= volume m (es_m s') 0 /\ (c_wd c = false -> volume m (es_m s') 0 = volume m (es_m s) 0).
Proof. exact ehdg_closed_run. Qed.
Print Assumptions C56_closed_run.

(** "The fluxes on the two sides of a levee balance" is false: nothing is computed there
    and whatever the buffers hold is integrated, so any production is possible. *)
Theorem C56_levee_refuted : exists i, conforming i /\ hdg_mesh_ok (init_mesh i) /\ (forall b, In b (in_bounds i) -> b_bc b = Land) /\
  forall c solve st q qh stp x, 0 <= c_thr c -> 0 <= c_h_o c -> (st_stage stp < st_nstages stp)%nat -> (forall e, ms_wet st e = true) ->
  exists F s', ehdg_stage (init_mesh i) c solve (EState st q F qh, stp) = Ok (s', stepper_incr stp) /\ production (init_mesh i) (es_m s') (st_stage stp) = x.
Proof.
  exists dyke. split; [exact dyke_conforming|]. split; [exact dyke_ok|]. split; [|exact dyke_production].
  cbn. intros b [<-|[<-|[<-|[<-|[]]]]]; reflexivity.
Qed.
Print Assumptions C56_levee_refuted.

(** ** Water at rest *)
Theorem C56_rest_rhs : forall i cfg solve c t k s, conforming i -> (forall b, In b (in_bounds i) -> b_bc b = Land) -> (forall f, In f (in_intfaces i) -> i_kind f = Internal) ->
  in_fs i = None -> level_water i c k (es_m s) ->
  forall e v d, (e < in_n i)%nat -> (v < 3)%nat -> (d < dubiner_ndof (in_p i))%nat ->
  ms_rhs (local_rhs (init_mesh i) cfg t k (es_F (global_step (init_mesh i) cfg solve t k s)) (es_m s)) e k v d = 0.
Proof. exact ehdg_rhs_zero. Qed.
Print Assumptions C56_rest_rhs.

Theorem C56_rest_step : forall i cfg solve c s stp p, conforming i -> (forall b, In b (in_bounds i) -> b_bc b = Land) -> (forall f, In f (in_intfaces i) -> i_kind f = Internal) ->
  in_fs i = None ->
  (c_wd cfg = true -> forall r, Rabs (r - 1) <= 1 / 10 ^ 13 -> submerged i (c * r) (c_h_o cfg + c_thr cfg)) ->
  rk_table (st_nstages stp) p = Some (c_A cfg, c_B cfg) -> st_stage stp = 0%nat -> level_water i c 0 (es_m s) ->
  exists s' stp' r, ehdg_step (init_mesh i) cfg solve (s, stp) = Ok (s', stp') /\ st_nstages stp' = st_nstages stp /\ st_stage stp' = 0%nat /\
  Rabs (r - 1) <= 1 / 10 ^ 13 /\ level_water i (c * r) 0 (es_m s').
Proof. exact ehdg_step_any'. Qed.
Print Assumptions C56_rest_step.

Theorem C56_rest_run : forall i cfg solve c junk jq jF p N stp, conforming i -> (forall b, In b (in_bounds i) -> b_bc b = Land) -> (forall f, In f (in_intfaces i) -> i_kind f = Internal) ->
  in_fs i = None -> in_ic i = V3 c 0 0 -> (c_wd cfg = true -> submerged i c (c_h_o cfg + c_thr cfg)) ->
  st_stage stp = 0%nat -> rk_table (st_nstages stp) p = Some (c_A cfg, c_B cfg) -> In (st_nstages stp, p) exact_schemes ->
  exists st s' stp', init_state i cfg junk = Ok st /\
  ofold (fun x _ => ehdg_step (init_mesh i) cfg solve x) (seq 0 N) (ehdg_start st jq jF, stp) = Ok (s', stp') /\ level_water i c 0 (es_m s').
Proof. exact ehdg_run_rest'. Qed.
Print Assumptions C56_rest_run.

(** The first iteration at an open boundary starts from the still water level zero. *)
Theorem C56_start : forall m st q F i gp, es_m (ehdg_start st q F) = st /\ trace_at m (es_qh (ehdg_start st q F) i) gp = V3 0 0 0.
Proof.
  intros m st q F i gp. split; [reflexivity|]. unfold trace_at, ehdg_start. cbn [es_qh].
  assert (Z : vmsum (S (m_p m)) (fun j => 0 * legendre_phi j (z1 m gp)) = 0) by (induction (S (m_p m)) as [|n IH]; [reflexivity|]; cbn [vmsum]; cbn in IH |- *; rewrite IH; ring).
  rewrite Z. reflexivity.
Qed.
Print Assumptions C56_start.

(** The projection has no effect: the step of any input is that of the same input without projection. *)
Theorem C56_projection_ignored : (forall m s sf c solve x, ehdg_step (with_sp m s sf) c solve x = ehdg_step m c solve x) /\
  forall i c solve x, ehdg_step (init_mesh i) c solve x = ehdg_step (init_mesh (plane i)) c solve x.
Proof. split; [exact step_sp|exact plane_step]. Qed.
Print Assumptions C56_projection_ignored.

(** ** The trace of an open boundary: Newton's method for the mismatch *)
Theorem C56_trace_jacobian : forall m c b q qinf qh, 0 < c_g c -> noncritical_trace m c b qh ->
  exists J, trace_jacobian m c b q qinf qh J.
Proof. intros. eexists. apply jacobian_model; assumption. Qed.
Print Assumptions C56_trace_jacobian.
Theorem C56_trace_newton : forall m c b q qinf solve qh J, solver_ok solve -> 0 < c_g c -> noncritical_trace m c b qh -> trace_jacobian m c b q qinf qh J ->
  one_increment m c b q qinf qh J -> newton_increment m c b q qinf qh J (trace_change qh (fst (trace_pass m c solve b q qinf qh))).
Proof. exact pass_newton. Qed.
Print Assumptions C56_trace_newton.
Theorem C56_trace_fixed : forall m c b q qinf solve qh J, solver_ok solve -> 0 < c_g c -> noncritical_trace m c b qh -> trace_jacobian m c b q qinf qh J ->
  one_increment m c b q qinf qh J ->
  (same_trace m qh (fst (trace_pass m c solve b q qinf qh)) <-> forall v j, (v < 3)%nat -> (j <= m_p m)%nat -> mismatch m c b q qinf qh v j = 0).
Proof. exact pass_fixed. Qed.
Print Assumptions C56_trace_fixed.
(** Passes are made until the root of the squared changes over their number is below 1e-12, at most 100. *)
Theorem C56_trace_loop : forall m c b q qinf solve fuel qh, let pass qh := fst (trace_pass m c solve b q qinf qh) in
  exists j, (j <= fuel)%nat /\ bc_trace m c solve fuel b q qinf qh = Nat.iter j pass qh /\
  (forall i, (S i < j)%nat -> 1 / 10 ^ 12 <= change_size m (trace_change (Nat.iter i pass qh) (Nat.iter (S i) pass qh))) /\
  (j = fuel \/ exists i, j = S i /\ change_size m (trace_change (Nat.iter i pass qh) (Nat.iter j pass qh)) < 1 / 10 ^ 12).
Proof. exact bc_loop. Qed.
Print Assumptions C56_trace_loop.

(** "The linear system of a pass has one solution" is false for water at rest: any
    discharge along the edge solves it.  At level 0 this is the first pass of the first
    stage, traces starting at zero. *)
Theorem C56_open_rest_refuted : forall m c b q qinf qh z, 0 < c_g c ->
  (forall gp, (gp < length (m_rule1 m))%nat -> edge_value m qh gp = V3 z 0 0 /\ q gp = V3 z 0 0 /\ qinf gp = V3 z 0 0 /\ 0 < z + bath (m_faux m (b_elt b) (b_id b) gp)) ->
  forall s, solves (trace_size m) (trace_matrix m c b q qinf qh) (trace_load m c b q qinf qh) (along (normal m (b_elt b) (b_id b)) s).
Proof. exact rest_singular. Qed.
Print Assumptions C56_open_rest_refuted.

(** ** Unit square, land all around *)
Example square_hdg : hdg_mesh_ok square /\ closed square.
Proof.
  destruct square_ok as [OK Cl]. split; [|exact Cl]. destruct OK as [_ T _ W _ _ B]. destruct (square_stage_ok true) as [[_ _ F _ _] _].
  constructor; [cbn; lia|exact T| |exact F|exact B]. intros gp Hg. cbn in Hg. destruct gp as [|[|gp]]; [reflexivity|reflexivity|lia].
Qed.
Definition fresh (z0 z1 : R) : estate := EState (at_rest z0 z1 true) (fun _ _ _ => V3 0 0 0) (fun _ _ _ => V3 5 5 5) (fun _ _ _ => 0).
(** A surface 6 higher in one triangle: the trace is at 3, its wave speed 2, and 2 * (6 - 3)
    crosses the interface; the volume is kept. *)
Example interface_flux : forall gp, ze (fst (interface_point square (euler false) 0 (at_rest 6 0 true) (Intf 0 0 1 0 Internal) gp)) = 6.
Proof.
  intros gp. unfold interface_point. cbn [i_in i_ex i_bin i_bex ms_wet at_rest andb fst].
  assert (T : forall e b k, face_value square 0 (at_rest 6 0 true) e b k = V3 (if Nat.eqb e 0 then 6 else 0) 0 0).
  { intros e b k. unfold face_value, value. cbn [m_p square]. change (dubiner_ndof 1) with 3%nat. cbn [rsum]. unfold at_rest. cbn [ms_q]. rewrite phi0. f_equal; ring. }
  rewrite !T. generalize (normal square 0 0). intros n. unfold hdg_flux, mean_state, flux_x, flux_y, row. cbn. replace (1 * ((6 + 0) / 2 + (1 + 1) / 2)) with (2 * 2) by lra.
  rewrite sqrt_square by lra. replace ((0 + 0) / 2) with 0 by lra.
  replace ((0 * nx n + 0 * ny n) / ((6 + 0) / 2 + (1 + 1) / 2)) with 0 by field. rewrite Rabs_R0. lra.
Qed.
Example step_keeps_volume : forall solve N, exists s' stp', ofold (fun x _ => ehdg_step square (euler false) solve x) (seq 0 N) (fresh 6 0, euler_stepper) = Ok (s', stp') /\
  volume square (es_m s') 0 = 3.
Proof.
  intros solve N. destruct square_hdg as [OK Cl].
  destruct (C56_closed_run square (euler false) solve euler_stepper 1 N OK Cl) with (s := fresh 6 0) as (s' & stp' & A & _ & B); try (cbn; lra); try reflexivity; [cbn; tauto|].
  exists s', stp'. split; [exact A|]. rewrite (B eq_refl). unfold fresh. cbn [es_m]. unfold volume, tri_area. cbn. unfold orient, sq_nodes. cbn.
  rewrite (Rabs_pos_eq ((1 - 0) * (1 - 0) - (0 - 0) * (0 - 0))), (Rabs_pos_eq ((0 - 1) * (0 - 1) - (1 - 1) * (1 - 1))) by lra. lra.
Qed.
Example square_hdg_stage : forall solve, exists s' wd, ehdg_stage square (euler true) solve (fresh 6 0, euler_stepper) = Ok (s', stepper_incr euler_stepper) /\
  fluxes_of square (euler true) solve (time_at_stage euler_stepper) 0 (fresh 6 0) s' /\
  stage_with (hdg_form square (euler true) (time_at_stage euler_stepper) 0 (at_rest 6 0 true) (es_F s')) square (euler true) sq_nbr euler_stepper (at_rest 6 0 true) wd (es_m s').
Proof. intros solve. destruct (square_stage_ok true) as [A B]. apply (C56_stage square (euler true) solve sq_nbr (fresh 6 0) euler_stepper); [exact A|cbn; lia|exact B]. Qed.

(** ** Two triangles over a sloping bed, land all around, spherical projection *)
Definition pond : input := Input 2 1 lake_nodes lake_z rule2_2 rule1_3 (fun _ => SourceIn true 1 true 1) None
  [Intf 0 0 1 0 Internal] [Bnd 0 1 Land; Bnd 0 2 Land; Bnd 1 1 Land; Bnd 1 2 Land] (Some (10, 45)) (V3 (1 / 2) 0 0) 10 0 1.
Definition pond_cfg : config := Config 1 [[1%Q]] [[1%Q]] true (1 / 10) (1 / 10) true.
Example pond_run : forall solve N, exists st s' stp', init_state pond pond_cfg (fun _ _ _ _ => 7) = Ok st /\
  ofold (fun x _ => ehdg_step (init_mesh pond) pond_cfg solve x) (seq 0 N) (ehdg_start st (fun _ _ _ => V3 1 2 3) (fun _ _ _ => V3 4 5 6), stepper_init 1 1 (1 / 100) false 0) = Ok (s', stp') /\
  ms_q (es_m s') 1%nat 0%nat 0%nat 0%nat = 1 / 2 /\ ms_q (es_m s') 1%nat 0%nat 1%nat 0%nat = 0.
Proof.
  intros solve N. destruct (lake_ok (1 / 2)) as [[A1 A2 A3 A4 A5 A6 A7 A8 A9] _].
  assert (C : conforming pond) by (constructor; assumption).
  destruct (C56_rest_run pond pond_cfg solve (1 / 2) (fun _ _ _ _ => 7) (fun _ _ _ => V3 1 2 3) (fun _ _ _ => V3 4 5 6) 1 N (stepper_init 1 1 (1 / 100) false 0) C) as (st & s' & stp' & A & B & D).
  - cbn. intros b [<-|[<-|[<-|[<-|[]]]]]; reflexivity.
  - cbn. intros f [<-|[]]. reflexivity.
  - reflexivity.
  - reflexivity.
  - intros _ e v He Hv. cbn. destruct e as [|[|e]]; [| |cbn in He; lia]; (destruct v as [|[|[|v]]]; [| | |lia]); cbn; lra.
  - reflexivity.
  - reflexivity.
  - cbn. tauto.
  - exists st, s', stp'. destruct (D 1%nat ltac:(cbn; lia)) as [R1 _]. split; [exact A|]. split; [exact B|].
    split; [apply (R1 0%nat 0%nat)|apply (R1 1%nat 0%nat)]; cbn; lia.
Qed.
(** The same basin with an open side, level 0, at start-up. *)
Example lake_first_pass : forall s, let m := init_mesh (lake 0) in let b := Bnd 1 1 (Exterior (fun _ _ _ q => q)) in
  let q (_ : nat) := V3 0 0 0 in
  solves 6 (trace_matrix m pond_cfg b q q (fun _ _ => 0)) (trace_load m pond_cfg b q q (fun _ _ => 0)) (along (normal m 1 1) s).
Proof.
  intros s m b q. apply (C56_open_rest_refuted m pond_cfg b q q (fun _ _ => 0) 0); [cbn; lra|]. intros gp Hg. split; [|split; [reflexivity|split; [reflexivity|]]].
  - unfold edge_value. cbn [m_p init_mesh m lake in_p rsum]. f_equal; ring.
  - change (length (m_rule1 m)) with 2%nat in Hg. cbn [b_elt b_id b]. destruct (lake_ok 0) as [C U]. unfold m. rewrite (faux_at (lake 0) C 0 U 1 1 gp) by (cbn; lia).
    assert (S : 0 <= sqrt (1 / 3) <= 1). { split; [apply sqrt_pos|]. rewrite <- sqrt_1 at 2. apply sqrt_le_1_alt. lra. }
    cbn [bath]. unfold B, face_point, gp1. destruct gp as [|[|gp]]; [| |lia]; cbn; lra.
Qed.

(** ** Fast outflow through one side of the square: the wave speeds all point out,
    nothing comes from outside, and one pass makes the trace the state inside *)
Definition out_side : bound := Bnd 1 1 (Exterior (fun _ _ _ q => q)).
Definition fast : coeffs := fun v j => match v, j with 1%nat, 0%nat => 2 | _, _ => 0 end.


Lemma out_normal : normal square 1 1 = V2 1 0.
Proof.
  unfold normal. cbn. unfold deformation, determinant, sq_nodes. cbn. unfold ModelShape.hypot. cbn.
  replace ((1 - 1) * (1 - 1) + (1 - 0) * (1 - 0)) with 1 by lra. rewrite sqrt_1.
  replace ((0 - 1) / 2 * ((0 - 1) / 2) - (1 - 1) / 2 * ((1 - 1) / 2)) with (1 / 4) by lra. rewrite (Rabs_pos_eq (1 / 4)) by lra. f_equal; field.
Qed.
Lemma fast_value : forall gp, edge_value square fast gp = V3 0 2 0.
Proof. intros gp. unfold edge_value. cbn [m_p square rsum fast]. cbn. f_equal; ring. Qed.

Lemma leg1 : forall s, legendre_phi 1 s = s.
Proof. intros s. apply legendre_example. Qed.
Lemma out_length : half_side (m_nodes square 1) 1 = 1 / 2.
Proof. rewrite <- half_side_J. unfold GetSurfaceJ. cbn. replace ((1 - 1) * ((1 - 1) * 1) + (1 - 0) * ((1 - 0) * 1)) with 1 by lra. rewrite sqrt_1. reflexivity. Qed.
Lemma fast_at : forall qinf gp, let m := square in let c := euler false in let q := V3 0 2 1 in
  open_hat (c_g c) (trace_at m fast gp) (trace_aux m out_side fast gp) (normal m 1 1) q qinf = fast_hat /\
  open_rhs (c_g c) (trace_at m fast gp) (trace_aux m out_side fast gp) (normal m 1 1) q qinf = V3 0 0 2.
Proof.
  intros qinf gp m c q. unfold trace_aux. unfold m. rewrite edge_value_model, fast_value, out_normal. unfold with_depth, edge_bath_b. cbn [m_faux square bath sp ze].
  replace (0 + 1) with 1 by ring. exact (fast_point qinf).
Qed.
Definition mass2 (i j : nat) : R := match i, j with 0%nat, 0%nat => 1 | 1%nat, 1%nat => 1 / 3 | _, _ => 0 end.
Lemma fast_system : forall qinf v j, (v < 3)%nat -> (j < 2)%nat -> let m := square in let c := euler false in let q (_ : nat) := V3 0 2 1 in
  trace_load m c out_side q qinf fast (3 * j + v) = - (vget (V3 0 0 2) v * mass2 j 0) /\
  forall v' j', (v' < 3)%nat -> (j' < 2)%nat -> trace_matrix m c out_side q qinf fast (3 * j + v) (3 * j' + v') = mget fast_hat v v' * mass2 j j'.
Proof.
  intros qinf v j Hv Hj m c q.
  assert (S3 : sqrt (1 / 3) * sqrt (1 / 3) = 1 / 3) by (apply sqrt_sqrt; lra).
  split.
  - unfold trace_load, edge_lambda, lambda_fact. cbv zeta. destruct (idx j v Hv) as [-> ->]. rewrite vmsum_rsum. unfold m, c, q. cbn [b_elt b_id out_side].
    rewrite (rsum_ext _ _ (fun gp => vget (V3 0 0 2) v * (legendre_phi j (z1 square gp) * (w1 square gp * (1 / 2))))).
    + unfold ngp1. cbn [m_rule1 square length rsum]. unfold z1, w1. cbn [nth m_rule1 square fst snd]. destruct j as [|[|j]]; [| |lia]; rewrite ?leg1; cbn [mass2]; [change (legendre_phi 0) with (fun _ : R => 1)|]; cbv beta; field.
    + intros gp _. rewrite (proj2 (fast_at (qinf gp) gp)). rewrite half_side_J, out_length. reflexivity.
  - intros v' j' Hv' Hj'. unfold trace_matrix, lambda_lambda, lambda_fact. cbv zeta. destruct (idx j v Hv) as [-> ->]. destruct (idx j' v' Hv') as [-> ->]. rewrite vmsum_rsum. unfold m, c, q. cbn [b_elt b_id out_side].
    rewrite (rsum_ext _ _ (fun gp => mget fast_hat v v' * (legendre_phi j (z1 square gp) * (legendre_phi j' (z1 square gp) * (w1 square gp * (1 / 2)))))).
    + unfold ngp1. cbn [m_rule1 square length rsum]. unfold z1, w1. cbn [nth m_rule1 square fst snd]. generalize (mget fast_hat v v'). intros x.
      destruct j as [|[|j]]; [| |lia]; (destruct j' as [|[|j']]; [| |lia]); rewrite ?leg1; cbn [mass2]; try change (legendre_phi 0) with (fun _ : R => 1); cbv beta; first [field|transitivity (x * (sqrt (1 / 3) * sqrt (1 / 3))); [field|rewrite S3; field]].
    + intros gp _. rewrite (proj1 (fast_at (qinf gp) gp)). rewrite half_side_J, out_length. reflexivity.
Qed.
Example outflow_pass : forall solve qinf, solver_ok solve -> let q (_ : nat) := V3 0 2 1 in
  let J v j v' j' := trace_matrix square (euler false) out_side q qinf fast (3 * j + v) (3 * j' + v') in
  noncritical_trace square (euler false) out_side fast /\ trace_jacobian square (euler false) out_side q qinf fast J /\
  one_increment square (euler false) out_side q qinf fast J /\
  forall v j, (v < 3)%nat -> (j <= 1)%nat -> fst (trace_pass square (euler false) solve out_side q qinf fast) v j = match v, j with 1%nat, 0%nat => 2 | 2%nat, 0%nat => 1 | _, _ => 0 end.
Proof.
  intros solve qinf So q J.
  assert (NC : noncritical_trace square (euler false) out_side fast).
  { intros gp _. cbv zeta. rewrite fast_value. cbn [b_elt b_id out_side]. rewrite out_normal. cbn. replace (0 + 1) with 1 by ring. rewrite Rmult_1_l, sqrt_1. repeat apply conj; lra. }
  assert (HJ : trace_jacobian square (euler false) out_side q qinf fast J) by (apply jacobian_model; [cbn; lra|exact NC]).
  set (d0 := (fun v j => match v, j with 2%nat, 0%nat => 1 | _, _ => 0 end) : coeffs).
  assert (Ev : forall d v j, (v < 3)%nat -> (j < 2)%nat -> rsum 3 (fun v' => rsum 2 (fun j' => J v j v' j' * d v' j')) =
    rsum 3 (fun v' => rsum 2 (fun j' => mget fast_hat v v' * mass2 j j' * d v' j'))).
  { intros d v j Hv Hj. apply rsum_ext. intros v' Hv'. apply rsum_ext. intros j' Hj'. f_equal. exact (proj2 (fast_system qinf v j Hv Hj) v' j' Hv' Hj'). }
  assert (El : forall v j, (v < 3)%nat -> (j < 2)%nat -> - mismatch square (euler false) out_side q qinf fast v j = - (vget (V3 0 0 2) v * mass2 j 0)).
  { intros v j Hv Hj. rewrite <- (load_model square (euler false) out_side q qinf fast v j Hv). apply (fast_system qinf v j Hv Hj). }
  assert (I0 : newton_increment square (euler false) out_side q qinf fast J d0).
  { intros v j Hv Hj. change (S (m_p square)) with 2%nat. change (j <= 1)%nat in Hj. rewrite Ev, El by lia.
    destruct v as [|[|[|v]]]; [| | |lia]; (destruct j as [|[|j]]; [| |lia]); cbn; lra. }
  assert (U : forall d, newton_increment square (euler false) out_side q qinf fast J d -> forall v j, (v < 3)%nat -> (j <= 1)%nat -> d v j = d0 v j).
  { intros d Hd v j Hv Hj.
    assert (E : forall v j, (v < 3)%nat -> (j < 2)%nat -> rsum 3 (fun v' => rsum 2 (fun j' => mget fast_hat v v' * mass2 j j' * d v' j')) = - (vget (V3 0 0 2) v * mass2 j 0)).
    { intros v1 j1 A B. rewrite <- Ev, <- El by assumption. apply Hd; [exact A|cbn; lia]. }
    pose proof (E 0 0 ltac:(lia) ltac:(lia))%nat as E0. pose proof (E 1 0 ltac:(lia) ltac:(lia))%nat as E1. pose proof (E 2 0 ltac:(lia) ltac:(lia))%nat as E2.
    pose proof (E 0 1 ltac:(lia) ltac:(lia))%nat as E3. pose proof (E 1 1 ltac:(lia) ltac:(lia))%nat as E4. pose proof (E 2 1 ltac:(lia) ltac:(lia))%nat as E5.
    cbn in E0, E1, E2, E3, E4, E5. destruct v as [|[|[|v]]]; [| | |lia]; (destruct j as [|[|j]]; [| |lia]); cbn [d0]; lra. }
  assert (One : one_increment square (euler false) out_side q qinf fast J).
  { exists d0. split; [exact I0|]. intros d Hd v j Hv Hj. rewrite (U d Hd v j Hv Hj). reflexivity. }
  split; [exact NC|]. split; [exact HJ|]. split; [exact One|]. intros v j Hv Hj.
  pose proof (C56_trace_newton square (euler false) out_side q qinf solve fast J So ltac:(cbn; lra) NC HJ One) as Nw.
  pose proof (U _ Nw v j Hv Hj) as E. unfold trace_change in E.
  assert (E' : fst (trace_pass square (euler false) solve out_side q qinf fast) v j = fast v j + d0 v j) by lra. rewrite E'.
  destruct v as [|[|[|v]]]; [| | |lia]; (destruct j as [|[|j]]; [| |lia]); cbn; ring.
Qed.

(** Property theorems: a lake at rest stays at rest (C48). *)
From Coq Require Import Reals QArith Qreals List Bool Arith Lra Lia.
From Verif Require Import Num ModelSWE Outcome ModelShape SpecShape ModelBasis ModelJac ModelStepper SpecStepper ModelStep SpecStep LemmasStep
  ModelInit SpecRest LemmasRest1 LemmasRest2 LemmasRest3 LemmasRest4 LemmasRest5 LemmasRest6.
Import ListNotations.
Open Scope R_scope.

(** Start-up with constant elevation [c]: every element holds exactly [c] and no
    discharge, and is wet. *)
Theorem C48_initial_rest : forall i cfg junk c, conforming i -> in_ic i = V3 c 0 0 ->
  (c_wd cfg = true -> submerged i c (c_h_o cfg + c_thr cfg)) ->
  exists st, init_state i cfg junk = Ok st /\ forall e, (e < in_n i)%nat -> resting (in_p i) c (ms_q st e 0%nat) /\ ms_wet st e = true.
Proof. exact initial_rest. Qed.
Print Assumptions C48_initial_rest.

(** The right-hand side of every equation and mode vanishes: pressure and bed slope
    balance on any bathymetry. *)
Theorem C48_rhs_zero : forall i cfg c t k st, conforming i -> unforced i c ->
  (forall e, (e < in_n i)%nat -> resting (in_p i) c (ms_q st e k) /\ ms_wet st e = true) ->
  forall e var dof, (e < in_n i)%nat -> (var < 3)%nat -> (dof < dubiner_ndof (in_p i))%nat ->
  ms_rhs (rhs_kernels (init_mesh i) cfg t k st) e k var dof = 0.
Proof. exact (fun i cfg c t k st C U => rhs_zero i C cfg c U t k st). Qed.
Print Assumptions C48_rhs_zero.

(** Any number of steps from the initial state, with wetting and drying and slope
    limiting on or off. *)
Theorem C48_run : forall i cfg c junk p N stp, conforming i -> unforced i c -> in_ic i = V3 c 0 0 ->
  (c_wd cfg = true -> submerged i c (c_h_o cfg + c_thr cfg)) ->
  st_stage stp = 0%nat -> rk_table (st_nstages stp) p = Some (c_A cfg, c_B cfg) ->
  In (st_nstages stp, p) [(1, 1); (2, 2); (3, 3); (4, 3); (6, 3); (7, 4); (8, 4)]%nat ->
  exists st st' stp', init_state i cfg junk = Ok st /\
  ofold (fun s _ => step_serial (init_mesh i) cfg s) (seq 0 N) (st, stp) = Ok (st', stp') /\
  forall e, (e < in_n i)%nat -> resting (in_p i) c (ms_q st' e 0%nat) /\ ms_wet st' e = true.
Proof. exact whole_run. Qed.
Print Assumptions C48_run.

(** The remaining schemes, whose row sums are one up to 10^-13: between walls a
    step changes the constant elevation by a factor that close to one. *)
Theorem C48_step_any : forall i cfg c st stp p, conforming i -> (forall b, In b (in_bounds i) -> b_bc b = Land) -> in_fs i = None -> in_sph i = None ->
  (c_wd cfg = true -> forall r, Rabs (r - 1) <= 1 / 10 ^ 13 -> submerged i (c * r) (c_h_o cfg + c_thr cfg)) ->
  rk_table (st_nstages stp) p = Some (c_A cfg, c_B cfg) -> st_stage stp = 0%nat ->
  (forall e, (e < in_n i)%nat -> resting (in_p i) c (ms_q st e 0%nat) /\ ms_wet st e = true) ->
  exists st' stp' r, step_serial (init_mesh i) cfg (st, stp) = Ok (st', stp') /\ st_nstages stp' = st_nstages stp /\ st_stage stp' = 0%nat /\
  Rabs (r - 1) <= 1 / 10 ^ 13 /\
  forall e, (e < in_n i)%nat -> resting (in_p i) (c * r) (ms_q st' e 0%nat) /\ ms_wet st' e = true.
Proof. exact step_land. Qed.
Print Assumptions C48_step_any.

(** No depth used as a divisor is zero: at every point of the element the computed
    depth exceeds the depth of the shallowest vertex. *)
Theorem C48_depth_positive : forall i c d e z q, conforming i -> submerged i c d -> (e < in_n i)%nat -> resting (in_p i) c q ->
  -1 <= fst z /\ -1 <= snd z /\ fst z + snd z <= 0 ->
  d < ze (expand (init_mesh i) q z) + value_at i (bath_dofs i e) z.
Proof. exact depth_positive. Qed.
Print Assumptions C48_depth_positive.

(** With the spherical projection the same lake starts to move: the volume flux is
    multiplied by the projection factor, while the numerical flux multiplies only
    the inner of its two fluxes by it (rkdg_swe_LLF_flux.hpp lines 55-57). *)
Theorem C48_spherical_refuted : exists i cfg c, conforming i /\ in_ic i = V3 c 0 0 /\ submerged i c 1 /\
  (forall b, In b (in_bounds i) -> b_bc b = Land) /\ in_fs i = None /\ rk_table 1 1 = Some (c_A cfg, c_B cfg) /\
  forall stp, st_nstages stp = 1%nat -> st_stage stp = 0%nat -> 0 < st_dt stp ->
  exists st st' stp', init_state i cfg (fun _ _ _ _ => 0) = Ok st /\
  (forall e, (e < in_n i)%nat -> resting (in_p i) c (ms_q st e 0%nat)) /\
  step_serial (init_mesh i) cfg (st, stp) = Ok (st', stp') /\ ms_q st' 0%nat 0%nat 1%nat 2%nat < 0.
Proof.
  exists globe, globe_cfg, 1. split; [exact globe_ok|]. split; [reflexivity|]. split; [intros e v _ _; cbn; lra|].
  split; [intros b [<-|[<-|[<-|[]]]]; reflexivity|]. split; [reflexivity|]. split; [reflexivity|].
  intros stp En E0 Hdt. destruct (globe_step stp En E0 Hdt) as (st' & stp' & S1 & L). exists globe_state, st', stp'.
  split; [reflexivity|]. split; [intros e He; apply globe_calm; exact He|]. split; [exact S1|]. nra.
Qed.
Print Assumptions C48_spherical_refuted.

(** ** Two triangles, sloping bed, one open boundary *)
Definition lake_cfg : config := Config 1 [[1%Q]] [[1%Q]] true (1 / 10) (1 / 10) true.
Example C48_lake_conforming : conforming (lake (1 / 2)) /\ unforced (lake (1 / 2)) (1 / 2).
Proof. exact (lake_ok (1 / 2)). Qed.
Example C48_lake_bed : in_z (lake (1 / 2)) 0%nat 0%nat <> in_z (lake (1 / 2)) 0%nat 1%nat.
Proof. cbn. lra. Qed.
Example C48_lake_run : forall N, exists st st' stp', init_state (lake (1 / 2)) lake_cfg (fun _ _ _ _ => 7) = Ok st /\
  ofold (fun s _ => step_serial (init_mesh (lake (1 / 2))) lake_cfg s) (seq 0 N) (st, stepper_init 1 1 (1 / 100) false 0) = Ok (st', stp') /\
  ms_q st' 1%nat 0%nat 0%nat 0%nat = 1 / 2 /\ ms_q st' 1%nat 0%nat 1%nat 0%nat = 0.
Proof.
  intros N. destruct (lake_ok (1 / 2)) as [C U].
  destruct (C48_run (lake (1 / 2)) lake_cfg (1 / 2) (fun _ _ _ _ => 7) 1 N (stepper_init 1 1 (1 / 100) false 0) C U eq_refl) as (st & st' & stp' & A & B & D).
  - intros _ e v He Hv. cbn. destruct e as [|[|e]]; [| |cbn in He; lia]; (destruct v as [|[|[|v]]]; [| | |lia]); cbn; lra.
  - reflexivity.
  - reflexivity.
  - cbn. tauto.
  - exists st, st', stp'. destruct (D 1%nat ltac:(cbn; lia)) as [R1 _]. split; [exact A|]. split; [exact B|].
    split; [apply (R1 0%nat 0%nat)|apply (R1 1%nat 0%nat)]; cbn; lia.
Qed.

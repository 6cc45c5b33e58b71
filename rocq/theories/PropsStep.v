(** Property theorems: water balance of whole stages and steps (C32). *)
From Coq Require Import Reals QArith Qreals List Bool Arith Lra Lia.
From Verif Require Import Num ModelSWE Outcome ModelShape SpecShape LemmasShape ModelBasis ModelJac ModelStepper SpecStepper
  ModelWetDry ModelSlope ModelStep SpecStep LemmasStep.
Import ListNotations.
Open Scope R_scope.

(** One stage.  The rate of change of the volume is rain minus levee loss minus
    boundary outflow; the new volume is the Shu-Osher combination plus the water
    created by lifting elements to the threshold depth; earlier slots stay. *)
Theorem C32_stage_balance : forall m c st stp, mesh_ok m -> 0 <= c_thr c -> 0 <= c_h_o c -> (st_stage stp < st_nstages stp)%nat ->
  let k := st_stage stp in
  let dt := st_dt stp in
  let slot := ((k + 1) mod st_nstages stp)%nat in
  exists st', stage_serial m c (st, stp) = Ok (st', stepper_incr stp) /\
  production m st' k = net_inflow m c (st, stp) /\
  volume m st' slot = rsum (S k) (fun s => Q2R (entry (c_A c) k s) * volume m st s + dt * Q2R (entry (c_B c) k s) * production m st' s)
                      + lifted m c dt k st st' /\
  (forall s, s <> k -> production m st' s = production m st s) /\
  ((k + 1 < st_nstages stp)%nat -> forall s, s <> (k + 1)%nat -> volume m st' s = volume m st s).
Proof. exact stage_balance. Qed.
Print Assumptions C32_stage_balance.

(** One step: old volume, plus dt times a weighted mean of the stages' net
    inflows, plus created water. *)
Theorem C32_step_balance : forall m c st stp p, mesh_ok m -> 0 <= c_thr c -> 0 <= c_h_o c -> st_stage stp = 0%nat ->
  rk_table (st_nstages stp) p = Some (c_A c, c_B c) ->
  let n := st_nstages stp in
  let s := (st, stp) in
  let V0 := volume m st 0 in
  exists st' stp' (r : R) (w : nat -> R) created,
  step_serial m c s = Ok (st', stp') /\ st_stage stp' = 0%nat /\ st_nstages stp' = n /\
  Rabs (r - 1) <= Q2R (1 # 10000000000000) /\ (In (n, p) [(1, 1); (2, 2); (3, 3); (4, 3); (6, 3); (7, 4); (8, 4)]%nat -> r = 1) /\
  (forall k, (k < n)%nat -> 0 <= w k) /\ Rabs (rsum n w - 1) <= Q2R (1 # 10000000000) /\
  volume m st' 0 = r * V0 + st_dt stp * rsum n (fun k => w k * net_inflow m c (after m c s k)) + created /\
  0 <= created /\ ((forall k, (k < n)%nat -> lifted_at m c s k = 0) -> created = 0).
Proof. exact step_balance. Qed.
Print Assumptions C32_step_balance.

(** Closed basin (land boundaries, no levees, no rain): a step never loses water,
    and keeps its volume when no element is lifted. *)
Theorem C32_closed_step : forall m c st stp p, mesh_ok m -> closed m -> 0 <= c_thr c -> 0 <= c_h_o c -> st_stage stp = 0%nat ->
  rk_table (st_nstages stp) p = Some (c_A c, c_B c) ->
  let n := st_nstages stp in
  let s := (st, stp) in
  let V0 := volume m st 0 in
  let exact_row := In (n, p) [(1, 1); (2, 2); (3, 3); (4, 3); (6, 3); (7, 4); (8, 4)]%nat in
  exists st' stp', step_serial m c s = Ok (st', stp') /\ st_stage stp' = 0%nat /\ st_nstages stp' = n /\
  V0 - Q2R (1 # 10000000000000) * Rabs V0 <= volume m st' 0 /\ (exact_row -> V0 <= volume m st' 0) /\
  ((forall k, (k < n)%nat -> lifted_at m c s k = 0) ->
     Rabs (volume m st' 0 - V0) <= Q2R (1 # 10000000000000) * Rabs V0 /\ (exact_row -> volume m st' 0 = V0)).
Proof. exact closed_step. Qed.
Print Assumptions C32_closed_step.

(** Nothing is lifted when wetting and drying is off, or every element's mean
    depth after the combination is at least the threshold. *)
Theorem C32_no_lift : forall m c s k,
  (forall e, (e < m_n m)%nat -> c_thr c <= combined_depth m c (st_dt (snd s)) k (fst (after m c s k)) (fst (after m c s (S k))) e) \/ c_wd c = false ->
  lifted_at m c s k = 0.
Proof. exact no_lift. Qed.
Print Assumptions C32_no_lift.

(** Any number of steps, schemes with exact row sums. *)
Theorem C32_closed_run : forall m c stp p N, mesh_ok m -> closed m -> 0 <= c_thr c -> 0 <= c_h_o c -> st_stage stp = 0%nat ->
  rk_table (st_nstages stp) p = Some (c_A c, c_B c) -> In (st_nstages stp, p) [(1, 1); (2, 2); (3, 3); (4, 3); (6, 3); (7, 4); (8, 4)]%nat ->
  forall st, exists st' stp', ofold (fun s _ => step_serial m c s) (seq 0 N) (st, stp) = Ok (st', stp') /\
  volume m st 0 <= volume m st' 0 /\ (c_wd c = false -> volume m st' 0 = volume m st 0).
Proof. exact closed_run. Qed.
Print Assumptions C32_closed_run.

(** ** Unit square of two triangles, order 1, land all around *)
Definition sq_nodes (e : nat) : nodes := fun i => match e, i with
  | 0%nat, 0%nat => (0, 0) | 0%nat, 1%nat => (1, 0) | 0%nat, _ => (0, 1)
  | _, 0%nat => (1, 1) | _, 1%nat => (0, 1) | _, _ => (1, 0) end.
Definition no_sl : sl_in := SlIn 1 1 1 (fun _ => (1, 0)) (fun _ => (1, 0)) (fun _ => 1) 1 (fun _ _ => 0).
Definition square : mesh := Mesh 2 1 sq_nodes [(2 / 3, (-2 / 3, 1 / 3)); (2 / 3, (1 / 3, -2 / 3)); (2 / 3, (-2 / 3, -2 / 3))]
  [(1, - sqrt (1 / 3)); (1, sqrt (1 / 3))]
  (fun _ _ => Aux 1 1 1) (fun _ _ => V2 0 0) (fun _ _ _ => Aux 1 1 1) (fun _ => SourceIn false 0 false 0) None
  [Intf 0 0 1 0 Internal] [Bnd 0 1 Land; Bnd 0 2 Land; Bnd 1 1 Land; Bnd 1 2 Land]
  (fun _ _ => 1) (fun _ => 1) (fun _ => no_sl).
Example square_ok : mesh_ok square /\ closed square.
Proof.
  split.
  - constructor; cbn.
    + lia.
    + intros e He. destruct e as [|[|e]]; [| |lia]; unfold orient, sq_nodes; cbn; lra.
    + intros gp Hg. destruct gp as [|[|gp]]; [| |lia]; reflexivity.
    + reflexivity.
    + intros f [<-|[]]. cbn. lia.
    + intros b [<-|[<-|[<-|[<-|[]]]]]; cbn; lia.
    + intros; lra.
  - split; [reflexivity|]. split; cbn.
    + intros b [<-|[<-|[<-|[<-|[]]]]]; reflexivity.
    + intros f [<-|[]]. reflexivity.
Qed.

(** Forward Euler with a bump in one corner. *)
Definition euler (wd : bool) : config := Config 1 [[1%Q]] [[1%Q]] wd (1 / 10) (1 / 1000) false.
Definition at_rest (z0 z1 : R) (wet : bool) : mstate := MState
  (fun e _ var dof => match var, dof with 0%nat, 0%nat => if Nat.eqb e 0 then z0 else z1 | _, _ => 0 end)
  (fun _ _ _ _ => 0) (fun _ _ _ _ => 0) (fun _ => wet) (fun _ => false) (SlMesh (fun _ _ => true) (fun _ _ _ => 0)).
Definition euler_stepper : stepper := stepper_init 1 1 (1 / 100) false 1.
Example bump_keeps_volume : exists st' stp',
  step_serial square (euler false) (at_rest 1 0 true, euler_stepper) = Ok (st', stp') /\ volume square st' 0 = 1 / 2.
Proof.
  destruct square_ok as [OK Cl].
  destruct (C32_closed_step square (euler false) (at_rest 1 0 true) euler_stepper 1 OK Cl) as (st' & stp' & E & _ & _ & _ & _ & K);
    [cbn; lra|cbn; lra|reflexivity|reflexivity|].
  exists st', stp'. split; [exact E|].
  assert (Z : forall k, (k < 1)%nat -> lifted_at square (euler false) (at_rest 1 0 true, euler_stepper) k = 0)
    by (intros k _; apply no_lift; right; reflexivity).
  destruct (K Z) as [_ G]. rewrite (G (or_introl eq_refl)). unfold volume, tri_area. cbn. unfold orient, sq_nodes. cbn.
  rewrite (Rabs_pos_eq ((1 - 0) * (1 - 0) - (0 - 0) * (0 - 0))), (Rabs_pos_eq ((0 - 1) * (0 - 1) - (1 - 1) * (1 - 1))) by lra. lra.
Qed.

(** "The volume of a closed basin is constant" is false with wetting and drying:
    elements below the bed are lifted. *)
Theorem C32_volume_constant_refuted : exists m c st stp p, mesh_ok m /\ closed m /\ 0 < c_thr c /\ 0 < c_h_o c /\ c_wd c = true /\
  st_stage stp = 0%nat /\ rk_table (st_nstages stp) p = Some (c_A c, c_B c) /\
  exists st' stp', step_serial m c (st, stp) = Ok (st', stp') /\ volume m st 0 + 1 + c_thr c <= volume m st' 0.
Proof.
  destruct square_ok as [OK Cl].
  exists square, (euler true), (at_rest (-2) (-2) false), euler_stepper, 1%nat.
  split; [exact OK|]. split; [exact Cl|]. split; [cbn; lra|]. split; [cbn; lra|]. split; [reflexivity|]. split; [reflexivity|]. split; [reflexivity|].
  destruct (C32_stage_balance square (euler true) (at_rest (-2) (-2) false) euler_stepper OK) as (st' & E & P & V & _); [cbn; lra|cbn; lra|cbn; lia|].
  change (st_stage euler_stepper) with 0%nat in *. change (st_nstages euler_stepper) with 1%nat in *. change ((0 + 1) mod 1)%nat with 0%nat in V.
  exists st', (stepper_incr euler_stepper). split.
  - unfold step_serial, stages. cbn [snd]. change (st_nstages euler_stepper) with 1%nat. cbn [seq ofold]. rewrite E. reflexivity.
  - rewrite closed_inflow in P by assumption.
    assert (A : forall e, (e < 2)%nat -> tri_area (m_nodes square e) = 1 / 2).
    { intros e He. destruct e as [|[|e]]; [| |lia]; unfold tri_area, orient, sq_nodes; cbn; rewrite Rabs_pos_eq; lra. }
    assert (V0 : volume square (at_rest (-2) (-2) false) 0 = -2)
      by (unfold volume; cbn [rsum m_n square]; rewrite !A by lia; cbn; lra).
    rewrite V. clear V. unfold lifted. change (c_wd (euler true)) with true. cbv iota. cbn [rsum m_n square].
    rewrite P, V0, !A by lia. change (entry (c_A (euler true)) 0 0) with 1%Q. change (entry (c_B (euler true)) 0 0) with 1%Q.
    rewrite RMicromega.Q2R_1. change (c_thr (euler true)) with (1 / 1000).
    set (d0 := combined_depth _ _ _ _ _ _ 0). set (d1 := combined_depth _ _ _ _ _ _ 1).
    assert (D : d0 + d1 = -2).
    { unfold production in P. cbn [rsum m_n square] in P. rewrite !A in P by lia.
      unfold d0, d1, combined_depth, combined. cbn [rsum]. change (entry (c_A (euler true)) 0 0) with 1%Q.
      change (entry (c_B (euler true)) 0 0) with 1%Q. rewrite RMicromega.Q2R_1.
      change (st_dt euler_stepper) with (1 / 100). cbn [ms_q at_rest m_bath square Nat.eqb]. lra. }
    pose proof (Rmax_r 0 (1 / 1000 - d0)). pose proof (Rmax_r 0 (1 / 1000 - d1)). lra.
Qed.
Print Assumptions C32_volume_constant_refuted.

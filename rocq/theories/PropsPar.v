(** Property theorems: the distributed solver computes what the serial one does (C52). *)
From Coq Require Import Reals QArith Qreals NArith List Bool Arith Lra Lia Permutation.
From Verif Require Import Num ModelSWE Outcome ModelShape ModelBasis ModelJac ModelStepper ModelWetDry ModelSlope ModelStep ModelComm ModelPar
  SpecSWE SpecShape SpecStepper SpecStep SpecStage SpecComm SpecPar
  LemmasSWE LemmasShape LemmasStep LemmasStage LemmasStage2 LemmasStage3 LemmasPar2 LemmasPar3 LemmasPar5 LemmasPar6 PropsStep PropsStage.
Import ListNotations.
Open Scope R_scope.

(** One stage: both end without error, and afterwards every unit holds on its
    elements what the serial solver holds. *)
Theorem C52_stage : forall m c subs cuts us st stp, stage_ok m c -> decomposes m subs cuts -> (forall f, In f cuts -> conforming m f) ->
  sizes_fit m subs -> buffers_sized m subs us -> distributes subs us st -> (st_stage stp < st_nstages stp)%nat ->
  exists st' us', stage_serial m c (st, stp) = Ok (st', stepper_incr stp) /\ stage_par m c subs (us, stp) = Ok (us', stepper_incr stp) /\
    distributes subs us' st' /\ buffers_sized m subs us'.
Proof. exact stage_par_serial. Qed.
Print Assumptions C52_stage.

(** Any number of steps, from the buffers created at the start. *)
Theorem C52_run : forall m c subs cuts N us st stp, stage_ok m c -> decomposes m subs cuts -> (forall f, In f cuts -> conforming m f) ->
  sizes_fit m subs ->
  (forall i r, (i < length subs)%nat -> (r < length (su_rankbs (unit_at subs i)))%nat -> u_send (us i) r = init_send m subs i r) ->
  distributes subs us st -> (st_stage stp < st_nstages stp)%nat ->
  exists st' us' stp', ofold (fun s _ => step_serial m c s) (seq 0 N) (st, stp) = Ok (st', stp') /\
    ofold (fun s _ => step_par m c subs s) (seq 0 N) (us, stp) = Ok (us', stp') /\ distributes subs us' st'.
Proof. exact run_par_serial_start. Qed.
Print Assumptions C52_run.

(** ** The unit square, one triangle on each unit *)
Example square_split : decomposes square (pair_subs Internal) [Intf 0 0 1 0 Internal] /\
  (forall f, In f [Intf 0 0 1 0 Internal] -> conforming square f) /\ sizes_fit square (pair_subs Internal).
Proof.
  split; [exact (pair_decomposes sq_nodes 1 Internal I)|]. split; [|exact (pair_fits sq_nodes 1 Internal)].
  intros f [<-|[]]. split; [|split].
  - exact (sq_opposite _ _).
  - unfold half_side, dist, vdot, SpecShape.vsub. cbn. f_equal. f_equal. ring.
  - intros _ gp _. repeat split.
Qed.
(** Two hundred steps with wetting and drying, on two units and serially. *)
Example square_run : exists st' us' stp',
  ofold (fun s _ => step_serial square (euler true) s) (seq 0 200) (at_rest 1 0 true, euler_stepper) = Ok (st', stp') /\
  ofold (fun s _ => step_par square (euler true) (pair_subs Internal) s) (seq 0 200) (pair_units sq_nodes 1 Internal (at_rest 1 0 true), euler_stepper) = Ok (us', stp') /\
  distributes (pair_subs Internal) us' st'.
Proof.
  destruct square_split as (D & Cf & F). apply (C52_run square (euler true) (pair_subs Internal) [Intf 0 0 1 0 Internal]).
  - apply square_stage_ok.
  - exact D.
  - exact Cf.
  - exact F.
  - reflexivity.
  - exact (pair_distributes sq_nodes 1 Internal _).
  - cbn. lia.
Qed.

(** ** What the conditions on cut faces are for *)
(** With a coordinate scaling other than 1 the results differ: LLF_flux scales the
    inner flux only, so it depends on which side of the cut computes it. *)
Theorem C52_scaled_refuted : exists m c subs cuts us st stp st' us', stage_ok m c /\ decomposes m subs cuts /\
  (forall f, In f cuts -> i_kind f = Internal /\ opposite (normal m (i_in f) (i_bin f)) (normal m (i_ex f) (i_bex f)) /\
     half_side (m_nodes m (i_ex f)) (i_bex f) = half_side (m_nodes m (i_in f)) (i_bin f) /\
     forall gp gx, m_faux m (i_in f) (i_bin f) gp = m_faux m (i_ex f) (i_bex f) gx) /\
  sizes_fit m subs /\ buffers_sized m subs us /\ distributes subs us st /\ (st_stage stp < st_nstages stp)%nat /\
  stage_serial m c (st, stp) = Ok (st', stepper_incr stp) /\ stage_par m c subs (us, stp) = Ok (us', stepper_incr stp) /\
  exists i e, (i < length subs)%nat /\ In e (su_elts (unit_at subs i)) /\ ms_q (u_st (us' i)) e 0%nat 1%nat 0%nat <> ms_q st' e 0%nat 1%nat 0%nat.
Proof.
  destruct (cut_error (pair_mesh sq_nodes 2 Internal) (euler false) (pair_subs Internal) [Intf 0 0 1 0 Internal]
    (pair_units sq_nodes 2 Internal (at_rest 1 0 true)) (at_rest 1 0 true) euler_stepper) as (st' & us' & E & F & Q); try reflexivity.
  1: exact (pair_stage_ok _ _ _ sq_tri). 1: exact (pair_decomposes sq_nodes 2 Internal I). 1: apply pair_fits. 1: apply pair_sized. 1: apply pair_distributes.
  exists (pair_mesh sq_nodes 2 Internal), (euler false), (pair_subs Internal), [Intf 0 0 1 0 Internal],
    (pair_units sq_nodes 2 Internal (at_rest 1 0 true)), (at_rest 1 0 true), euler_stepper, st', us'.
  split; [exact (pair_stage_ok _ _ _ sq_tri)|]. split; [exact (pair_decomposes sq_nodes 2 Internal I)|]. split.
  { intros f [<-|[]]. split; [reflexivity|]. split; [exact (sq_opposite _ _)|]. split; [|reflexivity].
    unfold half_side, dist, vdot, SpecShape.vsub. cbn. f_equal. f_equal. ring. }
  split; [apply pair_fits|]. split; [apply pair_sized|]. split; [apply pair_distributes|]. split; [cbn; lia|]. split; [exact E|]. split; [exact F|].
  exists 1%nat, 1%nat. split; [cbn; lia|]. split; [left; reflexivity|]. intros H.
  specialize (Q 1%nat 1%nat 1%nat ltac:(cbn; lia) ltac:(left; reflexivity)). rewrite H in Q.
  exact (scaled_error _ Q).
Qed.
Print Assumptions C52_scaled_refuted.

(** A levee whose two sides have different lengths: the serial solver integrates
    over the length of the inner side on both, the distributed one over the length
    of each. *)
Theorem C52_levee_refuted : exists m c subs cuts us st stp st' us', stage_ok m c /\ decomposes m subs cuts /\
  (forall f, In f cuts -> opposite (normal m (i_in f) (i_bin f)) (normal m (i_ex f) (i_bex f)) /\ (exists data, i_kind f = Levee data) /\
     half_side (m_nodes m (i_ex f)) (i_bex f) = 2 * half_side (m_nodes m (i_in f)) (i_bin f) /\
     forall gp gx, sp (m_faux m (i_in f) (i_bin f) gp) = 1 /\ m_faux m (i_in f) (i_bin f) gp = m_faux m (i_ex f) (i_bex f) gx) /\
  sizes_fit m subs /\ buffers_sized m subs us /\ distributes subs us st /\ (st_stage stp < st_nstages stp)%nat /\
  stage_serial m c (st, stp) = Ok (st', stepper_incr stp) /\ stage_par m c subs (us, stp) = Ok (us', stepper_incr stp) /\
  exists i e, (i < length subs)%nat /\ In e (su_elts (unit_at subs i)) /\ ms_q (u_st (us' i)) e 0%nat 1%nat 0%nat <> ms_q st' e 0%nat 1%nat 0%nat.
Proof.
  destruct (cut_error (pair_mesh wide_nodes 1 high_levee) (euler false) (pair_subs high_levee) [Intf 0 0 1 0 high_levee]
    (pair_units wide_nodes 1 high_levee (at_rest 1 1 true)) (at_rest 1 1 true) euler_stepper) as (st' & us' & E & F & Q); try reflexivity.
  1: exact (pair_stage_ok _ _ _ wide_tri). 1: exact (pair_decomposes _ _ high_levee eq_refl). 1: apply pair_fits. 1: apply pair_sized. 1: apply pair_distributes.
  exists (pair_mesh wide_nodes 1 high_levee), (euler false), (pair_subs high_levee), [Intf 0 0 1 0 high_levee],
    (pair_units wide_nodes 1 high_levee (at_rest 1 1 true)), (at_rest 1 1 true), euler_stepper, st', us'.
  split; [exact (pair_stage_ok _ _ _ wide_tri)|]. split; [exact (pair_decomposes _ _ high_levee eq_refl)|]. split.
  { intros f [<-|[]]. split; [exact (wide_opposite _ _)|]. split; [eexists; reflexivity|]. split; [exact wide_half|]. split; reflexivity. }
  split; [apply pair_fits|]. split; [apply pair_sized|]. split; [apply pair_distributes|]. split; [cbn; lia|]. split; [exact E|]. split; [exact F|].
  exists 1%nat, 1%nat. split; [cbn; lia|]. split; [left; reflexivity|]. intros H.
  specialize (Q 1%nat 1%nat 1%nat ltac:(cbn; lia) ltac:(left; reflexivity)). rewrite H in Q.
  exact (levee_error _ Q).
Qed.
Print Assumptions C52_levee_refuted.

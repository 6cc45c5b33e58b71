(** Property theorems: the distributed explicit HDG solver computes what the serial one
    does (C61). *)
From Coq Require Import Reals QArith Qreals NArith List Bool Arith Lra Lia Permutation.
From Verif Require Import Num ModelSWE Outcome ModelShape ModelBasis ModelJac ModelStepper ModelWetDry ModelSlope ModelStep ModelIHDG ModelEHDG ModelComm ModelPar ModelEPar
  SpecSWE SpecShape SpecStepper SpecStep SpecStage SpecComm SpecPar SpecEPar
  LemmasSWE LemmasShape LemmasStep LemmasStage LemmasStage2 LemmasStage3 LemmasPar2 LemmasPar3 LemmasPar5 LemmasPar6 LemmasEPar3 PropsStep PropsStage.
Import ListNotations.
Open Scope R_scope.

(** Preprocessing: after the exchange every unit knows the mean bathymetry of its cut
    edges and keeps its states; its traces are zero. *)
Theorem C61_start : forall m subs cuts us q F b, decomposes m subs cuts -> faces_once m -> sizes_fit_of EHDG m subs -> buffers_sized_of EHDG m subs us ->
  exists us' fs', ehdg_init_par m subs us q F b = Ok (us', fs') /\ buffers_sized_of EHDG m subs us' /\ (forall i, (i < length subs)%nat -> u_st (us' i) = u_st (us i)) /\
    baths_known m subs cuts fs' /\ forall i, (i < length subs)%nat -> fc_q (fs' i) = q i /\ fc_qh (fs' i) = fun _ _ _ => 0.
Proof. exact ehdg_init_known. Qed.
Print Assumptions C61_start.

(** One stage: both end without error, and afterwards every unit holds what the serial
    solver holds. *)
Theorem C61_stage : forall m c solve subs cuts us fs s stp, stage_ok m c -> no_levees m -> decomposes m subs cuts -> (forall f, In f cuts -> fitting m f) ->
  sizes_fit_of EHDG m subs -> buffers_sized_of EHDG m subs us -> ehdg_distributes m subs cuts us fs s -> (st_stage stp < st_nstages stp)%nat ->
  exists s' us' fs', ehdg_stage m c solve (s, stp) = Ok (s', stepper_incr stp) /\ ehdg_stage_par m c solve subs (us, fs, stp) = Ok (us', fs', stepper_incr stp) /\
    ehdg_distributes m subs cuts us' fs' s' /\ buffers_sized_of EHDG m subs us'.
Proof. exact ehdg_stage_par_serial. Qed.
Print Assumptions C61_stage.

(** Any number of steps from the start.  The boundary values of the units start as those
    of the serial solver do (a boundary of a dry element keeps them); other face values and
    fluxes may start differently. *)
Theorem C61_run : forall m c solve subs cuts N us q qs F Fs b st stp, stage_ok m c -> no_levees m -> decomposes m subs cuts -> (forall f, In f cuts -> fitting m f) ->
  sizes_fit_of EHDG m subs ->
  (forall i r, (i < length subs)%nat -> (r < length (su_rankbs (unit_at subs i)))%nat -> u_send (us i) r = init_send_of EHDG m subs i r) ->
  distributes subs us st -> (forall i x, (i < length subs)%nat -> In x (su_bounds (unit_at subs i)) -> forall gp, (gp < length (m_rule1 m))%nat -> q i (b_elt x) (b_id x) gp = qs (b_elt x) (b_id x) gp) ->
  (st_stage stp < st_nstages stp)%nat ->
  exists us1 fs1 s' us' fs' stp', ehdg_init_par m subs us q F b = Ok (us1, fs1) /\
    ofold (fun x _ => ehdg_step m c solve x) (seq 0 N) (ehdg_start st qs Fs, stp) = Ok (s', stp') /\
    ofold (fun x _ => ehdg_step_par m c solve subs x) (seq 0 N) (us1, fs1, stp) = Ok (us', fs', stp') /\ ehdg_distributes m subs cuts us' fs' s'.
Proof. exact ehdg_run_par_start. Qed.
Print Assumptions C61_run.

(** ** The unit square, one triangle on each unit, over a bed that jumps by 2 at the cut *)
Definition jump : mesh :=
  Mesh 2 1 sq_nodes [(2 / 3, (-2 / 3, 1 / 3)); (2 / 3, (1 / 3, -2 / 3)); (2 / 3, (-2 / 3, -2 / 3))]
  [(1, - sqrt (1 / 3)); (1, sqrt (1 / 3))]
  (fun e _ => Aux (if Nat.eqb e 0 then 1 else 3) 1 1) (fun _ _ => V2 0 0) (fun e _ _ => Aux (if Nat.eqb e 0 then 1 else 3) 1 1) (fun _ => SourceIn false 0 false 0) None
  [Intf 0 0 1 0 Internal] [Bnd 0 1 Land; Bnd 0 2 Land; Bnd 1 1 Land; Bnd 1 2 Land]
  (fun _ _ => 1) (fun _ => 1) (fun _ => no_sl).
Definition jump_units (st : mstate) : nat -> ustate := fun i => UState st (init_send_of EHDG jump (pair_subs Internal) i).
Lemma jump_fits : sizes_fit_of EHDG jump (pair_subs Internal).
Proof.
  intros i r Hi Hr. change (length (pair_subs Internal)) with 2%nat in *.
  assert (E : map (fun _ : dface => N.of_nat (length (m_rule1 jump))) (rb_faces (rankb_at (pair_subs Internal) i r)) = [2%N])
    by (destruct i as [|[|i]]; [| |lia]; cbn in Hr; (destruct r as [|r]; [reflexivity|lia])).
  rewrite E. intros k Hk. cbn in Hk. repeat destruct Hk as [<-|Hk]; try contradiction; reflexivity.
Qed.
Lemma jump_decomposes : decomposes jump (pair_subs Internal) [Intf 0 0 1 0 Internal].
Proof. destruct (pair_decomposes sq_nodes 1 Internal I). constructor; assumption. Qed.
Lemma jump_ok : stage_ok jump (euler false).
Proof. destruct (pair_stage_ok sq_nodes 1 Internal sq_tri). constructor; assumption. Qed.
(** Both units hold the bathymetry 2 of the cut edge, and two hundred steps agree with
    the serial ones. *)
Example jump_run : forall solve, exists us1 fs1 s' us' fs' stp',
  ehdg_init_par jump (pair_subs Internal) (jump_units (at_rest 1 0 true)) (fun _ _ _ _ => V3 7 7 7) (fun _ _ _ _ => V3 0 0 0) (fun _ _ _ _ => 9) = Ok (us1, fs1) /\
  fc_bath (fs1 0%nat) 0%nat 0%nat 1%nat = 2 /\ fc_bath (fs1 1%nat) 1%nat 0%nat 0%nat = 2 /\
  ofold (fun x _ => ehdg_step jump (euler false) solve x) (seq 0 200) (ehdg_start (at_rest 1 0 true) (fun _ _ _ => V3 7 7 7) (fun _ _ _ => V3 1 2 3), euler_stepper) = Ok (s', stp') /\
  ofold (fun x _ => ehdg_step_par jump (euler false) solve (pair_subs Internal) x) (seq 0 200) (us1, fs1, euler_stepper) = Ok (us', fs', stp') /\
  distributes (pair_subs Internal) us' (es_m s').
Proof.
  intros solve.
  assert (Cf : forall f, In f [Intf 0 0 1 0 Internal] -> fitting jump f).
  { intros f [<-|[]]. split; [exact (sq_opposite 1 Internal)|]. unfold half_side, dist, vdot, SpecShape.vsub. cbn. f_equal. f_equal. ring. }
  destruct (C61_run jump (euler false) solve (pair_subs Internal) [Intf 0 0 1 0 Internal] 200 (jump_units (at_rest 1 0 true)) (fun _ _ _ _ => V3 7 7 7) (fun _ _ _ => V3 7 7 7)
    (fun _ _ _ _ => V3 0 0 0) (fun _ _ _ => V3 1 2 3) (fun _ _ _ _ => 9) (at_rest 1 0 true) euler_stepper) as (us1 & fs1 & s' & us' & fs' & stp' & A & B & E & (D1 & _ & _)).
  - exact jump_ok.
  - intros f [<-|[]]. reflexivity.
  - exact jump_decomposes.
  - exact Cf.
  - exact jump_fits.
  - reflexivity.
  - intros i e _ _. repeat split.
  - reflexivity.
  - cbn. lia.
  - exists us1, fs1, s', us', fs', stp'. split; [exact A|].
    destruct (C61_start jump (pair_subs Internal) [Intf 0 0 1 0 Internal] (jump_units (at_rest 1 0 true)) (fun _ _ _ _ => V3 7 7 7) (fun _ _ _ _ => V3 0 0 0) (fun _ _ _ _ => 9)
      jump_decomposes (so_faces _ _ jump_ok) jump_fits) as (ua & fa & Ea & _ & _ & Ba & _); [apply init_sized; reflexivity|].
    rewrite A in Ea. injection Ea as <- <-.
    destruct (Ba 0%nat _ 1%nat ltac:(cbn; lia) (or_introl eq_refl) ltac:(cbn; lia)) as [X _]. destruct (Ba 1%nat _ 0%nat ltac:(cbn; lia) (or_introl eq_refl) ltac:(cbn; lia)) as [_ Y].
    cbn [i_in i_bin i_ex i_bex] in X, Y. rewrite X by (left; reflexivity). rewrite Y by (left; reflexivity).
    assert (M : forall gp, mean_bath jump (Intf 0 0 1 0 Internal) gp = 2) by (intros gp; unfold mean_bath; cbn; lra).
    split; [apply M|]. split; [apply M|]. split; [exact B|]. split; [exact E|exact D1].
Qed.

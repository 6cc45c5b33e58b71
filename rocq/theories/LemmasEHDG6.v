(** The projection factor has no effect on the explicit HDG solver; levees; lake at rest. *)
From Coq Require Import Reals QArith Qreals List Bool Arith Lia Lra Permutation FunctionalExtensionality.
From Verif Require Import Num ModelSWE Outcome ModelShape ModelBasis ModelJac ModelStepper ModelWetDry ModelSlope ModelStep ModelInit ModelIHDG ModelEHDG
  SpecSWE SpecShape SpecBasis SpecJac SpecStepper SpecWetDry SpecSlope SpecStep SpecStage SpecRest SpecEHDG
  LemmasSWE LemmasShape LemmasWetDry LemmasRK LemmasRK2 LemmasStepper LemmasPart LemmasHDG LemmasStep LemmasStage LemmasStage3 LemmasStage4 LemmasStage5
  LemmasRest1 LemmasRest2 LemmasRest3 LemmasRest4 LemmasRest5 LemmasRest6 LemmasEHDG1 LemmasEHDG2 LemmasEHDG3 LemmasEHDG4 LemmasEHDG5.
Import ListNotations.
Open Scope R_scope.

Section Factor.
  Context (m : mesh) (s : nat -> nat -> R) (sf : nat -> nat -> nat -> R) (c : config).
  Notation m' := (with_sp m s sf).
  Lemma volume_sp : forall k st e, local_volume m' c k st e = local_volume m c k st e.
  Proof. reflexivity. Qed.
  Lemma source_sp : forall t k st e, source_kernel m' c t k st e = source_kernel m c t k st e.
  Proof. intros t k st e. unfold source_kernel, source_at, get_source. destruct (ms_wet st e); [|reflexivity]. reflexivity. Qed.
  Lemma edge_sp : forall x f, edge_interface m' c x f = edge_interface m c x f.
  Proof. reflexivity. Qed.
  Lemma local_sp : forall t k F st, local_rhs m' c t k F st = local_rhs m c t k F st.
  Proof.
    intros t k F st. unfold local_rhs. cbn [m_n m_intfaces m_bounds with_sp].
    rewrite (fold_left_ext _ _ _ _ (volume_sp k)). rewrite (fold_left_ext _ _ _ _ (source_sp t k)). reflexivity.
  Qed.
  Context (solve : nat -> (nat -> nat -> R) -> (nat -> R) -> nat -> R).
  Lemma bc_sp : forall b q qi n qh, bc_trace m' c solve n b q qi qh = bc_trace m c solve n b q qi qh.
  Proof.
    intros b q qi n. induction n as [|n IH]; intros qh; [reflexivity|]. cbn [bc_trace].
    change (trace_pass m' c solve b q qi qh) with (trace_pass m c solve b q qi qh). destruct (trace_pass m c solve b q qi qh) as [qh' x].
    change (trace_norm m' x) with (trace_norm m x). rewrite IH. reflexivity.
  Qed.
  Lemma bound_sp : forall t x nb, edge_boundary m' c solve t x nb = edge_boundary m c solve t x nb.
  Proof.
    intros t x [i b]. unfold edge_boundary. cbv zeta. destruct (b_bc b) as [|ex]; [reflexivity|].
    change (normal m' (b_elt b) (b_id b)) with (normal m (b_elt b) (b_id b)). rewrite bc_sp. generalize (bc_trace m c solve 100 b (es_q x (b_elt b) (b_id b))
      (fun gp => ex t gp (normal m (b_elt b) (b_id b)) (es_q x (b_elt b) (b_id b) gp)) (es_qh x i)). reflexivity.
  Qed.
  Lemma global_sp : forall t k x, global_step m' c solve t k x = global_step m c solve t k x.
  Proof.
    intros t k x. unfold global_step. cbv zeta. change (numbered_bounds m') with (numbered_bounds m). cbn [m_intfaces m_bounds with_sp].
    rewrite (fold_left_ext _ _ _ _ (bound_sp t)). reflexivity.
  Qed.
  Lemma stage_sp : forall x, ehdg_stage m' c solve x = ehdg_stage m c solve x.
  Proof.
    intros [x stp]. rewrite !ehdg_stage_eq. cbv zeta. rewrite global_sp, local_sp.
    generalize (global_step m c solve (time_at_stage stp) (st_stage stp) x). intros x1.
    generalize (local_rhs m c (time_at_stage stp) (st_stage stp) (es_F x1) (es_m x)). intros y. reflexivity.
  Qed.
End Factor.
Lemma ofold_ext : forall (A B : Type) (f h : A -> B -> outcome A), (forall x y, f x y = h x y) -> forall l x, ofold f l x = ofold h l x.
Proof. intros A B f h E l. induction l as [|y l IH]; intros x; [reflexivity|]. cbn [ofold]. rewrite E. destruct (h x y); [apply IH|reflexivity|reflexivity]. Qed.
Lemma step_sp : forall m s sf c solve x, ehdg_step (with_sp m s sf) c solve x = ehdg_step m c solve x.
Proof. intros m s sf c solve x. unfold ehdg_step, ehdg_stages. apply ofold_ext. intros y _. apply stage_sp. Qed.

(** Start-up: the projection enters only the factors. *)
Definition alike_t (t t' : face_table) : Prop := forall e b gp, bath (t e b gp) = bath (t' e b gp) /\ hh (t e b gp) = hh (t' e b gp).
Lemma alike_set : forall t t' e b gp a a', alike_t t t' -> bath a = bath a' -> hh a = hh a' ->
  alike_t (ModelInit.set_face t e b gp a) (ModelInit.set_face t' e b gp a').
Proof. intros t t' e b gp a a' H E1 E2 e1 b1 g1. unfold ModelInit.set_face. destruct (_ && _ && _)%bool; [split; assumption|apply H]. Qed.
Lemma alike_fold : forall (X : Type) (f h : face_table -> X -> face_table), (forall t t' x, alike_t t t' -> alike_t (f t x) (h t' x)) ->
  forall l t t', alike_t t t' -> alike_t (fold_left f l t) (fold_left h l t').
Proof. intros X f h H l. induction l as [|x l IH]; intros t t' A; [exact A|]. cbn [fold_left]. apply IH, H, A. Qed.
Lemma faux_plane : forall i, alike_t (init_faux (plane i)) (init_faux i).
Proof.
  intros i. unfold init_faux. cbn [in_bounds in_intfaces plane]. apply alike_fold.
  - intros t t' b A. unfold init_bound. cbn [in_rule1 plane]. apply alike_fold; [|exact A]. intros t1 t2 gp A1. apply alike_set; [exact A1|reflexivity|reflexivity].
  - apply alike_fold.
    + intros t t' f A. unfold init_intface. cbn [in_rule1 plane]. apply alike_fold; [|exact A]. intros t1 t2 gp A1. cbv zeta.
      apply alike_set; [apply alike_set; [exact A1|reflexivity|reflexivity]|reflexivity|reflexivity].
    + intros e b gp. split; reflexivity.
Qed.
Lemma mesh_plane : forall i, init_mesh i = with_sp (init_mesh (plane i)) (fun e gp => sp (init_aux i e gp)) (fun e b gp => sp (init_faux i e b gp)).
Proof.
  intros i. unfold init_mesh at 1, with_sp.
  assert (E : (fun e b gp => Aux (bath (m_faux (init_mesh (plane i)) e b gp)) (hh (m_faux (init_mesh (plane i)) e b gp)) (sp (init_faux i e b gp))) = init_faux i).
  { apply functional_extensionality. intros e. apply functional_extensionality. intros b. apply functional_extensionality. intros gp.
    destruct (faux_plane i e b gp) as [E1 E2]. cbn [m_faux init_mesh]. rewrite E1, E2. destruct (init_faux i e b gp). reflexivity. }
  rewrite E. reflexivity.
Qed.
Lemma plane_step : forall i c solve x, ehdg_step (init_mesh i) c solve x = ehdg_step (init_mesh (plane i)) c solve x.
Proof. intros i c solve x. rewrite (mesh_plane i). apply step_sp. Qed.
Lemma plane_conforming : forall i, conforming i -> conforming (plane i).
Proof. intros i [A1 A2 A3 A4 A5 A6 A7 A8 A9]. constructor; assumption. Qed.

Lemma ehdg_step_any' : forall i cfg solve c s stp p, conforming i -> (forall b, In b (in_bounds i) -> b_bc b = Land) -> (forall f, In f (in_intfaces i) -> i_kind f = Internal) ->
  in_fs i = None ->
  (c_wd cfg = true -> forall r, Rabs (r - 1) <= 1 / 10 ^ 13 -> submerged i (c * r) (c_h_o cfg + c_thr cfg)) ->
  rk_table (st_nstages stp) p = Some (c_A cfg, c_B cfg) -> st_stage stp = 0%nat -> calm i c 0 (es_m s) ->
  exists s' stp' r, ehdg_step (init_mesh i) cfg solve (s, stp) = Ok (s', stp') /\ st_nstages stp' = st_nstages stp /\ st_stage stp' = 0%nat /\
  Rabs (r - 1) <= 1 / 10 ^ 13 /\ calm i (c * r) 0 (es_m s').
Proof.
  intros i cfg solve c s stp p C HL HI Fs Sb E E0 H. rewrite plane_step.
  exact (ehdg_step_any (plane i) cfg solve c s stp p (plane_conforming i C) HL HI Fs eq_refl Sb E E0 H).
Qed.
Lemma ehdg_run_rest' : forall i cfg solve c junk jq jF p N stp, conforming i -> (forall b, In b (in_bounds i) -> b_bc b = Land) -> (forall f, In f (in_intfaces i) -> i_kind f = Internal) ->
  in_fs i = None -> in_ic i = V3 c 0 0 -> (c_wd cfg = true -> submerged i c (c_h_o cfg + c_thr cfg)) ->
  st_stage stp = 0%nat -> rk_table (st_nstages stp) p = Some (c_A cfg, c_B cfg) -> In (st_nstages stp, p) exact_schemes ->
  exists st s' stp', init_state i cfg junk = Ok st /\
  ofold (fun x _ => ehdg_step (init_mesh i) cfg solve x) (seq 0 N) (ehdg_start st jq jF, stp) = Ok (s', stp') /\ calm i c 0 (es_m s').
Proof.
  intros i cfg solve c junk jq jF p N stp C HL HI Fs Ic Sb E0 E HE.
  destruct (ehdg_run_rest (plane i) cfg solve c junk jq jF p N stp (plane_conforming i C) HL HI Fs eq_refl Ic Sb E0 E HE) as (st & s' & stp' & R1 & R2 & R3).
  exists st, s', stp'. split; [exact R1|]. split; [|exact R3]. rewrite <- R2. apply ofold_ext. intros x _. apply plane_step.
Qed.

(** Right-hand side of a lake at rest. *)
Lemma ehdg_rhs_zero : forall i cfg solve c t k s, conforming i -> (forall b, In b (in_bounds i) -> b_bc b = Land) -> (forall f, In f (in_intfaces i) -> i_kind f = Internal) ->
  in_fs i = None -> calm i c k (es_m s) ->
  forall e v d, (e < in_n i)%nat -> (v < 3)%nat -> (d < dubiner_ndof (in_p i))%nat ->
  ms_rhs (local_rhs (init_mesh i) cfg t k (es_F (global_step (init_mesh i) cfg solve t k s)) (es_m s)) e k v d = 0.
Proof.
  intros i cfg solve c t k s C HL HI Fs H e v d He Hv Hd. rewrite (mesh_plane i), local_sp, global_sp.
  apply (rest_rhs (plane i) (plane_conforming i C) cfg solve HL HI Fs eq_refl c t k s (global_step (init_mesh (plane i)) cfg solve t k s) H); try assumption.
  apply fluxes_model, conforming_once, plane_conforming, C.
Qed.

(** ** A levee between two triangles: the production is whatever the flux buffer held *)
Definition dyke : input := Input 2 1 lake_nodes lake_z rule2_2 rule1_3 (fun _ => SourceIn true 1 true 1) None
  [Intf 0 0 1 0 (Levee (fun _ => (4, 1, 1)))] [Bnd 0 1 Land; Bnd 0 2 Land; Bnd 1 1 Land; Bnd 1 2 Land] None (V3 0 0 0) 10 0 1.
Lemma dyke_conforming : conforming dyke.
Proof.
  destruct (lake_ok 0) as [[A1 A2 A3 A4 A5 A6 A7 A8 A9] _]. constructor; try assumption.
  - intros f [<-|[]]. exact (A8 _ (or_introl eq_refl)).
  - intros f [<-|[]] K. discriminate K.
Qed.
Lemma dyke_ok : hdg_mesh_ok (init_mesh dyke).
Proof.
  constructor.
  - cbn. lia.
  - intros e He. pose proof (cf_triangles dyke dyke_conforming e He) as P. cbn [m_nodes init_mesh]. lra.
  - intros gp Hg. cbn in Hg. destruct gp as [|[|gp]]; [reflexivity|reflexivity|lia].
  - exact (conforming_once dyke dyke_conforming).
  - intros e v Hv. exact (proj2 (init_bath_min_ok (in_z dyke e)) v Hv).
Qed.
Lemma dyke_production : forall c solve st q qh stp x, 0 <= c_thr c -> 0 <= c_h_o c -> (st_stage stp < st_nstages stp)%nat -> (forall e, ms_wet st e = true) ->
  exists F s', ehdg_stage (init_mesh dyke) c solve (EState st q F qh, stp) = Ok (s', stepper_incr stp) /\ production (init_mesh dyke) (es_m s') (st_stage stp) = x.
Proof.
  intros c solve st q qh stp x Ht Hh Hk Hw. set (m := init_mesh dyke). set (hs := half_side (lake_nodes 0) 0).
  assert (P : hs <> 0).
  { assert (D : 0 < hs); [|lra]. unfold hs, half_side. apply Rmult_lt_0_compat; [|lra]. unfold dist, vdot, SpecShape.vsub. cbn. apply sqrt_lt_R0. lra. }
  set (F := fun _ _ _ : nat => V3 (- x / (4 * hs)) 0 0). exists F.
  destruct (ehdg_stage_balance m c solve (EState st q F qh) stp dyke_ok Ht Hh Hk) as (s' & E & Fl & Pr & _). exists s'. split; [exact E|]. rewrite Pr.
  unfold hdg_inflow. cbn [fst snd es_m].
  assert (O0 : hdg_outflow m (es_F s') st = 0).
  { unfold hdg_outflow. rewrite (lsum_ext _ _ _ (fun _ => 0)); [apply lsum_zero|].
    intros b Hb. rewrite Hw, rsum_const0; [ring|]. intros gp Hg. 
    destruct (faces_small m (hk_faces m dyke_ok)) as [_ F2]. destruct (F2 b Hb) as [H1 H2].
    assert (La : b_bc b = Land) by (destruct Hb as [<-|[<-|[<-|[<-|[]]]]]; reflexivity).
    pose proof (fl_land m c solve _ _ _ s' Fl b gp Hb La (Hw _) Hg) as E1. cbv zeta in E1. rewrite E1, wall_mass; [ring|].
    apply (normal_unit m); [apply (hk_triangles m dyke_ok), H1|exact H2]. }
  assert (L0 : hdg_levee_loss m (es_F s') st = - x).
  { unfold hdg_levee_loss, lsum. cbn [m m_intfaces init_mesh dyke in_intfaces map fold_right i_kind]. rewrite !Hw. cbn [orb].
    assert (Lv := fun gp => fl_levee m c solve _ _ _ s' Fl (Intf 0 0 1 0 (Levee (fun _ => (4, 1, 1)))) _ gp (or_introl eq_refl) eq_refl).
    cbn [i_in i_bin i_ex i_bex es_F] in *. change (length (m_rule1 m)) with 2%nat. cbn [rsum].
    change (m_nodes m 0%nat) with (lake_nodes 0). fold hs.
    rewrite !(proj1 (Lv _)), !(proj2 (Lv _)). unfold F. cbn [ze]. change (m_rule1 m) with rule1_3. unfold rule1_3. cbn [nth fst]. field. exact P. }
  rewrite O0, L0. unfold rain. cbn [m m_fs init_mesh dyke in_fs]. ring.
Qed.

(** Stages on decompositions whose cuts do not conform, and small examples. *)
From Coq Require Import Reals QArith Qreals NArith List Bool Arith Lia Lra Permutation FunctionalExtensionality.
From Verif Require Import Num ModelSWE Outcome ModelShape ModelBasis ModelJac ModelStepper ModelWetDry ModelSlope ModelStep ModelComm ModelPar
  SpecSWE SpecShape SpecStepper SpecWetDry SpecSlope SpecStep SpecStage SpecComm SpecPar
  LemmasSWE LemmasHDG LemmasShape LemmasRK LemmasPart LemmasComm LemmasSlope LemmasStep LemmasStage LemmasStage2 LemmasStage3 LemmasStage4 LemmasStage5
  LemmasPar LemmasPar2 LemmasPar3 LemmasPar4 LemmasPar5 PropsStep.
Import ListNotations.
Open Scope R_scope.

Lemma stage_par_plain : forall m c subs cuts us st stp, decomposes m subs cuts -> sizes_fit m subs ->
  buffers_sized m subs us -> distributes subs us st -> c_wd c = false -> c_sl c = false ->
  let k := st_stage stp in
  let t := time_at_stage stp in
  exists us', stage_par m c subs (us, stp) = Ok (us', stepper_incr stp) /\
    forall i e, (i < length subs)%nat -> In e (su_elts (unit_at subs i)) ->
    exists w, view (u_st (us' i)) e = upd_view m c (st_dt stp) (st_nstages stp) k e w /\ v_q w = ms_q st e /\ v_sol w = ms_sol st e /\
      forall v d, v_rhs w k v d =
        vol_at m c k st e v d + (if ms_wet st e then integration_phi m e (source_at m c t k st e) v d else 0) +
        lsum (flat_map su_intfaces subs) (fun f => int_con m c k st f e v d) + lsum (m_bounds m) (fun b => bnd_con m c t k st b e v d) +
        lsum (su_visit (unit_at subs i)) (fun x => load_con m c k subs st i x e v d).
Proof.
  intros m c subs cuts us st stp D Fit Sz Hd WD SL k t. unfold stage_par, finish_par. fold k t. rewrite WD, SL.
  destruct (delivered_units RKDG m subs 1 bound_state eq_refl (face_message m k)) with (cuts := cuts) (us := us) as (us1 & E1 & Sz1 & U1 & A1); [|exact D|exact Fit|exact Sz|].
  { intros s d. rewrite message_length. cbn [capacity]. lia. }
  change (exchange subs (send_states m k) us = Ok us1) in E1. rewrite E1. cbn [bind].
  assert (Hd1 : distributes subs us1 st) by (intros i e Hi He; rewrite (U1 i Hi); apply Hd; assumption).
  assert (Arr : arrives m k subs us1 (delivered subs us1)).
  { intros i r j n Hi Hr Hj Hn rb d'. destruct (dc_partner _ _ _ D i r Hi Hr) as (P1 & _). fold rb in P1. rewrite (U1 _ P1).
    apply (A1 i r j n Hi Hr Hj). cbn [capacity]. lia. }
  destruct (on_units_ok subs (fun i => unit_update m c t (st_dt stp) (st_nstages stp) k (sub subs i) (delivered subs us1 i)) us1
    (fun i s => forall e, In e (su_elts (unit_at subs i)) -> exists w, view s e = upd_view m c (st_dt stp) (st_nstages stp) k e w /\ v_q w = ms_q st e /\ v_sol w = ms_sol st e /\
      forall v d, v_rhs w k v d =
        vol_at m c k st e v d + (if ms_wet st e then integration_phi m e (source_at m c t k st e) v d else 0) +
        lsum (flat_map su_intfaces subs) (fun f => int_con m c k st f e v d) + lsum (m_bounds m) (fun b => bnd_con m c t k st b e v d) +
        lsum (su_visit (unit_at subs i)) (fun x => load_con m c k subs st i x e v d))) as (us2 & E2 & U2).
  { intros i Hi. destruct (unit_rhs_at m c t k subs cuts D st us1 Hd1 _ Arr i Hi) as (s5 & E5 & V5). unfold unit_update. cbv zeta. change (sub subs i) with (unit_at subs i).
    change (fold_left (boundary_kernel m c t k) (su_bounds (unit_at subs i)) _) with (rhs_lists m c t k (su_elts (unit_at subs i)) (su_intfaces (unit_at subs i)) (su_bounds (unit_at subs i)) (u_st (us1 i))).
    rewrite E5. cbn [bind].
    destruct (local_fold _ _ (update_local m c (st_dt stp) (st_nstages stp) k) (su_elts (unit_at subs i)) s5 (fun e => upd_view m c (st_dt stp) (st_nstages stp) k e (view s5 e)) (unit_elts_nodup _ _ _ D i Hi)) as (s6 & E6 & V6 & _).
    { reflexivity. }
    rewrite ofold_ok in E6. injection E6 as E6. rewrite E6. exists s6. split; [reflexivity|]. intros e He. exists (view s5 e).
    destruct (V5 e He) as (V1 & V2 & _ & _ & _ & V3). split; [apply V6; exact He|]. split; [exact V1|]. split; [exact V2|exact V3]. }
  rewrite E2. cbn [bind]. cbv zeta. exists us2. split; [reflexivity|]. intros i e Hi He. apply (proj1 (U2 i Hi)). exact He.
Qed.

Lemma apply_minv_v0 : forall m e rhs v, GetJdet (m_nodes m e) <> 0 -> apply_minv m e rhs v 0%nat = rhs v 0%nat / (2 * Rabs (GetJdet (m_nodes m e))).
Proof. intros m e rhs v H. exact (apply_minv_00 m e (fun _ => rhs v) H). Qed.

(** Euler stage: how far a cut brings a unit's result from the serial one. *)
Lemma cut_error : forall m c subs cuts us st stp, stage_ok m c -> decomposes m subs cuts -> sizes_fit m subs ->
  buffers_sized m subs us -> distributes subs us st -> c_wd c = false -> c_sl c = false -> st_stage stp = 0%nat -> st_nstages stp = 1%nat ->
  exists st' us', stage_serial m c (st, stp) = Ok (st', stepper_incr stp) /\ stage_par m c subs (us, stp) = Ok (us', stepper_incr stp) /\
    forall i e v, (i < length subs)%nat -> In e (su_elts (unit_at subs i)) ->
    ms_q (u_st (us' i)) e 0%nat v 0%nat - ms_q st' e 0%nat v 0%nat =
    st_dt stp * Q2R (entry (c_B c) 0 0) * (lsum (su_visit (unit_at subs i)) (fun x => load_con m c 0 subs st i x e v 0%nat) - lsum cuts (fun f => int_con m c 0 st f e v 0%nat))
      / (2 * Rabs (GetJdet (m_nodes m e))).
Proof.
  intros m c subs cuts us st stp OK D Fit Sz Hd WD SL K0 K1.
  destruct (stage_par_plain m c subs cuts us st stp D Fit Sz Hd WD SL) as (us' & Eu & Vu). destruct OK as [[Hp1 Hp2] Tri FO Hb Ht Hh].
  destruct (stage_views m c (nbr_of m) st stp Hp1 Ht Hh Hb (proj1 FO)) as (st' & w & E & V).
  { intros e b He Hb'. pose proof (nbr_seen m e b FO He Hb') as S. split; [exact S|]. apply (seen_small m e b); assumption. }
  exists st', us'. split; [exact E|]. split; [exact Eu|]. intros i e v Hi He. pose proof (unit_elt_small _ _ _ D i e Hi He) as Hn.
  destruct (Vu i e Hi He) as (x & X & XQ & XS & XR). destruct (V e Hn) as [V1 V2]. rewrite WD in V1. rewrite SL, V1 in V2. clear V1.
  rewrite K0, K1 in *.
  assert (J : GetJdet (m_nodes m e) <> 0) by (intros J; apply (Tri e Hn); unfold GetJdet, determinant, deformation in J; unfold orient; cbn in J; lra).
  assert (G : forall st x, view st e = upd_view m c (st_dt stp) 1 0 e x ->
    ms_q st e 0%nat v 0%nat = Q2R (entry (c_A c) 0 0) * v_q x 0%nat v 0%nat + st_dt stp * Q2R (entry (c_B c) 0 0) * (v_rhs x 0%nat v 0%nat / (2 * Rabs (GetJdet (m_nodes m e))))).
  { intros s y Hy. assert (Hq := f_equal v_q Hy). cbn [v_q view upd_view] in Hq. rewrite Hq. clear Hq Hy. unfold upd_view. cbn [Nat.add Nat.eqb v_q upd].
    unfold upd. cbn [Nat.eqb]. rewrite next_state_sum. cbn [rsum Nat.add fst snd Nat.eqb]. rewrite apply_minv_v0 by exact J. ring. }
  rewrite (G _ _ X), (G _ _ V2). cbn [view v_q v_rhs]. rewrite XQ, XR.
  rewrite rhs_kernels_lists. destruct (rhs_lists_at m c (time_at_stage stp) 0 st (seq 0 (m_n m)) (m_intfaces m) (m_bounds m) (seq_NoDup _ _)) as ((Q0 & _) & A0 & _).
  rewrite Q0, A0 by (apply in_seq; lia). rewrite <- (lsum_perm _ _ _ _ (dc_intfaces _ _ _ D)), lsum_app.
  field. apply Rabs_no_R0, J.
Qed.

(** ** Two triangles with one interface, each on its own unit *)
Definition pair_mesh (n : nat -> nodes) (s : R) (kind : is_kind) : mesh :=
  Mesh 2 1 n [(2 / 3, (-2 / 3, 1 / 3)); (2 / 3, (1 / 3, -2 / 3)); (2 / 3, (-2 / 3, -2 / 3))]
  [(1, - sqrt (1 / 3)); (1, sqrt (1 / 3))]
  (fun _ _ => Aux 1 1 s) (fun _ _ => V2 0 0) (fun _ _ _ => Aux 1 1 s) (fun _ => SourceIn false 0 false 0) None
  [Intf 0 0 1 0 kind] [Bnd 0 1 Land; Bnd 0 2 Land; Bnd 1 1 Land; Bnd 1 2 Land]
  (fun _ _ => 1) (fun _ => 1) (fun _ => no_sl).
Definition pair_subs (kind : is_kind) : list submesh :=
  [SubMesh [0%nat] [] [Bnd 0 1 Land; Bnd 0 2 Land] [RankB 1 0 [DFace 0 0 kind]] [(0, 0)%nat];
   SubMesh [1%nat] [] [Bnd 1 1 Land; Bnd 1 2 Land] [RankB 0 0 [DFace 1 0 kind]] [(0, 0)%nat]].
Definition pair_units (n : nat -> nodes) (s : R) (kind : is_kind) (st : mstate) : nat -> ustate :=
  fun i => UState st (init_send (pair_mesh n s kind) (pair_subs kind) i).

Lemma pair_stage_ok : forall n s kind, (forall e, (e < 2)%nat -> orient (n e 0%nat) (n e 1%nat) (n e 2%nat) <> 0) -> stage_ok (pair_mesh n s kind) (euler false).
Proof.
  intros n s kind T. constructor; try (cbn; lra).
  - cbn. lia.
  - exact T.
  - split.
    + cbn. repeat (constructor; [cbn; intuition congruence|]). constructor.
    + intros e b. cbn. split.
      * intros H. repeat destruct H as [H|H]; try contradiction; injection H as <- <-; lia.
      * intros [He Hb]. destruct e as [|[|e]]; [| |lia]; destruct b as [|[|[|b]]]; try lia; tauto.
  - intros e v _. cbn. lra.
Qed.
Lemma pair_decomposes : forall n s kind, (match kind with Internal => True | Levee d => d 1%nat = d 0%nat end) ->
  decomposes (pair_mesh n s kind) (pair_subs kind) [Intf 0 0 1 0 kind].
Proof.
  intros n s kind Hk. constructor.
  - apply Permutation_refl.
  - apply Permutation_refl.
  - apply Permutation_refl.
  - apply Permutation_refl.
  - intros su [<-|[<-|[]]]; (split; [intros f []|split]); intros x Hx; cbn in Hx; repeat destruct Hx as [Hx|Hx]; try contradiction; subst x; cbn; tauto.
  - intros su [<-|[<-|[]]]; apply Permutation_refl.
  - assert (M : sides_match 2 (Intf 0 0 1 0 kind) (DFace 0 0 kind) (DFace 1 0 kind)).
    { split; [reflexivity|]. split; [reflexivity|]. cbn. destruct kind as [|d]; [split; reflexivity|]. exists d, d. split; [reflexivity|]. split; [reflexivity|].
      intros gp Hg. split; [reflexivity|]. destruct gp as [|[|gp]]; [| |lia]; cbn; congruence. }
    intros i r Hi Hr. change (length (pair_subs kind)) with 2%nat in *. destruct i as [|[|i]]; [| |lia]; cbn in Hr; (destruct r as [|r]; [|lia]);
      (split; [cbn; lia|split; [cbn; lia|split; [reflexivity|]]]); intros j d d' E E'; (destruct j as [|[|j]]; [|discriminate|discriminate]);
      injection E as <-; injection E' as <-; exists (Intf 0 0 1 0 kind); (split; [left; reflexivity|]); [left|right]; exact M.
Qed.
Lemma pair_fits : forall n s kind, sizes_fit (pair_mesh n s kind) (pair_subs kind).
Proof.
  intros n s kind i r Hi Hr. change (length (pair_subs kind)) with 2%nat in *.
  assert (E : map (fun _ : dface => N.of_nat (length (m_rule1 (pair_mesh n s kind)))) (rb_faces (rankb_at (pair_subs kind) i r)) = [2%N])
    by (destruct i as [|[|i]]; [| |lia]; cbn in Hr; (destruct r as [|r]; [reflexivity|lia])).
  rewrite E. intros k Hk. cbn in Hk. repeat destruct Hk as [<-|Hk]; try contradiction; reflexivity.
Qed.
Lemma pair_sized : forall n s kind st, buffers_sized (pair_mesh n s kind) (pair_subs kind) (pair_units n s kind st).
Proof. intros. apply init_sized. reflexivity. Qed.
Lemma pair_distributes : forall n s kind st, distributes (pair_subs kind) (pair_units n s kind st) st.
Proof. intros n s kind st i e _ _. repeat split. Qed.

Definition wide_nodes (e : nat) : nodes := fun i => match e, i with
  | 0%nat, 0%nat => (0, 0) | 0%nat, 1%nat => (1, 0) | 0%nat, _ => (0, 1)
  | _, 0%nat => (2, 2) | _, 1%nat => (0, 2) | _, _ => (2, 0) end.
Definition high_levee : is_kind := Levee (fun _ => (1000, 1, 1)).
Lemma sq_tri : forall e, (e < 2)%nat -> orient (sq_nodes e 0%nat) (sq_nodes e 1%nat) (sq_nodes e 2%nat) <> 0.
Proof. intros e He. destruct e as [|[|e]]; [| |lia]; unfold orient, sq_nodes; cbn; lra. Qed.
Lemma wide_tri : forall e, (e < 2)%nat -> orient (wide_nodes e 0%nat) (wide_nodes e 1%nat) (wide_nodes e 2%nat) <> 0.
Proof. intros e He. destruct e as [|[|e]]; [| |lia]; unfold orient, wide_nodes; cbn; lra. Qed.
Lemma sqrt_8 : sqrt 8 = 2 * sqrt 2.
Proof. replace 8 with (2 * 2 * 2) by ring. rewrite sqrt_mult by lra. rewrite sqrt_square by lra. reflexivity. Qed.
Lemma sqrt_2_pos : 0 < sqrt 2.
Proof. apply sqrt_lt_R0. lra. Qed.
Ltac surface_normal :=
  unfold normal, GetSurfaceNormal, determinant, deformation, hypot; cbn [fst snd m_nodes pair_mesh square nx ny]; cbn; unfold ModelShape.hypot;
  rewrite Rabs_pos_eq by lra.
Lemma sq_normal0 : forall s k, normal (pair_mesh sq_nodes s k) 0 0 = V2 (1 / sqrt 2) (1 / sqrt 2).
Proof.
  intros s k. pose proof sqrt_2_pos. surface_normal.
  replace ((0 - 1) * (0 - 1) + (1 - 0) * (1 - 0)) with 2 by ring. f_equal; field; lra.
Qed.
Lemma sq_normal1 : forall s k, normal (pair_mesh sq_nodes s k) 1 0 = V2 (- (1 / sqrt 2)) (- (1 / sqrt 2)).
Proof.
  intros s k. pose proof sqrt_2_pos. surface_normal.
  replace ((1 - 0) * (1 - 0) + (0 - 1) * (0 - 1)) with 2 by ring. f_equal; field; lra.
Qed.
Lemma wide_normal0 : forall s k, normal (pair_mesh wide_nodes s k) 0 0 = V2 (1 / sqrt 2) (1 / sqrt 2).
Proof.
  intros s k. pose proof sqrt_2_pos. surface_normal.
  replace ((0 - 1) * (0 - 1) + (1 - 0) * (1 - 0)) with 2 by ring. f_equal; field; lra.
Qed.
Lemma wide_normal1 : forall s k, normal (pair_mesh wide_nodes s k) 1 0 = V2 (- (1 / sqrt 2)) (- (1 / sqrt 2)).
Proof.
  intros s k. pose proof sqrt_2_pos. surface_normal.
  replace ((2 - 0) * (2 - 0) + (0 - 2) * (0 - 2)) with 8 by ring. rewrite sqrt_8. f_equal; field; lra.
Qed.
Lemma sq_opposite : forall s k, opposite (normal (pair_mesh sq_nodes s k) 0 0) (normal (pair_mesh sq_nodes s k) 1 0).
Proof. intros s k. rewrite sq_normal0, sq_normal1. split; cbn; ring. Qed.
Lemma wide_opposite : forall s k, opposite (normal (pair_mesh wide_nodes s k) 0 0) (normal (pair_mesh wide_nodes s k) 1 0).
Proof. intros s k. rewrite wide_normal0, wide_normal1. split; cbn; ring. Qed.
Lemma sq_half : forall e, (e < 2)%nat -> half_side (sq_nodes e) 0 = sqrt 2 / 2.
Proof. intros e He. destruct e as [|[|e]]; [| |lia]; unfold half_side, dist, vdot, SpecShape.vsub; cbn; f_equal; f_equal; ring. Qed.
Lemma wide_half : half_side (wide_nodes 1) 0 = 2 * half_side (wide_nodes 0) 0.
Proof.
  unfold half_side, dist, vdot, SpecShape.vsub. cbn.
  replace ((0 - 2) * (0 - 2) + (2 - 0) * (2 - 0)) with 8 by ring. replace ((1 - 0) * (1 - 0) + (0 - 1) * (0 - 1)) with 2 by ring. rewrite sqrt_8. field.
Qed.
Lemma wide_half_pos : 0 < half_side (wide_nodes 0) 0.
Proof.
  unfold half_side, dist, vdot, SpecShape.vsub. cbn. replace ((1 - 0) * (1 - 0) + (0 - 1) * (0 - 1)) with 2 by ring. pose proof sqrt_2_pos. lra.
Qed.
Lemma rest_face : forall n s kind z0 z1 w e b gp, q_face (pair_mesh n s kind) (at_rest z0 z1 w) 0 e b gp = V3 (if Nat.eqb e 0 then z0 else z1) 0 0.
Proof.
  intros. unfold q_face, expand. change (ndof (pair_mesh n s kind)) with 3%nat. f_equal; rewrite vmsum_rsum; cbn [rsum]; unfold at_rest; cbn [ms_q]; try rewrite phi0; ring.
Qed.
(** Integral of a momentum flux that is constant along the face. *)
Lemma face_const : forall n s kind e bl b u v x, (forall gp, (gp < 2)%nat -> vget (u gp) v = x) ->
  integration_face (pair_mesh n s kind) e bl b u v 0%nat = 2 * half_side (n e) bl * x.
Proof.
  intros n s kind e bl b u v x H. unfold integration_face. rewrite vmsum_rsum. change (ngp1 (pair_mesh n s kind)) with 2%nat. cbn [rsum].
  rewrite !phi0, half_side_J, !H by lia. cbn. ring.
Qed.
Lemma pair_load : forall n s kind st v d, ms_wet st 1%nat = true ->
  lsum (su_visit (unit_at (pair_subs kind) 1)) (fun x => load_con (pair_mesh n s kind) (euler false) 0 (pair_subs kind) st 1 x 1%nat v d) =
  - integration_face (pair_mesh n s kind) 1 0 0 (dface_flux (pair_mesh n s kind) (euler false) 0 st (face_message (pair_mesh n s kind) 0 st (DFace 0 0 kind)) (DFace 1 0 kind)) v d.
Proof.
  intros n s kind st v d W. change (su_visit (unit_at (pair_subs kind) 1)) with [(0, 0)%nat]. unfold lsum. cbn [map fold_right]. rewrite Rplus_0_r.
  unfold load_con, face_load, partner, pos_side. cbn [fst snd]. change (rankb_at (pair_subs kind) 1 0) with (RankB 0 0 [DFace 1 0 kind]). cbn [rb_unit rb_index].
  change (rankb_at (pair_subs kind) 0 0) with (RankB 1 0 [DFace 0 0 kind]). unfold face_of. cbn [rb_faces nth df_elt df_id Nat.eqb]. rewrite W. reflexivity.
Qed.
Lemma pair_serial : forall n s kind st v d, ms_wet st 1%nat = true ->
  lsum [Intf 0 0 1 0 kind] (fun f => int_con (pair_mesh n s kind) (euler false) 0 st f 1%nat v d) =
  - integration_face (pair_mesh n s kind) 0 0 0 (snd (interface_flux (pair_mesh n s kind) (euler false) 0 st (Intf 0 0 1 0 kind))) v d.
Proof.
  intros n s kind st v d W. unfold lsum. cbn [map fold_right]. unfold int_con. cbn [i_in i_ex i_bin i_bex Nat.eqb]. rewrite W, orb_true_r. ring.
Qed.
Lemma euler_weights : st_dt euler_stepper = 1 / 100 /\ Q2R (entry (c_B (euler false)) 0 0) = 1.
Proof. split; [reflexivity|]. change (entry (c_B (euler false)) 0 0) with 1%Q. apply RMicromega.Q2R_1. Qed.

Lemma scaled_error : forall q,
  q - q = st_dt euler_stepper * Q2R (entry (c_B (euler false)) 0 0) *
    (lsum (su_visit (unit_at (pair_subs Internal) 1)) (fun x => load_con (pair_mesh sq_nodes 2 Internal) (euler false) 0 (pair_subs Internal) (at_rest 1 0 true) 1 x 1%nat 1%nat 0%nat) -
     lsum [Intf 0 0 1 0 Internal] (fun f => int_con (pair_mesh sq_nodes 2 Internal) (euler false) 0 (at_rest 1 0 true) f 1%nat 1%nat 0%nat))
    / (2 * Rabs (GetJdet (m_nodes (pair_mesh sq_nodes 2 Internal) 1))) -> False.
Proof.
  intros q H. set (m := pair_mesh sq_nodes 2 Internal) in *. set (st := at_rest 1 0 true) in *. pose proof sqrt_2_pos as S2.
  unfold m in H. rewrite pair_load, pair_serial in H by reflexivity. fold m in H. destruct euler_weights as [-> ->] in H.
  assert (A : forall gp, (gp < 2)%nat -> vget (dface_flux m (euler false) 0 st (face_message m 0 st (DFace 0 0 Internal)) (DFace 1 0 Internal) gp) 1 = - (3 / 4 / sqrt 2)).
  { intros gp Hg. unfold dface_flux, face_message. cbn [df_kind df_elt df_id]. unfold distributed_flux. rewrite loop1_spec. change (ngp1 m) with 2%nat. rewrite (proj2 (Nat.ltb_lt _ _) Hg).
    rewrite decode_wet_message, decode_q_message by exact Hg. unfold m at 1 2, st at 1 2 3 4. rewrite !rest_face. cbn [Nat.eqb at_rest ms_wet].
    unfold m. rewrite sq_normal1. unfold distributed_point. cbn [negb].
    match goal with |- vget (if _ then ?F else if _ then ?F else ?F) 1 = _ => transitivity (vget F 1); [destruct (_ <? _)%num; [reflexivity|destruct (_ <? _)%num; reflexivity]|] end.
    unfold LLF_flux, vscale, vadd, vsub, nsq. num_R. cbn. field. lra. }
  assert (B : forall gp, (gp < 2)%nat -> vget (snd (interface_flux m (euler false) 0 st (Intf 0 0 1 0 Internal)) gp) 1 = - (3 / 2 / sqrt 2)).
  { intros gp Hg. unfold interface_flux. cbn [i_kind i_in i_ex i_bin i_bex].
    pose proof (internal_flux_loop (c_g (euler false)) (ms_wet st 0) (ms_wet st 1) (ngp1 m) (q_face m st 0 0 0) (q_face m st 0 1 0) (m_faux m 0%nat 0%nat) (m_faux m 1%nat 0%nat)
      (fun _ => normal m 0 0) (fun _ => opp (normal m 0 0)) (fun _ => vzero, fun _ => vzero) (ngp1 m - gp - 1)%nat) as L. change (ngp1 m) with 2%nat in *.
    specialize (L ltac:(lia)). replace (2 - (2 - gp - 1) - 1)%nat with gp in L by lia. assert (L2 := f_equal snd L). cbv zeta in L2. cbn [snd] in L2. rewrite L2. clear L L2.
    unfold m, st. rewrite !rest_face. cbn [Nat.eqb at_rest ms_wet]. rewrite sq_normal0. unfold internal_point. cbn [negb].
    match goal with |- vget (snd (if _ then ?F else if _ then ?F else ?F)) 1 = _ => transitivity (vget (snd F) 1); [destruct (_ <? _)%num; [reflexivity|destruct (_ <? _)%num; reflexivity]|] end.
    cbn [snd]. unfold LLF_flux, vneg, vscale, vadd, vsub, nsq. num_R. cbn. field. lra. }
  unfold m in H, A, B. rewrite (face_const _ _ _ _ _ _ _ _ _ A), (face_const _ _ _ _ _ _ _ _ _ B), !sq_half in H by lia.
  assert (J : 2 * Rabs (GetJdet (m_nodes (pair_mesh sq_nodes 2 Internal) 1)) <> 0).
  { assert (X : GetJdet (m_nodes (pair_mesh sq_nodes 2 Internal) 1) <> 0) by (unfold GetJdet, determinant, deformation; cbn; lra). pose proof (Rabs_no_R0 _ X). lra. }
  set (j := 2 * Rabs _) in *. assert (H' : 0 = -3 / 400 / j).
  { replace 0 with (q - q) by ring. rewrite H. field. split; [exact J|lra]. }
  apply (Rmult_eq_compat_r j) in H'. unfold Rdiv at 1 in H'. rewrite Rmult_assoc, Rinv_l in H' by exact J. lra.
Qed.

Lemma levee_error : forall q,
  q - q = st_dt euler_stepper * Q2R (entry (c_B (euler false)) 0 0) *
    (lsum (su_visit (unit_at (pair_subs high_levee) 1)) (fun x => load_con (pair_mesh wide_nodes 1 high_levee) (euler false) 0 (pair_subs high_levee) (at_rest 1 1 true) 1 x 1%nat 1%nat 0%nat) -
     lsum [Intf 0 0 1 0 high_levee] (fun f => int_con (pair_mesh wide_nodes 1 high_levee) (euler false) 0 (at_rest 1 1 true) f 1%nat 1%nat 0%nat))
    / (2 * Rabs (GetJdet (m_nodes (pair_mesh wide_nodes 1 high_levee) 1))) -> False.
Proof.
  intros q H. set (m := pair_mesh wide_nodes 1 high_levee) in *. set (st := at_rest 1 1 true) in *. pose proof sqrt_2_pos as S2.
  unfold m in H. rewrite pair_load, pair_serial in H by reflexivity. fold m in H. destruct euler_weights as [-> ->] in H.
  assert (B : forall gp, (gp < 2)%nat -> vget (snd (interface_flux m (euler false) 0 st (Intf 0 0 1 0 high_levee)) gp) 1 = - (3 / 2 / sqrt 2)).
  { intros gp Hg. unfold interface_flux. cbn [i_kind i_in i_ex i_bin i_bex high_levee]. rewrite levee_loop. change (ngp1 m) with 2%nat.
    assert (Hg' : (2 - gp - 1 < 2)%nat) by lia. destruct (loop2_spec _ _ 2 (fun g _ _ => levee_point (c_g (euler false)) 1000 1 1 (ms_wet st 0) (ms_wet st 1) (q_face m st 0 0 0 g)
      (q_face m st 0 1 0 (2 - g - 1)%nat) (m_faux m 0%nat 0%nat g) (m_faux m 1%nat 0%nat (2 - g - 1)%nat) (normal m 0 0) (opp (normal m 0 0))) (fun _ => vzero, fun _ => vzero) _ Hg') as [_ L2].
    replace (2 - (2 - gp - 1) - 1)%nat with gp in L2 by lia. etransitivity; [exact (f_equal (fun v => vget v 1) L2)|]. clear L2.
    unfold m, st. rewrite !rest_face. cbn [Nat.eqb at_rest ms_wet]. rewrite wide_normal0. unfold levee_point, levee_tol. num_R. cbn [ze].
    rewrite !(Rleb_true (1 - 1000)) by lra. cbn [andb orb snd]. unfold LLF_flux, land_ex, vneg, vscale, vadd, vsub, nsq, opp. num_R. cbn. field. lra. }
  assert (A : forall gp, (gp < 2)%nat -> vget (dface_flux m (euler false) 0 st (face_message m 0 st (DFace 0 0 high_levee)) (DFace 1 0 high_levee) gp) 1 = - (3 / 2 / sqrt 2)).
  { intros gp Hg. rewrite <- (B gp Hg). f_equal.
    apply (cut_flux m (euler false) 0 st (Intf 0 0 1 0 high_levee) (DFace 0 0 high_levee) (DFace 1 0 high_levee)).
    - exact (wide_opposite 1 high_levee).
    - discriminate.
    - split; [reflexivity|]. split; [reflexivity|]. cbn. do 2 eexists. split; [reflexivity|]. split; [reflexivity|]. intros; split; reflexivity.
    - exact Hg. }
  unfold m in H, A, B. rewrite (face_const _ _ _ _ _ _ _ _ _ A), (face_const _ _ _ _ _ _ _ _ _ B), wide_half in H.
  pose proof wide_half_pos as Hp. set (h := half_side (wide_nodes 0) 0) in *.
  assert (J : 2 * Rabs (GetJdet (m_nodes (pair_mesh wide_nodes 1 high_levee) 1)) <> 0).
  { assert (X : GetJdet (m_nodes (pair_mesh wide_nodes 1 high_levee) 1) <> 0) by (unfold GetJdet, determinant, deformation; cbn; lra). pose proof (Rabs_no_R0 _ X). lra. }
  set (j := 2 * Rabs _) in *. assert (H' : 0 = 3 / 100 * (h / sqrt 2) / j).
  { replace 0 with (q - q) by ring. rewrite H. field. split; [lra|exact J]. }
  apply (Rmult_eq_compat_r j) in H'. unfold Rdiv at 1 in H'. rewrite Rmult_assoc, Rinv_l in H' by exact J.
  pose proof (Rdiv_lt_0_compat _ _ Hp S2). lra.
Qed.

Lemma run_par_serial_start : forall m c subs cuts N us st stp, stage_ok m c -> decomposes m subs cuts -> (forall f, In f cuts -> conforming m f) ->
  sizes_fit m subs ->
  (forall i r, (i < length subs)%nat -> (r < length (su_rankbs (unit_at subs i)))%nat -> u_send (us i) r = init_send m subs i r) ->
  distributes subs us st -> (st_stage stp < st_nstages stp)%nat ->
  exists st' us' stp', ofold (fun s _ => step_serial m c s) (seq 0 N) (st, stp) = Ok (st', stp') /\
    ofold (fun s _ => step_par m c subs s) (seq 0 N) (us, stp) = Ok (us', stp') /\ distributes subs us' st'.
Proof.
  intros m c subs cuts N us st stp OK D Cf Fit B Hd Hk.
  destruct (run_par_serial m c subs cuts N us st stp OK D Cf Fit (init_sized RKDG m subs us B) Hd Hk) as (st' & us' & stp' & E & F & G & _).
  exists st', us', stp'. split; [exact E|]. split; [exact F|exact G].
Qed.

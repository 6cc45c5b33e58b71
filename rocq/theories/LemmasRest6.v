(** Example meshes for the lake at rest. *)
From Coq Require Import Reals QArith Qreals List Bool Arith Lra Lia Permutation.
From Coquelicot Require Import Coquelicot.
From Verif Require Import Num ModelPi LemmasPi ModelSWE SpecSWE Outcome LemmasPart ModelShape SpecShape ModelBasis SpecBasis SpecStepper LemmasRK LemmasRK2 LemmasStepper LemmasSWE LemmasShape LemmasBasis LemmasBasis2 LemmasBasis3 LemmasBasis4 ModelJac ModelStepper ModelWetDry SpecWetDry LemmasWetDry ModelSlope LemmasSlope ModelStep SpecStep LemmasStep ModelInit SpecRest LemmasRest1 LemmasRest2 LemmasRest3 LemmasRest4 LemmasRest5.
Import ListNotations.
Open Scope R_scope.

Lemma mono_triangle : forall i j, is_triangle_int (fun x y => x ^ i * y ^ j)
  (/ INR (S i) * ((-1) ^ S i * moment (S i + j) - (-1) ^ S i * ((-1) ^ j * moment j))).
Proof.
  intros i j. apply (triangle_ext (fun x y => / INR (S i) * (INR (S i) * (x ^ i * y ^ j)))).
  - intros x y _. field. apply INR_S_nz.
  - apply tint_scal. exact (dx_triangle (S i) j).
Qed.

(** Rules of degree 2 and 3. *)
Definition rule2_2 : list (R * point) := [(2 / 3, (-2 / 3, 1 / 3)); (2 / 3, (1 / 3, -2 / 3)); (2 / 3, (-2 / 3, -2 / 3))].
Definition rule1_3 : list (R * R) := [(1, - sqrt (1 / 3)); (1, sqrt (1 / 3))].
Lemma rule2_2_exact : exact2 2 rule2_2.
Proof.
  intros i j H. pose proof (mono_triangle i j) as M.
  assert (E : (/ INR (S i) * ((-1) ^ S i * moment (S i + j) - (-1) ^ S i * ((-1) ^ j * moment j))) =
    rsum (length rule2_2) (fun gp => fst (nth gp rule2_2 (0, (0, 0))) * (fst (snd (nth gp rule2_2 (0, (0, 0)))) ^ i * snd (snd (nth gp rule2_2 (0, (0, 0)))) ^ j))); [|rewrite <- E; exact M].
  destruct i as [|[|[|i]]]; [| | |lia]; (destruct j as [|[|[|j]]]; [| | |lia]); try lia; unfold moment, rule2_2; cbn; field.
Qed.
Lemma rule1_3_exact : exact1 3 rule1_3.
Proof.
  intros k H. pose proof (int_moment k) as M. assert (S2 : sqrt (1 / 3) * sqrt (1 / 3) = 1 / 3) by (apply sqrt_sqrt; lra).
  assert (E : moment k = rsum (length rule1_3) (fun gp => fst (nth gp rule1_3 (0, 0)) * snd (nth gp rule1_3 (0, 0)) ^ k)); [|rewrite <- E; exact M].
  unfold moment, rule1_3. cbn [length rsum nth fst snd]. set (s := sqrt (1 / 3)) in *.
  destruct k as [|[|[|[|k]]]]; [| | | |lia]; cbn.
  - field.
  - field.
  - replace (0 + 1 * (- s * (- s * 1)) + 1 * (s * (s * 1))) with (2 * (s * s)) by ring. rewrite S2. field.
  - field.
Qed.
Lemma rule1_3_sym : symmetric_points rule1_3.
Proof.
  assert (S1 : Rabs (sqrt (1 / 3)) <= 1).
  { rewrite Rabs_pos_eq by apply sqrt_pos. apply (Rle_trans _ (sqrt 1)); [apply sqrt_le_1; lra|rewrite sqrt_1; lra]. }
  intros gp H. destruct gp as [|[|gp]]; [| |cbn in H; lia]; cbn; rewrite ?Rabs_Ropp; split; try ring; exact S1.
Qed.
Lemma rule2_2_off : off_line rule2_2.
Proof. intros gp H. destruct gp as [|[|[|gp]]]; [| | |cbn in H; lia]; left; cbn; lra. Qed.

(** Two triangles of the unit square over a sloping bed. *)
Definition lake_nodes (e : nat) : nodes := fun i => match e, i with
  | 0%nat, 0%nat => (0, 0) | 0%nat, 1%nat => (1, 0) | 0%nat, _ => (0, 1)
  | _, 0%nat => (1, 1) | _, 1%nat => (0, 1) | _, _ => (1, 0) end.
Definition lake_z (e : nat) (v : nat) : R := match e, v with
  | 0%nat, 0%nat => 1 | 0%nat, 1%nat => 2 | 0%nat, _ => 3
  | _, 0%nat => 5 | _, 1%nat => 3 | _, _ => 2 end.
Definition lake (c : R) : input := Input 2 1 lake_nodes lake_z rule2_2 rule1_3 (fun _ => SourceIn true 1 true 1) None
  [Intf 0 0 1 0 Internal] [Bnd 0 1 Land; Bnd 0 2 Land; Bnd 1 1 (Exterior (fun _ _ _ q => q)); Bnd 1 2 Land]
  None (V3 c 0 0) 10 0 1.
Lemma lake_ok : forall c, conforming (lake c) /\ unforced (lake c) c.
Proof.
  intros c. split; constructor; cbn.
  - lia.
  - exact rule2_2_exact.
  - exact rule1_3_exact.
  - exact rule2_2_off.
  - exact rule1_3_sym.
  - intros e He. destruct e as [|[|e]]; [| |lia]; unfold orient, lake_nodes; cbn; lra.
  - change [(0, 0); (1, 0); (0, 1); (0, 2); (1, 1); (1, 2)]%nat with ([(0, 0)] ++ (1, 0) :: [(0, 1); (0, 2); (1, 1); (1, 2)])%nat.
    change [(0, 0); (0, 1); (0, 2); (1, 0); (1, 1); (1, 2)]%nat with ([(0, 0)] ++ [(0, 1); (0, 2)] ++ (1, 0) :: [(1, 1); (1, 2)])%nat.
    apply Permutation_app_head. exact (Permutation_middle [(0, 1); (0, 2)]%nat [(1, 1); (1, 2)]%nat (1, 0)%nat).
  - intros f [<-|[]]. cbn. unfold vsub. cbn. f_equal; ring.
  - intros f [<-|[]] _. cbn. split; reflexivity.
  - intros b [<-|[<-|[<-|[<-|[]]]]]; cbn; try exact I. reflexivity.
  - reflexivity.
  - reflexivity.
Qed.

(** One triangle, flat bed, walls all around, spherical projection about 60 degrees
    on a sphere of radius 10. *)
Definition globe : input := Input 1 1 lake_nodes (fun _ _ => 1) rule2_2 rule1_3 (fun _ => SourceIn false 0 false 0) None
  [] [Bnd 0 0 Land; Bnd 0 1 Land; Bnd 0 2 Land] (Some (10, 60)) (V3 1 0 0) 1 0 1.
Lemma globe_ok : conforming globe.
Proof.
  constructor; cbn.
  - lia.
  - exact rule2_2_exact.
  - exact rule1_3_exact.
  - exact rule2_2_off.
  - exact rule1_3_sym.
  - intros e He. destruct e as [|e]; [|lia]; unfold orient, lake_nodes; cbn; lra.
  - apply Permutation_refl.
  - intros f [].
  - intros f [].
Qed.
Definition globe_cfg : config := Config 1 [[1%Q]] [[1%Q]] false 0 0 false.
Lemma globe_sp : forall y, 0 <= y <= 1 -> 499 / 1000 <= sp_at globe y <= 72 / 100.
Proof.
  intros y Hy. unfold sp_at. cbn [in_sph globe].
  assert (C0 : 499 / 1000 <= cos (60 * code_pi / 180) <= 501 / 1000).
  { pose proof (cos_lip (60 * code_pi / 180) (PI / 3)) as L. rewrite cos_PI3 in L. pose proof pi_below. pose proof pi_close.
    rewrite (Rabs_pos_eq (60 * code_pi / 180 - PI / 3)) in L by lra. unfold Rabs in L. destruct (Rcase_abs _) in L; lra. }
  set (c0 := cos (60 * code_pi / 180)) in *.
  assert (P4 : 1 / 10 <= PI / 4) by (pose proof PI2_3_2; lra).
  assert (C1 : cos (y / 10) <= 1) by apply COS_bound.
  assert (C2 : cos (PI / 4) <= cos (y / 10)).
  { destruct (Req_dec (y / 10) (PI / 4)) as [->|N]; [lra|]. left. apply cos_decreasing_1; pose proof PI_RGT_0; lra. }
  rewrite cos_PI4 in C2.
  assert (Q : 7 / 10 <= 1 / sqrt 2).
  { assert (0 < sqrt 2) by (apply sqrt_lt_R0; lra). assert (S2 : sqrt 2 * sqrt 2 = 2) by (apply sqrt_sqrt; lra).
    apply (Rmult_le_reg_r (sqrt 2)); [assumption|]. unfold Rdiv. rewrite Rmult_1_l, Rinv_l by lra. nra. }
  assert (Cp : 0 < cos (y / 10)) by lra. split.
  - apply (Rmult_le_reg_r (cos (y / 10))); [exact Cp|]. replace (c0 / cos (y / 10) * cos (y / 10)) with c0 by (field; lra). lra.
  - apply (Rmult_le_reg_r (cos (y / 10))); [exact Cp|]. replace (c0 / cos (y / 10) * cos (y / 10)) with c0 by (field; lra). lra.
Qed.

(** The right-hand side of the qx row, linear mode in x. *)
Definition globe_state : mstate := MState (fun e => upd (fun _ _ _ => 0) 0 (init_q globe e)) (fun _ _ _ _ => 0) (fun _ _ _ _ => 0) (fun _ => true) (fun _ => false)
                (SlMesh (fun _ _ => false) (fun _ _ _ => 0)).
Lemma globe_calm : calm globe 1 0 globe_state.
Proof.
  destruct (initial_rest globe globe_cfg (fun _ _ _ _ => 0) 1 globe_ok eq_refl) as [st [E H]]; [discriminate|].
  injection E as <-. exact H.
Qed.
Lemma globe_split : forall t, ms_rhs (rhs_kernels (init_mesh globe) globe_cfg t 0 globe_state) 0%nat 0%nat 1%nat 2%nat =
  let m := init_mesh globe in
  let st := globe_state in
  let F gp := get_F (c_g globe_cfg) (q_gp m st 0 0 gp) (aux_gp m st 0 0 gp) in
  integration_dphi m 0 fst (fun gp => vscale (sp (m_aux m 0%nat gp)) (fst (F gp))) 1%nat 2%nat + integration_dphi m 0 snd (fun gp => snd (F gp)) 1%nat 2%nat +
  integration_phi m 0 (source_at m globe_cfg t 0 st 0) 1%nat 2%nat -
  integration_face m 0 0 0 (boundary_flux m globe_cfg t 0 st (Bnd 0 0 Land)) 1%nat 2%nat -
  integration_face m 0 1 1 (boundary_flux m globe_cfg t 0 st (Bnd 0 1 Land)) 1%nat 2%nat -
  integration_face m 0 2 2 (boundary_flux m globe_cfg t 0 st (Bnd 0 2 Land)) 1%nat 2%nat.
Proof. intros t. reflexivity. Qed.
Lemma globe_y : forall z, -1 <= snd z <= 1 -> 499 / 1000 <= sp_at globe (y_at globe 0 z) <= 72 / 100.
Proof. intros [x y] H. apply globe_sp. unfold y_at. cbn in *. lra. Qed.
Lemma globe_LLF : forall s n, land_flux (c_g globe_cfg) n (V3 1 0 0) (Aux 1 0 s) = V3 0 (3 / 2 * ((s + 1) / 2) * nx n) (3 / 2 * ny n).
Proof.
  intros s n. unfold land_flux. rewrite (land_ex_rest 1). unfold LLF_flux, vscale, vadd, ModelSWE.vsub. num_R. cbn [c_g globe_cfg ze qx qy bath sp].
  match goal with |- context [Rmax ?a ?b] => generalize (Rmax a b) end. intros l.
  apply vec3_eq; cbn [ze qx qy]; field.
Qed.
Lemma globe_rhs : forall t, ms_rhs (rhs_kernels (init_mesh globe) globe_cfg t 0 globe_state) 0%nat 0%nat 1%nat 2%nat <= - (1 / 25).
Proof.
  intros t. rewrite globe_split. cbv beta zeta. set (m := init_mesh globe).
  assert (Q : forall z, expand m (ms_q globe_state 0%nat 0%nat) z = V3 1 0 0) by (intros z; apply (expand_rest globe globe_ok 1), (globe_calm 0%nat); cbn; lia).
  assert (B1 : forall z, ok_point z -> value_at globe (bath_dofs globe 0) z = 1).
  { intros z O. rewrite (value_bath globe globe_ok 0 z ltac:(cbn; lia) O). unfold B. cbn. field. }
  assert (A2 : forall gp, (gp < 3)%nat -> m_aux m 0%nat gp = Aux 1 0 (sp_at globe (y_at globe 0 (snd (gp2 globe gp))))).
  { intros gp Hg. cbn [m m_aux init_mesh]. unfold init_aux. rewrite B1; [reflexivity|exact (cf_off globe globe_ok gp Hg)]. }
  assert (S2 : forall gp, (gp < 3)%nat -> 499 / 1000 <= sp_at globe (y_at globe 0 (snd (gp2 globe gp))) <= 72 / 100).
  { intros gp Hg. apply globe_y. destruct gp as [|[|[|gp]]]; [| | |lia]; cbn; lra. }
  assert (J4 : GetJdet (lake_nodes 0) = 1 / 4) by (destruct (jacobian_area (lake_nodes 0)) as [-> ->]; unfold orient; cbn; field).
  assert (Dx : forall z, ok_point z -> fst (physical_derivative (lake_nodes 0) (GetDPhi 2 z)) = 2).
  { intros z O. rewrite (proj2 (dphi_three z O)). unfold physical_derivative, GetJinv, inverse. fold (GetJdet (lake_nodes 0)). rewrite J4. cbn. field. }
  assert (V1 : integration_dphi m 0 fst (fun gp => vscale (sp (m_aux m 0%nat gp)) (fst (get_F (c_g globe_cfg) (q_gp m globe_state 0 0 gp) (aux_gp m globe_state 0 0 gp)))) 1%nat 2%nat <= 108 / 100).
  { unfold integration_dphi, ngp2. change (m_rule2 m) with rule2_2. change (length rule2_2) with 3%nat. change (m_nodes m 0%nat) with (lake_nodes 0). rewrite J4, Rabs_pos_eq by lra.
    assert (T : forall gp, (gp < 3)%nat -> vget (vscale (sp (m_aux m 0%nat gp)) (fst (get_F (c_g globe_cfg) (q_gp m globe_state 0 0 gp) (aux_gp m globe_state 0 0 gp)))) 1 *
       (w2 m gp * fst (physical_derivative (lake_nodes 0) (GetDPhi 2 (z2 m gp))) * (1 / 4)) <= 36 / 100).
    { intros gp Hg. unfold aux_gp, q_gp. rewrite Q, (A2 gp Hg), (Dx (z2 m gp)) by exact (cf_off globe globe_ok gp Hg). specialize (S2 gp Hg).
      set (s := sp_at _ _) in *. replace (w2 m gp) with (2 / 3) by (destruct gp as [|[|[|gp]]]; [reflexivity|reflexivity|reflexivity|lia]).
      match goal with |- ?x * _ <= _ => replace x with (s * (3 / 2)); [lra|] end.
      unfold get_F, vscale. num_R. cbn [vget fst snd ze qx qy bath hh sp c_g globe_cfg]. field. }
    cbn [vmsum]. pose proof (T 0%nat ltac:(lia)). pose proof (T 1%nat ltac:(lia)). pose proof (T 2%nat ltac:(lia)). lra. }
  assert (V2 : integration_dphi m 0 snd (fun gp => snd (get_F (c_g globe_cfg) (q_gp m globe_state 0 0 gp) (aux_gp m globe_state 0 0 gp))) 1%nat 2%nat = 0).
  { unfold integration_dphi. rewrite vmsum_rsum. apply rsum_const0. intros gp _. unfold q_gp. rewrite Q. unfold get_F. num_R. cbn. unfold Rdiv. ring. }
  assert (V3' : integration_phi m 0 (source_at m globe_cfg t 0 globe_state 0) 1%nat 2%nat = 0).
  { unfold integration_phi. rewrite vmsum_rsum. apply rsum_const0. intros gp Hg. unfold source_at, get_source. cbn [m m_src m_fs init_mesh in_src in_fs globe s_bottom_friction option_map].
    unfold q_gp. fold m. rewrite Q. change (m_db m 0%nat gp) with (init_db globe 0 gp). unfold init_db. 
    rewrite (slope_bath globe globe_ok 0) by (try (cbn; lia); try tauto; exact (cf_off globe globe_ok gp Hg)). unfold Bx, By, physical_derivative. cbn. unfold Rdiv. ring. }
  set (r := sqrt (1 / 3)). assert (R01 : 0 <= r <= 1).
  { split; [apply sqrt_pos|]. apply (Rle_trans _ (sqrt 1)); [apply sqrt_le_1; lra|rewrite sqrt_1; lra]. }
  assert (Fx : forall b gp, (b < 3)%nat -> (gp < 2)%nat -> m_faux m 0%nat b gp = Aux 1 0 (sp_at globe (y_at globe 0 (face_point globe b gp)))).
  { intros b gp Hb Hg. rewrite <- (B1 (face_point globe b gp) (face_ok b _)).
    destruct b as [|[|[|b]]]; [| | |lia]; (destruct gp as [|[|gp]]; [reflexivity|reflexivity|lia]). }
  assert (Sf : forall b gp, (b < 3)%nat -> (gp < 2)%nat -> 499 / 1000 <= sp_at globe (y_at globe 0 (face_point globe b gp)) <= 72 / 100).
  { intros b gp Hb Hg. apply globe_y. unfold r in R01. destruct b as [|[|[|b]]]; [| | |lia]; (destruct gp as [|[|gp]]; [| |lia]); cbn; lra. }
  assert (Fa : forall b, (b < 3)%nat -> integration_face m 0 b b (boundary_flux m globe_cfg t 0 globe_state (Bnd 0 b Land)) 1%nat 2%nat =
    fst (nvec globe 0 b) * (3 / 2) * ((sp_at globe (y_at globe 0 (face_point globe b 0)) + 1) / 2 * GetPhi 2 (face_point globe b 0) +
                           (sp_at globe (y_at globe 0 (face_point globe b 1)) + 1) / 2 * GetPhi 2 (face_point globe b 1))).
  { intros b Hb. destruct (normal_scaled globe globe_ok 0 b ltac:(cbn; lia) Hb) as [N1 _]. unfold integration_face, ngp1. change (m_rule1 m) with rule1_3. change (length rule1_3) with 2%nat.
    cbn [vmsum]. unfold boundary_flux. cbn [b_elt b_id b_bc]. unfold q_face. rewrite !Q, !Fx by lia. rewrite !globe_LLF. cbn [vget ze qx qy].
    change (w1 m 0) with 1. change (w1 m 1) with 1. change (BoundaryToMasterCoordinates b (z1 m 0)) with (face_point globe b 0). change (BoundaryToMasterCoordinates b (z1 m 1)) with (face_point globe b 1).
    change (m_nodes m 0%nat) with (in_nodes globe 0%nat). fold m in N1. rewrite <- N1. ring. }
  assert (P2 : forall b gp, GetPhi 2 (face_point globe b gp) = fst (face_point globe b gp) + (snd (face_point globe b gp) + 1) / 2).
  { intros b gp. destruct (first_three (face_point globe b gp) (face_ok b _)) as [_ [_ ->]]. field. }
  rewrite V2, V3'. rewrite !Fa by lia. rewrite !P2. 
  pose proof (Sf 0%nat 0%nat ltac:(lia) ltac:(lia)) as S00. pose proof (Sf 0%nat 1%nat ltac:(lia) ltac:(lia)) as S01.
  pose proof (Sf 1%nat 0%nat ltac:(lia) ltac:(lia)) as S10. pose proof (Sf 1%nat 1%nat ltac:(lia) ltac:(lia)) as S11.
  set (s00 := sp_at globe (y_at globe 0 (face_point globe 0 0))) in *. set (s01 := sp_at globe (y_at globe 0 (face_point globe 0 1))) in *.
  set (s10 := sp_at globe (y_at globe 0 (face_point globe 1 0))) in *. set (s11 := sp_at globe (y_at globe 0 (face_point globe 1 1))) in *.
  change (nvec globe 0 0) with ((1 - 0) / 2, - (0 - 1) / 2). change (nvec globe 0 1) with ((0 - 1) / 2, - (0 - 0) / 2). change (nvec globe 0 2) with ((0 - 0) / 2, - (1 - 0) / 2).
  change (face_point globe 0 0) with (BoundaryToMasterCoordinates 0 (- r)). change (face_point globe 0 1) with (BoundaryToMasterCoordinates 0 r).
  change (face_point globe 1 0) with (BoundaryToMasterCoordinates 1 (- r)). change (face_point globe 1 1) with (BoundaryToMasterCoordinates 1 r).
  cbn [BoundaryToMasterCoordinates fst snd]. 
  set (v1 := integration_dphi _ _ _ _ _ _) in *.
 
  nra.
Qed.

(** One forward Euler step sets the water in motion. *)
Lemma globe_step : forall stp, st_nstages stp = 1%nat -> st_stage stp = 0%nat -> 0 < st_dt stp ->
  exists st' stp', step_serial (init_mesh globe) globe_cfg (globe_state, stp) = Ok (st', stp') /\ ms_q st' 0%nat 0%nat 1%nat 2%nat <= - (12 / 25) * st_dt stp.
Proof.
  intros stp En E0 Hdt. unfold step_serial. cbn [snd]. rewrite En. unfold stages. cbn [seq ofold]. unfold stage_serial. rewrite E0, En.
  cbn [c_wd c_sl globe_cfg bind]. eexists. eexists. split; [reflexivity|].
  set (m := init_mesh globe). set (t := time_at_stage stp).
  pose proof (update_loop m globe_cfg (st_dt stp) 1 0 (m_n m) (rhs_kernels m globe_cfg t 0 globe_state) ltac:(lia)) as Up. cbv zeta in Up.
  destruct Up as [U _]. destruct (U 0%nat ltac:(cbn; lia)) as (_ & E & _). change ((0 + 1) mod 1)%nat with 0%nat in E.
  rewrite E. unfold newrow. rewrite next_state_sum. cbn [fst snd]. unfold newsol.
  assert (S1 : same_state (rhs_kernels m globe_cfg t 0 globe_state) globe_state) by apply rhs_same. destruct S1 as (Q1 & _).
  rewrite Q1. unfold rsum. rewrite upd_same. destruct (globe_calm 0%nat ltac:(cbn; lia)) as [R0 _].
  rewrite (R0 1%nat 2%nat ltac:(lia) ltac:(cbn; lia)). cbn [Nat.eqb andb].
  replace (Q2R (entry (c_A globe_cfg) 0 0)) with 1 by (cbn; unfold Q2R; cbn; lra).
  replace (Q2R (entry (c_B globe_cfg) 0 0)) with 1 by (cbn; unfold Q2R; cbn; lra).
  pose proof (globe_rhs t) as G. fold m in G.
  assert (M : apply_minv m 0 (ms_rhs (rhs_kernels m globe_cfg t 0 globe_state) 0%nat 0%nat) 1%nat 2%nat = 12 * ms_rhs (rhs_kernels m globe_cfg t 0 globe_state) 0%nat 0%nat 1%nat 2%nat).
  { unfold apply_minv. generalize (ms_rhs (rhs_kernels m globe_cfg t 0 globe_state) 0%nat 0%nat). intros f. change (ndof m) with 3%nat. cbn [vmsum].
    assert (J4 : GetJdet (lake_nodes 0) = 1 / 4) by (destruct (jacobian_area (lake_nodes 0)) as [-> ->]; unfold orient; cbn; field).
    unfold element_minv. change (m_nodes m 0%nat) with (lake_nodes 0). rewrite J4, Rabs_pos_eq by lra.
    unfold GetMinv. cbn [Nat.eqb]. destruct pq_values as (_ & _ & P2). assert (P := f_equal fst P2). assert (Q := f_equal snd P2). cbn [fst snd] in P, Q. rewrite P, Q. unfold uint. cbn. field. }
  rewrite M. nra.
Qed.

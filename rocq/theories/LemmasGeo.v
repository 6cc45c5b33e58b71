(** Proofs: projection, distortion factor, Coriolis parameter. *)
From Coq Require Import Reals List Bool Arith Lra Lia Permutation.
From Coquelicot Require Import Hierarchy Derive AutoDerive.
From Verif Require Import Num ModelPi LemmasPi Outcome ModelSWE ModelShape SpecShape LemmasShape ModelBasis ModelStep SpecRest ModelInit ModelGeo SpecGeo.
Import ListNotations.
Open Scope R_scope.

Lemma rad_code : forall x, rad x = x * code_pi / 180.
Proof. intros x. unfold rad, code_pi. field. Qed.
Lemma code_pi_pos : 3 < code_pi < 4.
Proof. unfold code_pi. lra. Qed.
Lemma rad_pos : forall x, 0 < x -> 0 < rad x.
Proof. intros x H. unfold rad. nra. Qed.
Lemma rad_below : forall lat, below_pole lat -> - (PI / 2) < rad lat < PI / 2.
Proof.
  intros lat H. unfold below_pole in H. pose proof (Rle_abs lat). pose proof (Rle_abs (- lat)) as H1. rewrite Rabs_Ropp in H1.
  rewrite rad_code. pose proof pi_below. pose proof pi_close. pose proof code_pi_pos. set (A := 90 - 1 / 100000000000) in *.
  assert (K : A * (code_pi / 180) < PI / 2) by (unfold A; lra).
  assert (K1 : lat * (code_pi / 180) <= A * (code_pi / 180)) by (apply Rmult_le_compat_r; lra).
  assert (K2 : - lat * (code_pi / 180) <= A * (code_pi / 180)) by (apply Rmult_le_compat_r; lra).
  replace (lat * code_pi / 180) with (lat * (code_pi / 180)) by field. lra.
Qed.
Lemma cos_rad_pos : forall lat, below_pole lat -> 0 < cos (rad lat).
Proof. intros lat H. destruct (rad_below lat H). apply cos_gt_0; lra. Qed.

(** ** The projection *)
Definition flat (c : R * R * R) : pt := fst c.
Lemma project_xy : forall p c, fst (project_node p c) = (pr_R p * cos (rad (pr_lat p)) * rad (fst (fst c) - pr_lon p), pr_R p * rad (snd (fst c))).
Proof. intros p c. unfold project_node, R_o. cbn [fst]. rewrite !rad_code. f_equal; field. Qed.
Lemma project_orient : forall p a b c,
  orient (fst (project_node p a)) (fst (project_node p b)) (fst (project_node p c)) =
  pr_R p * pr_R p * cos (rad (pr_lat p)) * (rad 1 * rad 1) * orient (fst a) (fst b) (fst c).
Proof. intros p a b c. rewrite !project_xy. unfold orient, rad. cbn [fst snd]. ring. Qed.
Lemma project_positive : forall p a b c, 0 < pr_R p -> below_pole (pr_lat p) ->
  (0 < orient (fst a) (fst b) (fst c) <-> 0 < orient (fst (project_node p a)) (fst (project_node p b)) (fst (project_node p c))).
Proof.
  intros p a b c H L. rewrite project_orient. pose proof (cos_rad_pos _ L). pose proof (rad_pos 1 ltac:(lra)).
  assert (K : 0 < pr_R p * pr_R p * cos (rad (pr_lat p)) * (rad 1 * rad 1)) by (repeat first [assumption | apply Rmult_lt_0_compat]).
  split; intros O.
  - apply Rmult_lt_0_compat; assumption.
  - apply (Rmult_lt_reg_l _ _ _ K). rewrite Rmult_0_r. exact O.
Qed.
Lemma project_inj : forall p a b, 0 < pr_R p -> below_pole (pr_lat p) -> project_node p a = project_node p b -> a = b.
Proof.
  intros p [[xa ya] za] [[xb yb] zb] H L E. pose proof (f_equal fst E) as E1. pose proof (f_equal snd E) as E2. rewrite !project_xy in E1. cbn [fst snd project_node] in *.
  injection E1 as Ex Ey. pose proof (cos_rad_pos _ L). pose proof (rad_pos 1 ltac:(lra)) as R1.
  assert (K : 0 < pr_R p * cos (rad (pr_lat p))) by (apply Rmult_lt_0_compat; assumption).
  apply Rmult_eq_reg_l in Ex; [|lra]. apply Rmult_eq_reg_l in Ey; [|lra]. unfold rad in Ex, Ey. f_equal; [f_equal|exact E2]; lra.
Qed.
Lemma cos_90 : cos (rad 90) < 0 /\ - (2 / 10000000000000) < cos (rad 90).
Proof.
  rewrite rad_code. replace (90 * code_pi / 180) with (PI / 2 + (code_pi - PI) / 2) by field. rewrite cos_plus, cos_PI2, sin_PI2.
  pose proof pi_below. pose proof pi_close. set (d := (code_pi - PI) / 2). assert (0 < d < 2 / 10000000000000) by (unfold d; lra).
  assert (0 < sin d) by (apply sin_gt_0; [lra|pose proof PI2_3_2; lra]). assert (sin d < d) by (apply sin_lt_x; lra). lra.
Qed.
Lemma project_mirror : forall p a b c, 0 < pr_R p -> pr_lat p = 90 -> 0 < orient (fst a) (fst b) (fst c) ->
  orient (fst (project_node p a)) (fst (project_node p b)) (fst (project_node p c)) < 0.
Proof.
  intros p a b c H L O. rewrite project_orient, L. pose proof (rad_pos 1 ltac:(lra)). destruct cos_90 as [N _].
  assert (K : 0 < pr_R p * pr_R p * (rad 1 * rad 1) * orient (fst a) (fst b) (fst c)) by (repeat first [assumption | apply Rmult_lt_0_compat]).
  set (k := pr_R p * pr_R p * (rad 1 * rad 1) * orient (fst a) (fst b) (fst c)) in *.
  replace (_ * orient (fst a) (fst b) (fst c)) with (k * cos (rad 90)) by (unfold k; ring). nra.
Qed.
Lemma mesh_kept : forall s p nodes, map fst (preprocess_mesh_data s p nodes) = map fst nodes /\
  map (fun n => snd (snd n)) (preprocess_mesh_data s p nodes) = map (fun n => snd (snd n)) nodes.
Proof.
  intros s p nodes. unfold preprocess_mesh_data. destruct s; [|split; reflexivity]. rewrite !map_map. split; reflexivity.
Qed.
Lemma mesh_image : forall p nodes id c, In (id, c) nodes -> In (id, project_node p c) (preprocess_mesh_data true p nodes).
Proof. intros p nodes id c H. cbn. apply in_map_iff. exists (id, c). split; [reflexivity|exact H]. Qed.

(** ** Distances and the distortion factor *)
Definition factor (p : projection) (y : R) : R := distortion (pr_R p) (pr_lat p) y.
Lemma sp_factor : forall i p, in_sph i = Some (pr_R p, pr_lat p) -> forall y, sp_at i y = factor p y.
Proof. intros i p H y. unfold sp_at, factor, distortion. rewrite H, rad_code. reflexivity. Qed.
Lemma factor_lat : forall p lat, pr_R p <> 0 -> factor p (pr_R p * rad lat) = cos (rad (pr_lat p)) / cos (rad lat).
Proof. intros p lat H. unfold factor, distortion. f_equal. f_equal. field. exact H. Qed.
Lemma meridian : forall p lon lat lat' z z', snd (fst (project_node p (lon, lat', z'))) - snd (fst (project_node p (lon, lat, z))) = meridian_arc (pr_R p) (lat' - lat) /\
  fst (fst (project_node p (lon, lat', z'))) = fst (fst (project_node p (lon, lat, z))).
Proof. intros. rewrite !project_xy. unfold meridian_arc, rad. cbn [fst snd]. split; ring. Qed.
Lemma parallel : forall i p lon lon' lat z z', in_sph i = Some (pr_R p, pr_lat p) -> 0 < pr_R p -> below_pole lat ->
  fst (fst (project_node p (lon', lat, z'))) - fst (fst (project_node p (lon, lat, z))) =
  sp_at i (snd (fst (project_node p (lon, lat, z)))) * parallel_arc (pr_R p) lat (lon' - lon).
Proof.
  intros i p lon lon' lat z z' E H L. rewrite !project_xy. cbn [fst snd]. rewrite (sp_factor i p E), factor_lat by lra. pose proof (cos_rad_pos _ L).
  unfold parallel_arc. unfold rad at 2 4 8. field. lra.
Qed.
(** Rates of change per metre on the sphere are those of the map times the factor. *)
Lemma rate_east : forall i p (h : R -> R -> R) lon lat z d, in_sph i = Some (pr_R p, pr_lat p) -> 0 < pr_R p -> below_pole lat ->
  let m := fst (project_node p (lon, lat, z)) in
  is_derive (fun x => h x (snd m)) (fst m) d ->
  is_derive (fun s => let m' := fst (project_node p (along_parallel (pr_R p) lat lon s, lat, z)) in h (fst m') (snd m')) 0 (sp_at i (snd m) * d).
Proof.
  intros i p h lon lat z d E H L m D. pose proof (cos_rad_pos _ L) as Cp. pose proof (rad_pos 1 ltac:(lra)) as R1.
  set (k := sp_at i (snd m)).
  assert (K : forall s, fst (project_node p (along_parallel (pr_R p) lat lon s, lat, z)) = (fst m + s * k, snd m)).
  { intros s. unfold k, m. rewrite !project_xy. cbn [fst snd]. rewrite (sp_factor i p E), factor_lat by lra. f_equal.
    unfold along_parallel. set (w := s / (pr_R p * cos (rad lat)) / rad 1).
    replace (rad (lon + w - pr_lon p)) with (rad (lon - pr_lon p) + w * rad 1) by (unfold rad; ring). unfold w. field. repeat apply conj; lra. }
  apply (is_derive_ext (fun s => h (fst m + s * k) (snd m))); [intros s; cbv zeta; rewrite K; reflexivity|].
  apply (is_derive_comp (fun x => h x (snd m)) (fun s => fst m + s * k) 0 d k).
  - replace (fst m + 0 * k) with (fst m) by ring. exact D.
  - auto_derive; [exact I|ring].
Qed.
Lemma factor_range : forall p y Y, 0 < pr_R p -> below_pole (pr_lat p) -> Rabs y <= Y -> Y < pr_R p * (PI / 2) ->
  cos (rad (pr_lat p)) <= factor p y <= cos (rad (pr_lat p)) / cos (Y / pr_R p).
Proof.
  intros p y Y H L B1 B2. pose proof (cos_rad_pos _ L) as Cp. unfold factor, distortion.
  assert (E : cos (y / pr_R p) = cos (Rabs y / pr_R p)).
  { unfold Rabs. destruct (Rcase_abs y); [|reflexivity]. replace (- y / pr_R p) with (- (y / pr_R p)) by (field; lra). symmetry. apply cos_neg. }
  rewrite E. pose proof (Rabs_pos y) as P. set (a := Rabs y) in *.
  assert (A0 : 0 <= a / pr_R p) by (apply Rmult_le_pos; [exact P|left; apply Rinv_0_lt_compat; exact H]).
  assert (AY : a / pr_R p <= Y / pr_R p) by (apply Rmult_le_compat_r; [left; apply Rinv_0_lt_compat; exact H|exact B1]).
  assert (YH : Y / pr_R p < PI / 2) by (apply (Rmult_lt_reg_r (pr_R p)); [exact H|]; unfold Rdiv at 1; rewrite Rmult_assoc, Rinv_l by lra; lra).
  pose proof PI_RGT_0. assert (C0 : 0 < cos (Y / pr_R p)) by (apply cos_gt_0; lra).
  assert (C1 : cos (Y / pr_R p) <= cos (a / pr_R p)) by (destruct (Req_dec (a / pr_R p) (Y / pr_R p)) as [->|N]; [lra|left; apply cos_decreasing_1; lra]).
  pose proof (COS_bound (a / pr_R p)) as [_ C2]. split.
  - apply (Rmult_le_reg_r (cos (a / pr_R p))); [lra|]. unfold Rdiv. rewrite Rmult_assoc, Rinv_l by lra. nra.
  - apply Rmult_le_compat_l; [lra|]. apply Rinv_le_contravar; assumption.
Qed.
Lemma factor_pole : forall p, 0 < pr_R p -> pr_lat p = 0 -> factor p (snd (fst (project_node p (0, 90, 0)))) < - 1000000000000.
Proof.
  intros p H L. rewrite project_xy. cbn [fst snd]. rewrite factor_lat by lra. rewrite L. replace (rad 0) with 0 by (unfold rad; ring). rewrite cos_0.
  destruct cos_90 as [N B]. set (c := cos (rad 90)) in *. apply (Rmult_lt_reg_r (- c)); [lra|]. replace (1 / c * - c) with (Ropp 1) by (field; lra). lra.
Qed.
(** Without a projection in the problem section the map is still made, but the factor is 1. *)
Lemma cos_60 : 499 / 1000 <= cos (rad 60) <= 501 / 1000.
Proof.
  rewrite rad_code. pose proof (cos_lip (60 * code_pi / 180) (PI / 3)) as L. rewrite cos_PI3 in L. pose proof pi_below. pose proof pi_close.
  rewrite (Rabs_pos_eq (60 * code_pi / 180 - PI / 3)) in L by lra. unfold Rabs in L. destruct (Rcase_abs _) in L; lra.
Qed.
Lemma no_factor : forall i lon lon' z, in_sph i = None -> lon < lon' ->
  let a := fst (project_node default_projection (lon, 60, z)) in let b := fst (project_node default_projection (lon', 60, z)) in
  sp_at i (snd a) = 1 /\ fst b - fst a > 19 / 10 * parallel_arc (pr_R default_projection) 60 (lon' - lon).
Proof.
  intros i lon lon' z E H a b. split; [unfold sp_at; rewrite E; reflexivity|]. unfold a, b. rewrite !project_xy. cbn [fst snd pr_R pr_lat pr_lon default_projection].
  replace (rad 0) with 0 by (unfold rad; ring). rewrite cos_0. unfold parallel_arc. pose proof cos_60 as C6. set (c := cos (rad 60)) in *.
  replace (6378200 * 1 * rad (lon' - 0) - 6378200 * 1 * rad (lon - 0)) with (6378200 * rad (lon' - lon)) by (unfold rad; ring).
  pose proof (rad_pos (lon' - lon) ltac:(lra)). nra.
Qed.
(** Twelve digits of pi in the map. *)
Lemma map_digits : forall p c, 0 <= pr_R p ->
  Rabs (snd (fst (project_node p c)) - pr_R p * true_rad (snd (fst c))) <= pr_R p * (Rabs (snd (fst c)) * (2 / 1000000000000000)).
Proof.
  intros p c H. rewrite project_xy. cbn [fst snd]. rewrite rad_code, <- Rmult_minus_distr_l, Rabs_mult, (Rabs_pos_eq _ H).
  apply Rmult_le_compat_l; [exact H|]. apply deg_close.
Qed.

(** ** The factor on the faces *)
Definition own_y (i : input) (e b gp : nat) : R := snd (boundary_point (in_nodes i e) b (snd (nth gp (in_rule1 i) (0, 0)))).
Lemma y_own : forall i e b gp, y_at i e (face_point i b gp) = own_y i e b gp.
Proof. intros i e b gp. unfold y_at, own_y, boundary_point, face_point, gp1. cbn -[BoundaryToMasterCoordinates]. ring. Qed.
Lemma own_face : forall i e b gp, (b < 3)%nat -> own_y i e b gp = face_y i e b gp.
Proof. intros i e b gp H. unfold own_y, face_y. rewrite edge_point by exact H. reflexivity. Qed.
Lemma inner_sp : forall i e gp, sp (init_aux i e gp) = sp_at i (snd (LocalToGlobalCoordinates (in_nodes i e) (snd (nth gp (in_rule2 i) (0, (0, 0)))))).
Proof. intros i e gp. unfold init_aux, y_at, gp2. cbn [sp LocalToGlobalCoordinates snd vmsum]. f_equal. ring. Qed.

(** C64: geographic input: map projection, distortion factor, Coriolis parameter, Manning file. *)
From Coq Require Import Reals List Bool Arith Lra Lia Permutation.
From Coquelicot Require Import Hierarchy Derive.
From Verif Require Import Num ModelPi Outcome ModelSWE ModelJac ModelShape SpecShape ModelStep SpecRest ModelInit ModelGeo SpecGeo LemmasGeo LemmasGeo2.
Import ListNotations.
Open Scope R_scope.

(** The map: identifiers, bathymetry and number of nodes are kept, cartesian meshes are
    not touched, a spherical mesh has every node at its image. *)
Theorem C64_mesh : forall s p nodes,
  map fst (preprocess_mesh_data s p nodes) = map fst nodes /\
  map (fun n => snd (snd n)) (preprocess_mesh_data s p nodes) = map (fun n => snd (snd n)) nodes /\
  preprocess_mesh_data false p nodes = nodes /\
  forall id lon lat z, In (id, (lon, lat, z)) nodes ->
    In (id, (pr_R p * cos (rad (pr_lat p)) * rad (lon - pr_lon p), pr_R p * rad lat, z)) (preprocess_mesh_data true p nodes).
Proof.
  intros s p nodes. destruct (mesh_kept s p nodes) as [A B]. repeat split; [exact A|exact B|]. intros id lon lat z H.
  apply mesh_image with (p := p) in H. rewrite (surjective_pairing (project_node p _)), project_xy in H. exact H.
Qed.
Print Assumptions C64_mesh.

(** Triangles keep their orientation, areas scale by one constant, different nodes stay apart. *)
Theorem C64_orientation : forall p a b c,
  orient (fst (project_node p a)) (fst (project_node p b)) (fst (project_node p c)) =
    pr_R p * pr_R p * cos (rad (pr_lat p)) * (rad 1 * rad 1) * orient (fst a) (fst b) (fst c) /\
  (0 < pr_R p -> below_pole (pr_lat p) ->
    (0 < orient (fst a) (fst b) (fst c) <-> 0 < orient (fst (project_node p a)) (fst (project_node p b)) (fst (project_node p c))) /\
    (project_node p a = project_node p b -> a = b)).
Proof. intros p a b c. split; [apply project_orient|]. intros H L. split; [apply project_positive; assumption|apply project_inj; assumption]. Qed.
Print Assumptions C64_orientation.

(** Violated with the origin at a pole: the constant for pi is a little too large, and the
    map is a mirror image. *)
Theorem C64_pole_refuted : forall p a b c, 0 < pr_R p -> pr_lat p = 90 -> 0 < orient (fst a) (fst b) (fst c) ->
  orient (fst (project_node p a)) (fst (project_node p b)) (fst (project_node p c)) < 0.
Proof. exact project_mirror. Qed.
Print Assumptions C64_pole_refuted.

(** Distances on the map: along meridians as on the sphere, along parallels times the
    factor of the solver; rates of change per metre eastwards are those of the map times
    the factor. *)
Theorem C64_distances : forall i p lon lon' lat lat' z z', in_sph i = Some (pr_R p, pr_lat p) -> 0 < pr_R p -> below_pole lat ->
  let at_ l f := fst (project_node p (l, f, z)) in
  snd (at_ lon lat') - snd (at_ lon lat) = meridian_arc (pr_R p) (lat' - lat) /\ fst (at_ lon lat') = fst (at_ lon lat) /\
  fst (fst (project_node p (lon', lat, z'))) - fst (at_ lon lat) = sp_at i (snd (at_ lon lat)) * parallel_arc (pr_R p) lat (lon' - lon).
Proof. intros i p lon lon' lat lat' z z' E H L at_. repeat apply conj; [apply meridian|apply meridian|apply parallel; assumption]. Qed.
Print Assumptions C64_distances.
Theorem C64_rates : forall i p (h : R -> R -> R) lon lat z d, in_sph i = Some (pr_R p, pr_lat p) -> 0 < pr_R p -> below_pole lat ->
  let m := fst (project_node p (lon, lat, z)) in
  is_derive (fun x => h x (snd m)) (fst m) d ->
  is_derive (fun s => let m' := fst (project_node p (along_parallel (pr_R p) lat lon s, lat, z)) in h (fst m') (snd m')) 0 (sp_at i (snd m) * d).
Proof. exact rate_east. Qed.
Print Assumptions C64_rates.
Theorem C64_map_digits : forall p c, 0 <= pr_R p ->
  Rabs (snd (fst (project_node p c)) - pr_R p * true_rad (snd (fst c))) <= pr_R p * (Rabs (snd (fst c)) * (2 / 1000000000000000)).
Proof. exact map_digits. Qed.
Print Assumptions C64_map_digits.

(** The factor at every Gauss point: inside the elements, on all sides of all faces, and
    on faces between processors, it is the one of the point itself. *)
Theorem C64_inner : forall i p e gp, in_sph i = Some (pr_R p, pr_lat p) ->
  sp (init_aux i e gp) = distortion (pr_R p) (pr_lat p) (snd (LocalToGlobalCoordinates (in_nodes i e) (snd (nth gp (in_rule2 i) (0, (0, 0)))))).
Proof. intros i p e gp E. rewrite inner_sp, (sp_factor i p E). reflexivity. Qed.
Print Assumptions C64_inner.
Theorem C64_faces : forall i p e b gp, in_sph i = Some (pr_R p, pr_lat p) -> matched i -> symmetric_points (in_rule1 i) -> (b < 3)%nat ->
  In (e, b) (sides (in_intfaces i) (in_bounds i)) -> (gp < length (in_rule1 i))%nat ->
  sp (init_faux i e b gp) = distortion (pr_R p) (pr_lat p) (face_y i e b gp) /\
  forall t, sp (init_dbound i t e b e b gp) = sp (init_faux i e b gp).
Proof. exact table_sp. Qed.
Print Assumptions C64_faces.
Theorem C64_both_sides : forall i, matched i -> symmetric_points (in_rule1 i) -> forall f gp, In f (in_intfaces i) -> (gp < length (in_rule1 i))%nat ->
  sp (init_faux i (i_in f) (i_bin f) gp) = sp (init_faux i (i_ex f) (i_bex f) (length (in_rule1 i) - gp - 1)%nat).
Proof. exact both_sides. Qed.
Print Assumptions C64_both_sides.
(** Without projection it is 1 everywhere. *)
Theorem C64_plane : forall i e gp y, in_sph i = None -> sp (init_aux i e gp) = 1 /\ sp_at i y = 1.
Proof. intros i e gp y E. rewrite inner_sp. unfold sp_at. rewrite E. split; reflexivity. Qed.
Print Assumptions C64_plane.

(** Violated at levees whose sides are apart: the far side gets the factor of the near
    side, in a serial run, and its own when the levee lies between processors. *)
Theorem C64_levee_refuted : exists i e b gp, In (e, b) (sides (in_intfaces i) (in_bounds i)) /\ (gp < length (in_rule1 i))%nat /\
  symmetric_points (in_rule1 i) /\ sp (init_faux i e b gp) < sp_at i (face_y i e b gp) /\
  forall t, sp (init_dbound i t e b e b gp) <> sp (init_faux i e b gp).
Proof.
  exists strip, 1%nat, 0%nat, 0%nat. destruct strip_differs as [E [L N]]. repeat apply conj; [cbn; tauto|cbn; lia| | |exact N].
  - intros gp Hg. destruct gp as [|gp]; [|cbn in Hg; lia]. cbn. rewrite Rabs_R0. lra.
  - rewrite E, <- own_face by lia. exact L.
Qed.
Print Assumptions C64_levee_refuted.

(** Bounds of the factor away from the poles. *)
Theorem C64_range : forall p y Y, 0 < pr_R p -> below_pole (pr_lat p) -> Rabs y <= Y -> Y < pr_R p * (PI / 2) ->
  0 < cos (rad (pr_lat p)) /\ cos (rad (pr_lat p)) <= distortion (pr_R p) (pr_lat p) y <= cos (rad (pr_lat p)) / cos (Y / pr_R p).
Proof. intros p y Y H L B1 B2. split; [apply cos_rad_pos; exact L|exact (factor_range p y Y H L B1 B2)]. Qed.
Print Assumptions C64_range.
(** Violated at a node at the north pole: large and of the wrong sign. *)
Theorem C64_pole_factor_refuted : forall p, 0 < pr_R p -> pr_lat p = 0 ->
  distortion (pr_R p) (pr_lat p) (snd (fst (project_node p (0, 90, 0)))) < - 1000000000000.
Proof. exact factor_pole. Qed.
Print Assumptions C64_pole_factor_refuted.
(** Violated for a spherical mesh without the projection entry in the problem section:
    mapped with the default values, factor 1; at 60 degrees lengths are nearly doubled. *)
Theorem C64_default_refuted : forall i lon lon' z, in_sph i = None -> lon < lon' ->
  let a := fst (project_node default_projection (lon, 60, z)) in let b := fst (project_node default_projection (lon', 60, z)) in
  sp_at i (snd a) = 1 /\ fst b - fst a > 19 / 10 * parallel_arc (pr_R default_projection) 60 (lon' - lon).
Proof. exact no_factor. Qed.
Print Assumptions C64_default_refuted.

(** Coriolis parameter of an element: that of the mean latitude of its nodes, between those
    of the extreme latitudes, and accurate. *)
Theorem C64_coriolis : forall p (c : nat -> R * R * R), pr_R p <> 0 ->
  let lat v := snd (fst (c v)) in let f := coriolis_f p (fun v => fst (project_node p (c v))) in
  f = two_omega * sin (rad (mean3 lat)) /\
  Rabs (f - two_omega * sin (true_rad (mean3 lat))) <= two_omega * (Rabs (mean3 lat) * (2 / 1000000000000000)) /\
  forall lo hi, below_pole lo -> below_pole hi -> (forall v, (v < 3)%nat -> lo <= lat v <= hi) ->
    two_omega * sin (rad lo) <= f <= two_omega * sin (rad hi).
Proof.
  intros p c H lat f. repeat apply conj; [exact (coriolis_value p c H)|exact (coriolis_digits p c H)|].
  intros lo hi Bl Bh L. exact (coriolis_between p c lo hi H Bl Bh L).
Qed.
Print Assumptions C64_coriolis.
Theorem C64_coriolis_bound : forall p nd, Rabs (coriolis_f p nd) <= two_omega.
Proof. exact coriolis_bound. Qed.
Print Assumptions C64_coriolis_bound.
(** Violated for cartesian meshes: the latitude given is not used. *)
Theorem C64_local_coriolis_refuted : forall r lon lat (nd : nodes), snd (nd 0%nat) + snd (nd 1%nat) + snd (nd 2%nat) = 0 ->
  coriolis_f (Projection r lon lat) nd = 0.
Proof. intros r lon lat nd H. exact (coriolis_local _ nd H). Qed.
Print Assumptions C64_local_coriolis_refuted.

(** Manning file: each element gets g times the squared mean of its nodes' coefficients,
    as listed before the first unreadable line. *)
Theorem C64_manning : forall g lines elements,
  init_manning g (Some lines) elements = Ok (map (friction g (last_value (readable lines))) elements) /\
  init_manning g None elements = Throw.
Proof. intros g lines elements. split; [apply manning_all|reflexivity]. Qed.
Print Assumptions C64_manning.
Theorem C64_manning_rows : forall rows, NoDup (map fst rows) ->
  readable (map Some rows) = rows /\
  (forall k v, In (k, v) rows -> last_value rows k = v) /\
  (forall rows' k, Permutation rows rows' -> last_value rows k = last_value rows' k).
Proof. intros rows D. repeat apply conj; [apply readable_all|intros; apply last_in; assumption|intros; apply last_order; assumption]. Qed.
Print Assumptions C64_manning_rows.
Theorem C64_manning_range : forall g n ids a b, 0 <= g -> 0 <= a -> (forall v, (v < 3)%nat -> a <= n (ids v) <= b) ->
  g * a ^ 2 <= snd (friction g n ids) <= g * b ^ 2.
Proof. exact manning_range. Qed.
Print Assumptions C64_manning_range.
(** Violated: a node without a row has coefficient zero, without any message, and so has
    every node listed after a line that cannot be read, such as a heading. *)
Theorem C64_manning_refuted : (forall rows k, ~ In k (map fst rows) -> last_value (readable (map Some rows)) k = 0) /\
  (forall (before : list (nat * R)) after k, ~ In k (map fst before) -> last_value (readable (map Some before ++ None :: after)) k = 0).
Proof.
  split.
  - intros rows k H. rewrite readable_all. apply last_absent. exact H.
  - intros before after k H. rewrite readable_cut. apply last_absent. exact H.
Qed.
Print Assumptions C64_manning_refuted.

(** Examples. *)
Example C64_example_map : fst (project_node (Projection 1800 10 0) (13, 2, 7)) = (30 * code_pi, 20 * code_pi).
Proof. rewrite project_xy. cbn [fst snd pr_R pr_lon pr_lat]. replace (rad 0) with 0 by (unfold rad; ring). rewrite cos_0, !rad_code. f_equal; field. Qed.
Example C64_example_faces : exists i, matched i /\ in_intfaces i <> [] /\ symmetric_points (in_rule1 i) /\
  sp (init_faux i 0%nat 0%nat 0%nat) = 1 / cos (1 / 10) /\ sp (init_faux i 1%nat 0%nat 0%nat) = 1 / cos (1 / 10).
Proof.
  set (nd := fun e v : nat => match e, v with O, O => (0, 0) | O, S O => (1, 1) | O, _ => (-1, 1) | _, O => (0, 2) | _, S O => (-1, 1) | _, _ => (1, 1) end : point).
  set (j := Input 2 1 nd (fun _ _ => 1) [] [(2, 0)] (fun _ => SourceIn false 0 false 0) None [Intf 0 0 1 0 Internal] [] (Some (10, 0)) (V3 0 0 0) 1 0 1).
  assert (Mj : matched j) by (intros f [<-|[]]; cbn; repeat split; lia).
  assert (Sj : symmetric_points (in_rule1 j)) by (intros gp Hg; destruct gp as [|gp]; [|cbn in Hg; lia]; cbn; rewrite Rabs_R0; lra).
  assert (K : forall e, (e < 2)%nat -> sp (init_faux j e 0%nat 0%nat) = 1 / cos (1 / 10)).
  { intros e He. rewrite (proj1 (C64_faces j (Projection 10 0 0) e 0 0 eq_refl Mj Sj ltac:(lia) ltac:(destruct e as [|[|e]]; [cbn; tauto|cbn; tauto|lia]) ltac:(cbn; lia))).
    unfold distortion, face_y. replace (rad (pr_lat (Projection 10 0 0))) with 0 by (unfold rad; cbn; ring). rewrite cos_0.
    destruct e as [|[|e]]; [| |lia]; cbn; do 2 f_equal; field. }
  exists j. repeat apply conj; [exact Mj|discriminate|exact Sj|apply K; lia|apply K; lia].
Qed.
Example C64_example_manning : init_manning 10 (Some [Some (3%nat, 1); Some (5%nat, 2); Some (3%nat, 3); None; Some (9%nat, 8)]) [fun v => nth v [3; 5; 9]%nat 0%nat] =
  Ok [([3; 2; 0], 10 * (25 / 9))].
Proof. rewrite (proj1 (C64_manning _ _ _)). unfold friction, mean3. cbn. do 4 f_equal. field. Qed.

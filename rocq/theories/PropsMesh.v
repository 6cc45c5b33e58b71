(** Property theorems: mesh topology (C13, C14, C15, C29, C36, C37, C42). *)
From Coq Require Import NArith List Bool Arith Lia Permutation.
From Verif Require Import Outcome ModelMesh SpecMesh LemmasMesh LemmasMesh2 LemmasMesh3 LemmasMesh4
  LemmasMesh5 LemmasMesh6 LemmasMesh7 LemmasMesh8 LemmasMesh9.
Import ListNotations.
Local Open Scope N_scope.

(** ** C13 *)
Theorem C13_has_edge_exact : forall l x y, has_edge l x y = true <-> neighbours l x y.
Proof. exact has_edge_spec. Qed.
Print Assumptions C13_has_edge_exact.

Example C13_example : has_edge [4; 7; 4; 9; 7] 7 9 = true /\ has_edge [4; 7; 4; 9; 7] 7 7 = false
  /\ has_edge [5; 5] 5 5 = true /\ has_edge [4; 7; 9] 4 9 = false.
Proof. repeat split. Qed.

(** ** C37 *)
Theorem C37_partner_involution :
  forall segs x y, barriers_ok segs -> barrier_edge segs x y ->
  exists u v i l m, barrier_side segs i l m /\ neighbours l x y /\ partner_in l m x u /\ partner_in l m y v /\
    barrier_edge segs v u /\
    get_internal_node_pair segs x y = Ok (v, u) /\
    get_internal_node_pair segs y x = Ok (u, v) /\
    get_internal_node_pair segs v u = Ok (x, y).
Proof. exact node_pair_involution. Qed.
Print Assumptions C37_partner_involution.

Theorem C37_other_edges_rejected :
  forall segs x y, barriers_ok segs -> ~ barrier_edge segs x y -> get_internal_node_pair segs x y = Throw.
Proof. exact node_pair_miss. Qed.
Print Assumptions C37_other_edges_rejected.

(** A barrier of one node reads outside its list. *)
Theorem C37_one_node_barrier_refuted :
  exists segs x y, (forall s, In s segs -> reader_segment s = true) /\ get_internal_node_pair segs x y = UB.
Proof.
  exists [Segment 4 [1] (Some [2])], 1, 3. split; [intros s [<-|[]]; reflexivity | reflexivity].
Qed.
Print Assumptions C37_one_node_barrier_refuted.

Example C37_example :
  let segs := [Segment 0 [1; 2] None; Segment 24 [10; 11; 12] (Some [20; 21; 22])] in
  get_internal_node_pair segs 10 11 = Ok (21, 20) /\ get_internal_node_pair segs 21 20 = Ok (10, 11)
  /\ get_internal_node_pair segs 11 10 = Ok (20, 21) /\ get_internal_node_pair segs 12 11 = Ok (21, 22)
  /\ get_internal_node_pair segs 10 12 = Throw.
Proof. repeat split. Qed.

(** ** C42 *)
Theorem C42_boundary_classification :
  forall m x y bt, segs_read m -> (get_ibtype m x y = Ok bt <-> classified m x y bt).
Proof. exact get_ibtype_spec. Qed.
Print Assumptions C42_boundary_classification.

Theorem C42_direction_irrelevant : forall m x y, get_ibtype m x y = get_ibtype m y x.
Proof. exact get_ibtype_sym. Qed.
Print Assumptions C42_direction_irrelevant.

Theorem C42_no_undefined_behaviour : forall m x y, segs_read m -> get_ibtype m x y <> UB.
Proof. exact get_ibtype_no_ub. Qed.
Print Assumptions C42_no_undefined_behaviour.

(** A barrier with no nodes makes the levee-end check read an empty vector. *)
Theorem C42_empty_barrier_refuted :
  exists m x y, (forall s, In s (ad_segs m) -> reader_segment s = true) /\ get_ibtype m x y = UB.
Proof.
  exists (Adcirc [] [] [Segment 4 [] (Some [])] []), 1, 3. split; [intros s [<-|[]]; reflexivity | reflexivity].
Qed.
Print Assumptions C42_empty_barrier_refuted.

(** Test mesh: elements 0 and 1 share the edge 1-2; a barrier separates the
    edge 1-3 of element 1 from the edge 5-6 of element 2. *)
Definition ex_els : list (N * (N * N * N)) := [(0, (0, 1, 2)); (1, (1, 3, 2)); (2, (5, 4, 6))].
Definition ex_mesh : adcirc :=
  Adcirc ex_els [[2; 3]] [Segment 22 [1; 0; 2] None; Segment 24 [1; 3] (Some [5; 6]); Segment 77 [6; 4] None] [[4; 5]].

Example C42_example : get_ibtype ex_mesh 3 2 = Ok bt_tide /\ get_ibtype ex_mesh 0 1 = Ok bt_flow
  /\ get_ibtype ex_mesh 6 5 = Ok bt_levee /\ get_ibtype ex_mesh 4 6 = Ok bt_function /\ get_ibtype ex_mesh 5 4 = Ok bt_land
  /\ get_ibtype ex_mesh 1 5 = Ok bt_land /\ get_ibtype ex_mesh 6 3 = Ok bt_land /\ get_ibtype ex_mesh 1 6 = Throw.
Proof. repeat split. Qed.

Lemma ex_segs_read : segs_read ex_mesh.
Proof.
  intros s I. repeat destruct I as [<-|I]; try contradiction; split; try reflexivity; cbn; intros c [=]; subst; discriminate.
Qed.

(** ** C14 *)
Theorem C14_shared_faces_name_each_other :
  forall m t, ids_ok (ad_elements m) -> at_most_two (ad_elements m) -> metadata_of m t ->
  forall f g, share_edge (ad_elements m) f g ->
  et_get t f = Some (fst g, bt_internal) /\ et_get t g = Some (fst f, bt_internal).
Proof. exact meta_shared. Qed.
Print Assumptions C14_shared_faces_name_each_other.

Theorem C14_internal_faces_mutual :
  forall m t, ids_ok (ad_elements m) -> at_most_two (ad_elements m) -> metadata_of m t ->
  forall f n, mesh_face (ad_elements m) f -> et_get t f = Some (n, bt_internal) ->
  exists g, fst g = n /\ share_edge (ad_elements m) f g /\ et_get t g = Some (fst f, bt_internal).
Proof. exact meta_mutual. Qed.
Print Assumptions C14_internal_faces_mutual.

Theorem C14_unshared_faces_carry_their_type :
  forall m t, ids_ok (ad_elements m) -> at_most_two (ad_elements m) -> segs_read m -> metadata_of m t ->
  forall f p, face_on (ad_elements m) f p -> (forall g, ~ share_edge (ad_elements m) f g) ->
  exists bt, classified m (fst p) (snd p) bt /\ bt <> bt_internal /\
    (bt <> bt_levee -> et_get t f = Some (DEFAULT_ID, bt)) /\
    (bt = bt_levee -> exists n, et_get t f = Some (n, bt_levee)).
Proof. exact meta_boundary. Qed.
Print Assumptions C14_unshared_faces_carry_their_type.

Theorem C14_levee_faces_mutual :
  forall m t, ids_ok (ad_elements m) -> at_most_two (ad_elements m) -> segs_read m ->
  seg_ids_ok (ad_segs m) -> barriers_ok (ad_segs m) -> metadata_of m t ->
  forall f g, levee_faces m f g -> et_get t f = Some (fst g, bt_levee) /\ et_get t g = Some (fst f, bt_levee).
Proof. exact meta_levee. Qed.
Print Assumptions C14_levee_faces_mutual.

Theorem C14_construction_succeeds :
  forall m order, ids_ok (ad_elements m) -> at_most_two (ad_elements m) -> segs_read m -> barriers_ok (ad_segs m) ->
  Permutation order (edge_dictionary (ad_elements m)) ->
  (forall f p, face_on (ad_elements m) f p -> (forall g, ~ share_edge (ad_elements m) f g) ->
     exists bt, classified m (fst p) (snd p) bt /\
       (bt = bt_levee -> exists g r, face_on (ad_elements m) g r /\ faces_across (ad_segs m) p r)) ->
  exists t, mesh_metadata m order = Ok t.
Proof. exact meta_total. Qed.
Print Assumptions C14_construction_succeeds.

Definition show (o : outcome etable) (els : list (N * (N * N * N))) : list (option (N * N)) :=
  match o with Ok t => flat_map (fun e => map (fun k => et_get t (fst e, k)) [0; 1; 2]%nat) els | _ => [] end.
Example C14_example : show (mesh_metadata ex_mesh (edge_dictionary ex_els)) ex_els =
  [Some (1, bt_internal); Some (DEFAULT_ID, bt_flow); Some (DEFAULT_ID, bt_flow);
   Some (DEFAULT_ID, bt_tide); Some (0, bt_internal); Some (2, bt_levee);
   Some (DEFAULT_ID, bt_function); Some (1, bt_levee); Some (DEFAULT_ID, bt_land)].
Proof. vm_compute. reflexivity. Qed.
Example C14_example_hypotheses : ids_ok ex_els /\ at_most_two ex_els /\ meet_once ex_els /\ segs_read ex_mesh.
Proof.
  assert (A : ids_ok ex_els) by (apply ids_okb_ok; vm_compute; reflexivity).
  split; [exact A|]. split; [apply at_most_twob_ok; [exact A | vm_compute; reflexivity]|].
  split; [apply meet_onceb_ok; [exact A | vm_compute; reflexivity] | exact ex_segs_read].
Qed.

(** ** C15 *)
Theorem C15_interface_loop_exact :
  forall (V : Type) (m : rmap V), NoDup (map fst m) ->
  (forall k, In k (map fst m) -> fst k <> snd k /\ In (snd k, fst k) (map fst m)) ->
  Permutation (flat_map (fun p => [fst p; snd p]) (create_interfaces m)) (map snd m) /\
  (forall v v', In (v, v') (create_interfaces m) -> exists k, In (k, v) m /\ In ((snd k, fst k), v') m).
Proof. exact create_interfaces_exact. Qed.
Print Assumptions C15_interface_loop_exact.

Theorem C15_internal_interfaces :
  forall m t rb, ids_ok (ad_elements m) -> at_most_two (ad_elements m) -> meet_once (ad_elements m) ->
  metadata_of m t -> raw_of m t rb ->
  (forall f g, In (f, g) (create_interfaces (rb bt_internal)) -> share_edge (ad_elements m) f g) /\
  NoDup (flat_map (fun p => [fst p; snd p]) (create_interfaces (rb bt_internal))) /\
  (forall f, In f (flat_map (fun p => [fst p; snd p]) (create_interfaces (rb bt_internal))) <-> exists g, share_edge (ad_elements m) f g).
Proof. exact raw_internal. Qed.
Print Assumptions C15_internal_interfaces.

Theorem C15_levee_interfaces :
  forall m t rb, ids_ok (ad_elements m) -> at_most_two (ad_elements m) -> segs_read m ->
  seg_ids_ok (ad_segs m) -> barriers_ok (ad_segs m) -> levee_closed m ->
  (forall f g, levee_faces m f g -> fst f <> fst g) ->
  (forall f g f' g', levee_faces m f g -> levee_faces m f' g' -> fst f = fst f' -> fst g = fst g' -> f = f') ->
  metadata_of m t -> raw_of m t rb ->
  (forall f g, In (f, g) (create_interfaces (rb bt_levee)) -> levee_faces m f g) /\
  NoDup (flat_map (fun p => [fst p; snd p]) (create_interfaces (rb bt_levee))) /\
  (forall f, In f (flat_map (fun p => [fst p; snd p]) (create_interfaces (rb bt_levee))) <-> exists g, levee_faces m f g).
Proof. exact raw_levee. Qed.
Print Assumptions C15_levee_interfaces.

Theorem C15_boundary_faces :
  forall m t rb, ids_ok (ad_elements m) -> at_most_two (ad_elements m) -> segs_read m ->
  metadata_of m t -> raw_of m t rb ->
  forall T, T <> bt_internal -> T <> bt_levee -> (T < 128 \/ 192 <= T) ->
  NoDup (map snd (rb T)) /\
  forall f, In f (map snd (rb T)) <->
    exists p, face_on (ad_elements m) f p /\ (forall g, ~ share_edge (ad_elements m) f g) /\ classified m (fst p) (snd p) T.
Proof. exact raw_boundary. Qed.
Print Assumptions C15_boundary_faces.

Theorem C15_collection_succeeds :
  forall m t, metadata_of m t -> ids_ok (ad_elements m) -> at_most_two (ad_elements m) ->
  forall ids, Permutation ids (map fst (ad_elements m)) -> exists rb, create_raw ids t = Ok rb.
Proof. exact raw_total. Qed.
Print Assumptions C15_collection_succeeds.

(** Entering a face in a map sorted by key keeps it sorted; the face entered first
    under a key stays, other keys are not touched. *)
Theorem C15_first_face_kept : forall (V : Type) (m : rmap V) k v, key_sorted m -> key_sorted (rm_emplace m k v) /\
  forall k', rm_find (rm_emplace m k v) k' = if key_eqb k' k then match rm_find m k with Some old => Some old | None => Some v end else rm_find m k'.
Proof. exact rm_emplace_first. Qed.
Print Assumptions C15_first_face_kept.
Example first_face_kept : rm_find (rm_emplace (rm_emplace (rm_emplace [] (1, 5) 10) (0, 7) 20) (1, 5) 30) (1, 5) = Some 10.
Proof. reflexivity. Qed.

(** Faces without a partner disappear without an error. *)
Theorem C15_unmatched_face_dropped_refuted :
  exists m : rmap face, m <> [] /\ create_interfaces m = [].
Proof. exists [((1, 2), (1, 0%nat))]. split; [discriminate | reflexivity]. Qed.
Print Assumptions C15_unmatched_face_dropped_refuted.

(** Two elements sharing two edges: one of the two interfaces is lost. *)
Definition ex_twice : adcirc := Adcirc [(7, (0, 1, 2)); (8, (0, 2, 1))] [] [] [].
Theorem C15_meeting_twice_refuted :
  exists m t rb f g, ids_ok (ad_elements m) /\ at_most_two (ad_elements m) /\ metadata_of m t /\ raw_of m t rb /\
    share_edge (ad_elements m) f g /\ ~ In f (flat_map (fun p => [fst p; snd p]) (create_interfaces (rb bt_internal))).
Proof.
  set (o := mesh_metadata ex_twice (edge_dictionary (ad_elements ex_twice))).
  destruct o as [t| |] eqn:E; [|vm_compute in E; discriminate E..].
  destruct (create_raw [7; 8] t) as [rb| |] eqn:R.
  - exists ex_twice, t, rb, (7, 1%nat), (8, 2%nat).
    assert (A : ids_ok (ad_elements ex_twice)) by (apply ids_okb_ok; vm_compute; reflexivity).
    split; [exact A|]. split; [apply at_most_twob_ok; [exact A | vm_compute; reflexivity]|].
    split; [exists (edge_dictionary (ad_elements ex_twice)); split; [reflexivity | exact E]|].
    split; [exists [7; 8]; split; [reflexivity | exact R]|]. split.
    + split; [discriminate|]. exists (2, 0), (0, 2). split; [exists (0, 1, 2); cbn; auto|].
      split; [exists (0, 2, 1); cbn; auto | right; reflexivity].
    + subst o. vm_compute in E. injection E as <-. vm_compute in R. injection R as <-. vm_compute. intuition discriminate.
  - subst o. vm_compute in E. injection E as <-. vm_compute in R. discriminate R.
  - subst o. vm_compute in E. injection E as <-. vm_compute in R. discriminate R.
Qed.
Print Assumptions C15_meeting_twice_refuted.

Example C15_example :
  match (do t <- mesh_metadata ex_mesh (edge_dictionary ex_els); create_raw [2; 0; 1] t) with
  | Ok rb => create_interfaces (rb bt_internal) = [((0, 0%nat), (1, 1%nat))]
      /\ create_interfaces (rb bt_levee) = [((1, 2%nat), (2, 1%nat))]
      /\ map snd (rb bt_flow) = [(0, 1%nat); (0, 2%nat)] /\ initialize_serial rb = Ok tt
  | _ => False
  end.
Proof. vm_compute. repeat split. Qed.

(** ** C29 *)
Theorem C29_one_kind : forall e, e < 256 ->
  (is_boundary e = true /\ is_internal e = false /\ is_distributed e = false) \/
  (is_boundary e = false /\ is_internal e = true /\ is_distributed e = false) \/
  (is_boundary e = false /\ is_internal e = false /\ is_distributed e = true).
Proof. exact edge_kind_one. Qed.
Print Assumptions C29_one_kind.
Theorem C29_distributed_kind : forall e, e < 256 -> is_internal e = true ->
  is_distributed (distributed e) = true /\ distributed e < 256.
Proof. exact distributed_kind. Qed.
Print Assumptions C29_distributed_kind.
Theorem C29_distributed_injective : forall e f, e < 256 -> f < 256 -> distributed e = distributed f -> e = f.
Proof. exact distributed_inj. Qed.
Print Assumptions C29_distributed_injective.
Example C29_example : distributed bt_levee = 193 /\ is_distributed (distributed bt_levee) = true /\ is_boundary bt_outflow = true
  /\ is_internal (distributed 200) = false /\ distributed 200 = 8.
Proof. repeat split. Qed.

(** ** C36 *)
(** Every edge on a segment of a kind other than island gets a type. *)
Theorem C36_non_island_edges_classified :
  forall m p0 p1 s, (forall s, In s (ad_segs m) -> reader_segment s = true) ->
  In s (ad_segs m) -> sg_type s mod 10 <> 1 ->
  (neighbours (sg_nbvv s) p0 p1 \/ exists c, sg_ibconn s = Some c /\ neighbours c p0 p1) ->
  exists t, get_ibtype m p0 p1 = Ok t.
Proof. exact get_ibtype_total. Qed.
Print Assumptions C36_non_island_edges_classified.

(** Without type 88 segments no face is left over. *)
Theorem C36_no_outflow_all_consumed :
  forall m t rb, ids_ok (ad_elements m) -> at_most_two (ad_elements m) ->
  (forall s, In s (ad_segs m) -> sg_type s <> 88) -> metadata_of m t -> raw_of m t rb ->
  initialize_serial rb = Ok tt.
Proof. exact init_ok. Qed.
Print Assumptions C36_no_outflow_all_consumed.

(** The serial start is refused exactly when some face has a type other than land,
    tide, flow, function, internal or levee. *)
Theorem C36_start_exact : forall rb, initialize_serial rb = Ok tt <->
  forall t, t < 256 -> rb t <> [] -> In t [bt_land; bt_tide; bt_flow; bt_function; bt_internal; bt_levee].
Proof. exact start_exact. Qed.
Print Assumptions C36_start_exact.

Definition one_triangle (ib : N) : adcirc := Adcirc [(3, (0, 1, 2))] [] [Segment ib [0; 1; 2; 0] None] [].

Theorem C36_island_refuted : exists ib m, reader_accepts ib = true /\ ad_segs m = [Segment ib [0; 1; 2; 0] None] /\
  ids_ok (ad_elements m) /\ mesh_metadata m (edge_dictionary (ad_elements m)) = Throw.
Proof.
  exists 11, (one_triangle 11). repeat split.
  - apply ids_okb_ok; vm_compute; reflexivity.
  - apply (ids_okb_ok (ad_elements (one_triangle 11)) ltac:(vm_compute; reflexivity)) in H. apply H.
  - apply (ids_okb_ok (ad_elements (one_triangle 11)) ltac:(vm_compute; reflexivity)) in H. apply H.
Qed.
Print Assumptions C36_island_refuted.

Theorem C36_outflow_refuted : exists m rb, (forall s, In s (ad_segs m) -> reader_segment s = true) /\
  (do t <- mesh_metadata m (edge_dictionary (ad_elements m)); create_raw [3] t) = Ok rb /\ initialize_serial rb = Throw.
Proof.
  destruct (do t <- mesh_metadata (one_triangle 88) (edge_dictionary (ad_elements (one_triangle 88))); create_raw [3] t) as [rb| |] eqn:E;
    [|vm_compute in E; discriminate E..].
  exists (one_triangle 88), rb. split; [intros s [<-|[]]; reflexivity|]. split; [exact E|].
  vm_compute in E. injection E as <-. vm_compute. reflexivity.
Qed.
Print Assumptions C36_outflow_refuted.

Example C36_example : (do t <- mesh_metadata (one_triangle 20) (edge_dictionary (ad_elements (one_triangle 20)));
  do rb <- create_raw [3] t; initialize_serial rb) = Ok tt.
Proof. vm_compute. reflexivity. Qed.

(** C16: the quadrilateral mesh generator. *)
From Coq Require Import QArith Reals ZArith NArith List Arith Bool Lia Lra Permutation.
From Verif Require Import Num Outcome ModelMesh ModelQuad SpecMesh SpecShape SpecStep SpecQuad LemmasQuad LemmasQuad2 LemmasQuad3 LemmasQuad4.
Import ListNotations.
Open Scope R_scope.

(** Nodes and elements are complete, numbered 0, 1, 2, ... in order; every node is used and
    lies where the bilinear map puts it. *)
Theorem C16_complete : forall p1 p2 p3 p4 bath pat types m n, fits m n ->
  exists nodes mesh, quad_mesh p1 p2 p3 p4 bath pat types m n = Ok (nodes, mesh) /\
    map fst nodes = nrange ((m + 1) * (n + 1)) /\ map fst (ad_elements mesh) = nrange (2 * m * n) /\
    (forall i j q, (i <= m)%N -> (j <= n)%N -> (node_at nodes (i + (m + 1) * j) q <-> q = quad_point p1 p2 p3 p4 m n i j)) /\
    (forall e t k, In (e, t) (ad_elements mesh) -> (vertex t k < (m + 1) * (n + 1))%N) /\
    (forall v, (v < (m + 1) * (n + 1))%N -> exists e t k, In (e, t) (ad_elements mesh) /\ (k < 3)%nat /\ vertex t k = v).
Proof. exact quad_complete. Qed.
Print Assumptions C16_complete.

(** Every edge is shared by exactly two triangles or belongs to exactly one boundary list. *)
Theorem C16_conforming : forall p1 p2 p3 p4 bath pat types m n nodes mesh, fits m n ->
  quad_mesh p1 p2 p3 p4 bath pat types m n = Ok (nodes, mesh) -> conforming (ad_elements mesh) (boundary_nodes m n).
Proof. exact quad_conforms. Qed.
Print Assumptions C16_conforming.

(** The four lists run along the four sides. *)
Theorem C16_boundary_lists : forall p1 p2 p3 p4 bath pat types m n nodes mesh, fits m n ->
  quad_mesh p1 p2 p3 p4 bath pat types m n = Ok (nodes, mesh) ->
  forall k v, (nth_error (nth 0 (boundary_nodes m n) []) k = Some v -> node_at nodes v (quad_point p1 p2 p3 p4 m n (N.of_nat k) 0)) /\
    (nth_error (nth 1 (boundary_nodes m n) []) k = Some v -> node_at nodes v (quad_point p1 p2 p3 p4 m n m (N.of_nat k))) /\
    (nth_error (nth 2 (boundary_nodes m n) []) k = Some v -> node_at nodes v (quad_point p1 p2 p3 p4 m n (N.of_nat k) n)) /\
    (nth_error (nth 3 (boundary_nodes m n) []) k = Some v -> node_at nodes v (quad_point p1 p2 p3 p4 m n 0 (N.of_nat k))).
Proof. exact quad_boundary_lists. Qed.
Print Assumptions C16_boundary_lists.

Theorem C16_counter_clockwise : forall p1 p2 p3 p4 bath pat types m n nodes mesh, fits m n -> convex_ccw p1 p2 p3 p4 ->
  quad_mesh p1 p2 p3 p4 bath pat types m n = Ok (nodes, mesh) -> forall e t, In (e, t) (ad_elements mesh) -> element_ccw nodes t.
Proof. exact quad_counter_clockwise. Qed.
Print Assumptions C16_counter_clockwise.

(** The signed areas of the triangles add up to the area of the quadrilateral. *)
Theorem C16_area : forall p1 p2 p3 p4 bath pat types m n nodes mesh pos, fits m n ->
  quad_mesh p1 p2 p3 p4 bath pat types m n = Ok (nodes, mesh) -> (forall v, (v < (m + 1) * (n + 1))%N -> node_at nodes v (pos v)) ->
  elements_area2 pos (ad_elements mesh) = orient p1 p2 p3 + orient p3 p4 p1.
Proof. exact quad_total_area. Qed.
Print Assumptions C16_area.

(** The solver's mesh construction accepts the mesh, gives every boundary face the type of its
    list, and the serial start-up succeeds exactly when no list is an outflow boundary.  The
    elements may come in any order (hash map). *)
Theorem C16_readable : forall p1 p2 p3 p4 bath pat types m n nodes mesh els, fits m n -> length types = 4%nat -> Forall known_type types ->
  quad_mesh p1 p2 p3 p4 bath pat types m n = Ok (nodes, mesh) -> Permutation els (ad_elements mesh) ->
  let read := Adcirc els (ad_nbdv mesh) (ad_segs mesh) (ad_nbgn mesh) in
  ids_ok els /\ conforming els (boundary_nodes m n) /\ segs_read read /\
  (forall order, Permutation order (edge_dictionary els) -> exists t, mesh_metadata read order = Ok t) /\
  (forall t, metadata_of read t ->
     (forall f q k, face_on els f q -> (k < 4)%nat -> neighbours (nth k (boundary_nodes m n) []) (fst q) (snd q) ->
        et_get t f = Some (DEFAULT_ID, nth k types 0%N)) /\
     (forall rb, raw_of read t rb ->
        (~ In bt_outflow types -> initialize_serial rb = Ok tt) /\ (In bt_outflow types -> initialize_serial rb = Throw))).
Proof. exact quad_readable. Qed.
Print Assumptions C16_readable.

(** Concrete meshes. *)
Example C16_simple_example : make_elements simple 2 1 =
  Ok [(0, (0, 4, 3)); (1, (0, 1, 4)); (2, (1, 5, 4)); (3, (1, 2, 5))]%N.
Proof. reflexivity. Qed.
Example C16_zigzag_example : make_elements zigzag 1 2 =
  Ok [(0, (0, 3, 2)); (1, (0, 1, 3)); (2, (2, 3, 4)); (3, (3, 5, 4))]%N.
Proof. reflexivity. Qed.
Example C16_checker_example : make_elements checker 2 2 =
  Ok [(0, (0, 4, 3)); (1, (0, 1, 4)); (2, (1, 2, 4)); (3, (2, 5, 4)); (4, (3, 4, 6)); (5, (4, 7, 6)); (6, (4, 8, 7)); (7, (4, 5, 8))]%N.
Proof. reflexivity. Qed.
Example C16_boundary_example : boundary_nodes 2 1 = [[0; 1; 2]; [2; 5]; [3; 4; 5]; [0; 3]]%N.
Proof. reflexivity. Qed.
Example C16_fits_example : fits 3 5 /\ convex_ccw (0, 0) (4, 0) (5, 3) (1, 2).
Proof. split; [repeat split; reflexivity|]. unfold convex_ccw, orient. cbn. lra. Qed.
Example C16_start_example :
  match quad_mesh (NT := Num_Q) (0, 0)%Q (1, 0)%Q (1, 1)%Q (0, 1)%Q (fun _ _ => 1%Q) checker [0; 1; 3; 2]%N 3 2 with
  | Ok (_, mesh) =>
      match mesh_metadata mesh (edge_dictionary (ad_elements mesh)) with
      | Ok t => match create_raw (map fst (ad_elements mesh)) t with
                | Ok rb => match initialize_serial rb with Ok _ => Some (map (fun t => length (rb t)) [0; 1; 2; 3; 128]%N) | _ => None end
                | _ => None
                end
      | _ => None
      end
  | _ => None
  end = Some [3; 2; 2; 3; 26]%nat.
Proof. vm_compute. reflexivity. Qed.

(** For a quadrilateral with a dent some element is clockwise. *)
Theorem C16_dent_refuted : exists p1 p2 p3 p4 nodes mesh e t a b c, 0 < orient p1 p2 p3 + orient p3 p4 p1 /\
  quad_mesh p1 p2 p3 p4 (fun _ _ => 0) simple [0; 0; 0; 0]%N 1 1 = Ok (nodes, mesh) /\ In (e, t) (ad_elements mesh) /\
  node_at nodes (vertex t 0) a /\ node_at nodes (vertex t 1) b /\ node_at nodes (vertex t 2) c /\ orient a b c < 0.
Proof.
  assert (F : fits 1 1) by (repeat split; reflexivity).
  exists (0, 0), (4, 0), (4, 4), (3, 1), (node_list (0, 0) (4, 0) (4, 4) (3, 1) (fun _ _ => 0) 1 1), (quad_adcirc [0; 0; 0; 0]%N 1 1 (quad_elements simple 1 1)), 0%N, (0, 3, 2)%N.
  assert (P := fun i j q => node_at_ok (0, 0) (4, 0) (4, 4) (3, 1) (fun _ _ => 0) 1 1 eq_refl eq_refl i j q).
  exists (0, 0), (4, 4), (3, 1). split; [unfold orient; cbn; lra|]. split; [apply quad_mesh_eq; exact F|]. split; [left; reflexivity|].
  split; [apply (P 0%N 0%N)|split; [apply (P 1%N 1%N)|split; [apply (P 0%N 1%N)|unfold orient; cbn; lra]]]; try discriminate; unfold quad_point; cbn; f_equal; field.
Qed.
Print Assumptions C16_dent_refuted.

(** 65536 by 65536 cells: the node count wraps round in 32 bits and a node is stored outside
    the array. *)
Theorem C16_wrap_refuted : exists m n, (0 < m)%N /\ (0 < n)%N /\ (m < 4294967296)%N /\ (n < 4294967296)%N /\
  forall p1 p2 p3 p4 bath pat types, quad_mesh p1 p2 p3 p4 bath pat types m n = UB.
Proof. exact quad_wrap. Qed.
Print Assumptions C16_wrap_refuted.

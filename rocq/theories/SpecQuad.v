(** What a generated quadrilateral mesh should be. *)
From Coq Require Import Reals NArith List Arith.
From Verif Require Import ModelMesh SpecMesh SpecShape SpecStep.
Import ListNotations.
Open Scope R_scope.

Definition mesh_nodes := list (N * (R * R * R)).
(** Node v of the file lies at p. *)
Definition node_at (nodes : mesh_nodes) (v : N) (p : pt) : Prop := exists z, In (v, (fst p, snd p, z)) nodes.

(** Position (i/m, j/n) of the quadrilateral p1 p2 p3 p4. *)
Definition quad_point (p1 p2 p3 p4 : pt) (m n i j : N) : pt :=
  let r := fun k => IZR (Z.of_N k) in
  let c := fun a b c d => ((r m - r i) * (r n - r j) * a + r i * (r n - r j) * b + r i * r j * c + (r m - r i) * r j * d) / (r m * r n) in
  (c (fst p1) (fst p2) (fst p3) (fst p4), c (snd p1) (snd p2) (snd p3) (snd p4)).

(** Convex, corners given counter-clockwise. *)
Definition convex_ccw (p1 p2 p3 p4 : pt) : Prop :=
  0 < orient p4 p1 p2 /\ 0 < orient p1 p2 p3 /\ 0 < orient p2 p3 p4 /\ 0 < orient p3 p4 p1.

Definition element_ccw (nodes : mesh_nodes) (t : N * N * N) : Prop :=
  exists a b c, node_at nodes (vertex t 0) a /\ node_at nodes (vertex t 1) b /\ node_at nodes (vertex t 2) c /\ 0 < orient a b c.

(** The mesh as a triangulation of its boundary lists: a face is either shared with exactly
    one other face, or is an edge of exactly one boundary list; and every edge of a boundary
    list belongs to exactly one face. *)
Definition conforming (els : list (N * (N * N * N))) (lists : list (list N)) : Prop :=
  at_most_two els /\ meet_once els /\
  (forall f p, face_on els f p ->
     (exists g, share_edge els f g) /\ (forall l, In l lists -> ~ neighbours l (fst p) (snd p)) \/
     (forall g, ~ share_edge els f g) /\
       exists s, (s < length lists)%nat /\ neighbours (nth s lists []) (fst p) (snd p) /\
         forall s', (s' < length lists)%nat -> neighbours (nth s' lists []) (fst p) (snd p) -> s' = s) /\
  (forall l x y, In l lists -> neighbours l x y -> exists f p, face_on els f p /\ same_edge (x, y) p /\
     forall f' p', face_on els f' p' -> same_edge (x, y) p' -> f' = f).

(** Twice the area covered by the elements. *)
Definition elements_area2 (pos : N -> pt) (els : list (N * (N * N * N))) : R :=
  lsum els (fun e => orient (pos (vertex (snd e) 0)) (pos (vertex (snd e) 1)) (pos (vertex (snd e) 2))).

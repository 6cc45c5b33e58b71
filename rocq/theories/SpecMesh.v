(** Specifications for the mesh-topology properties.  From the model only the
    record types of the input and the type codes are used, and the
    two relations at the end name the results of the constructors. *)
From Coq Require Import Sorted NArith List Arith Permutation.
From Verif Require Import Outcome ModelMesh.
Import ListNotations.
Local Open Scope N_scope.

(** x is immediately followed by y somewhere in l. *)
Definition followed (l : list N) (x y : N) : Prop := exists a b, l = a ++ x :: y :: b.
(** x and y are neighbours in l, in either order. *)
Definition neighbours (l : list N) (x y : N) : Prop := followed l x y \/ followed l y x.

(** Side k of a triangle is the pair of the two vertices other than vertex k. *)
Definition vertex (t : N * N * N) (i : nat) : N :=
  let '(a, b, c) := t in nth (i mod 3)%nat [a; b; c] 0.
Definition side (t : N * N * N) (k : nat) : N * N := (vertex t (k + 1), vertex t (k + 2)).
Definition same_edge (p q : N * N) : Prop := p = q \/ p = (snd q, fst q).

(** (e, k) is a face of the mesh lying on the edge p. *)
Definition face_on (els : list (N * (N * N * N))) (f : N * nat) (p : N * N) : Prop :=
  exists t, In (fst f, t) els /\ (snd f < 3)%nat /\ p = side t (snd f).
(** Two different faces on the same edge. *)
Definition share_edge (els : list (N * (N * N * N))) (f g : N * nat) : Prop :=
  f <> g /\ exists p q, face_on els f p /\ face_on els g q /\ same_edge p q.
(** No edge carries three different faces. *)
Definition at_most_two (els : list (N * (N * N * N))) : Prop :=
  forall f g h, share_edge els f g -> share_edge els g h -> share_edge els f h -> False.
(** Ids fit in 32 bits and differ from the reserved one. *)
Definition ids_ok (els : list (N * (N * N * N))) : Prop :=
  NoDup (map fst els) /\
  forall e t, In (e, t) els -> e < 4294967295 /\ forall i, vertex t i < 4294967296.

(** x on one side of a barrier, y its partner on the other. *)
Definition partner_in (l m : list N) (x y : N) : Prop :=
  exists i, nth_error l i = Some x /\ nth_error m i = Some y.

(** ** Barriers *)
(** l and m are the two sides (in either order) of barrier number i. *)
Definition barrier_side (segs : list segment) (i : nat) (l m : list N) : Prop :=
  exists s c, nth_error segs i = Some s /\ sg_ibconn s = Some c /\
    ((l = sg_nbvv s /\ m = c) \/ (l = c /\ m = sg_nbvv s)).
Definition barriers_ok (segs : list segment) : Prop :=
  (forall s c, In s segs -> sg_ibconn s = Some c ->
     length (sg_nbvv s) = length c /\ (2 <= length c)%nat /\ NoDup (sg_nbvv s ++ c)) /\
  (forall i j l m l' m' x y, barrier_side segs i l m -> barrier_side segs j l' m' ->
     neighbours l x y -> neighbours l' x y -> i = j).

(** (x, y) is an edge of one side of some barrier. *)
Definition barrier_edge (segs : list segment) (x y : N) : Prop :=
  exists i l m, barrier_side segs i l m /\ neighbours l x y.

(** Elements meet in at most one edge, and an element does not meet itself. *)
Definition meet_once (els : list (N * (N * N * N))) : Prop :=
  (forall f g, share_edge els f g -> fst f <> fst g) /\
  (forall f g f' g', share_edge els f g -> share_edge els f' g' -> fst f = fst f' -> fst g = fst g' -> f = f').

(** Node ids in the segments fit in 32 bits. *)
Definition seg_ids_ok (segs : list segment) : Prop :=
  forall s x, In s segs -> (In x (sg_nbvv s) \/ exists c, sg_ibconn s = Some c /\ In x c) -> x < 4294967296.


(** Edge r is what edge p faces across a barrier. *)
Definition faces_across (segs : list segment) (p r : N * N) : Prop :=
  exists i l m u v, barrier_side segs i l m /\ neighbours l (fst p) (snd p) /\
    partner_in l m (fst p) u /\ partner_in l m (snd p) v /\ same_edge (v, u) r.

(** ** Classification of boundary edges *)
Definition seg_kind (ib : N) : option N :=
  match ib mod 10 with
  | 0 => Some bt_land
  | 2 => Some bt_flow
  | 4 => Some bt_levee
  | _ => if ib =? 77 then Some bt_function else if ib =? 88 then Some bt_outflow else None
  end.
Definition seg_has (s : segment) (x y : N) : Prop :=
  neighbours (sg_nbvv s) x y \/ exists c, sg_ibconn s = Some c /\ neighbours c x y.
(** The edge closing a barrier at its first or last pair of nodes. *)
Definition closes_barrier (segs : list segment) (x y : N) : Prop :=
  exists s c a b, In s segs /\ sg_ibconn s = Some c /\ same_edge (x, y) (a, b) /\
    ((hd_error (sg_nbvv s) = Some a /\ hd_error c = Some b) \/
     (hd_error (rev (sg_nbvv s)) = Some a /\ hd_error (rev c) = Some b)).
Inductive classified (m : adcirc) (x y : N) : N -> Prop :=
| cl_open : forall l, In l (ad_nbdv m) -> neighbours l x y -> classified m x y bt_tide
| cl_segment : forall s1 s s2 bt,
    (forall l, In l (ad_nbdv m) -> ~ neighbours l x y) ->
    ad_segs m = s1 ++ s :: s2 -> seg_kind (sg_type s) = Some bt -> seg_has s x y ->
    (forall s', In s' s1 -> seg_kind (sg_type s') <> None -> ~ seg_has s' x y) ->
    classified m x y bt
| cl_land :
    (forall l, In l (ad_nbdv m) -> ~ neighbours l x y) ->
    (forall s, In s (ad_segs m) -> seg_kind (sg_type s) <> None -> ~ seg_has s x y) ->
    (exists l, In l (ad_nbgn m) /\ neighbours l x y) \/ closes_barrier (ad_segs m) x y ->
    classified m x y bt_land.

(** Levee faces that face each other across a barrier. *)
Definition levee_faces (m : adcirc) (f g : N * nat) : Prop :=
  exists p r, face_on (ad_elements m) f p /\ face_on (ad_elements m) g r /\
    (forall h, ~ share_edge (ad_elements m) f h) /\ (forall h, ~ share_edge (ad_elements m) g h) /\
    classified m (fst p) (snd p) bt_levee /\ classified m (fst r) (snd r) bt_levee /\
    faces_across (ad_segs m) p r.

(** Segments as the mesh reader produces them, no barrier empty. *)
Definition segs_read (m : adcirc) : Prop :=
  forall s, In s (ad_segs m) -> reader_segment s = true /\ (forall c, sg_ibconn s = Some c -> c <> []).

(** What faces a levee edge is again a levee edge on the mesh boundary. *)
Definition levee_closed (m : adcirc) : Prop :=
  forall p g r, classified m (fst p) (snd p) bt_levee -> face_on (ad_elements m) g r -> faces_across (ad_segs m) p r ->
     (forall h, ~ share_edge (ad_elements m) g h) /\ classified m (fst r) (snd r) bt_levee.

(** t is a possible result of the metadata constructor: the dictionary may be
    visited in any order. *)
Definition metadata_of (m : adcirc) (t : etable) : Prop :=
  exists order, Permutation order (edge_dictionary (ad_elements m)) /\ mesh_metadata m order = Ok t.
(** rb is a possible result of collecting the raw boundaries of t: the
    elements may be visited in any order. *)
Definition raw_of (m : adcirc) (t : etable) (rb : rawmap) : Prop :=
  exists ids, Permutation ids (map fst (ad_elements m)) /\ create_raw ids t = Ok rb.
Definition mesh_face (els : list (N * (N * N * N))) (f : N * nat) : Prop := exists p, face_on els f p.

(** Raw boundary maps are kept in key order. *)
Definition key_sorted {V : Type} (m : rmap V) : Prop := StronglySorted (fun a b => key_ltb (fst a) (fst b) = true) m.

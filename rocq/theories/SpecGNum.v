(** Specification of the numbering of the wet edges of a divided mesh. *)
From Coq Require Import NArith List Bool Reals Permutation.
From Verif Require Import Outcome ModelDofs ModelGNum SpecDofs.
Import ListNotations.
Open Scope N_scope.

Definition entries_of (rs : list (list gunit)) : list entry := concat (concat rs).
Definition items_of (rs : list (list gunit)) : list item := map fst (entries_of rs).
(** The edge belongs to this unit: a cut to the lower of its two sides. *)
Definition at_home (it : item) : bool := match it with Cut _ _ i x _ => side_lt i x | _ => true end.
(** A division of a mesh: each edge has one home, each face is one side of one edge, the
    two halves of a cut know each other and, if dry, whether the other is wet. *)
Definition divided (wet : nat -> bool) (rs : list (list gunit)) : Prop :=
  NoDup (map i_edge (filter at_home (items_of rs))) /\
  NoDup (flat_map i_slots (items_of rs)) /\
  (forall k a i x wn, In (Cut k a i x wn) (items_of rs) -> i <> x /\
     exists b wn', In (Cut k b x i wn') (items_of rs) /\ (wet (fst a) = false -> wn = wet (fst b)) /\ (wet (fst b) = false -> wn' = wet (fst a))) /\
  (forall us u e s f, In us rs -> In u us -> In e u -> In s (i_slots (fst e)) -> (f < 3)%nat ->
     exists e', In e' u /\ In (fst s, f) (i_slots (fst e'))).

(** Sides of an edge on the whole mesh, the edges with a wet side, the edge of a face. *)
Definition sides_of (rs : list (list gunit)) (k : nat) : list slot :=
  flat_map i_slots (filter (fun it => Nat.eqb (i_edge it) k) (items_of rs)).
Definition wet_edge (wet : nat -> bool) (rs : list (list gunit)) (k : nat) : Prop :=
  exists s, In s (sides_of rs k) /\ wet (fst s) = true.
Definition edge_at (rs : list (list gunit)) (s : slot) (k : nat) : Prop := In s (sides_of rs k).

(** [num] numbers the wet edges 0, 1, ..., n - 1 in some order [ks]. *)
Definition numbering_of (wet : nat -> bool) (rs : list (list gunit)) (num : nat -> N) (n : N) : Prop :=
  exists ks, NoDup ks /\ (forall k, In k ks <-> wet_edge wet rs k) /\ map num ks = upto n.

(** What an element has to do with an edge: one term per wet side, in the unknowns [X]. *)
Definition edge_equation (wet : nat -> bool) (rs : list (list gunit)) (own : slot -> R) (con : slot -> nat -> R) (at_ : slot -> R) (k : nat) : R :=
  sum_of (fun s => Rplus (Rmult (own s) (at_ s)) (sum_of (fun f => Rmult (con s f) (at_ (fst s, f))) (others (snd s))))
    (filter (fun s => wet (fst s)) (sides_of rs k)).

(** A half with a wet side knows the number of its edge, also through the face of the
    element, and finds it at its place in the local index set. *)
Definition renumbered (wet : nat -> bool) (rs : list (list gunit)) (res : list (list gunit * list N)) (num : nat -> N) : Prop :=
  map (map (map fst)) (map fst res) = map (map (map fst)) rs /\
  forall us v e, In (us, v) res -> In e (concat us) -> (exists s, In s (i_slots (fst e)) /\ wet (fst s) = true) ->
    i_glob (snd e) = num (i_edge (fst e)) /\ i_slot (snd e) = num (i_edge (fst e)) /\
    nth_error v (N.to_nat (i_loc (snd e))) = Some (num (i_edge (fst e))).

(** All the units of a run. *)
Definition all_units (res : list (list gunit * list N)) : list gunit := concat (map fst res).
(** X solves the n equations. *)
Definition solves (M : list (N * N * R)) (b : list (N * R)) (n : N) (X : N -> R) : Prop := forall r, r < n -> row_times M X r = row_rhs b r.
(** Two divisions of one mesh. *)
Definition same_mesh (P Q : list (list gunit)) : Prop := forall k, Permutation (sides_of P k) (sides_of Q k).
Definition few (rs : list (list gunit)) : Prop := N.of_nat (length (items_of rs)) < 2 ^ 32.

(** The point standing for the centre of the neighbour across a face. *)
From Coq Require Import Reals List.
From Verif Require Import ModelShape ModelSlope ModelStep ModelInit.
Open Scope R_scope.

(** Across an interface it is the centre of the element on the other side, across a boundary
    the mirror image of the element's own centre in the middle of the face. *)
Definition centre_across (i : input) (e b : nat) (x : point) : Prop :=
  (exists f, In f (in_intfaces i) /\
     ((i_in f = e /\ i_bin f = b /\ x = GetBarycentricCoordinates (in_nodes i (i_ex f))) \/
      (i_ex f = e /\ i_bex f = b /\ x = GetBarycentricCoordinates (in_nodes i (i_in f))))) \/
  (exists f, In f (in_bounds i) /\ b_elt f = e /\ b_id f = b /\
     fst x = 2 * fst (midpoint (in_nodes i e) b) - fst (GetBarycentricCoordinates (in_nodes i e)) /\
     snd x = 2 * snd (midpoint (in_nodes i e) b) - snd (GetBarycentricCoordinates (in_nodes i e))).

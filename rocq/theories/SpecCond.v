(** Specification of one Newton step of the implicit HDG solver: the coupled linear system
    for element updates and trace updates, before any condensation. *)
From Coq Require Import Reals List Permutation.
From Verif Require Import ModelCond SpecStepper SpecStep.
Import ListNotations.
Open Scope R_scope.

(** Element equations: A dq + sum over the boundaries of B^hat dlambda = r. *)
Definition element_equations (nelt : nat) (els : nat -> elt R) (dq : nat -> nat -> R) (x : nat -> R) : Prop :=
  forall K i, (K < nelt)%nat -> (i < 3 * e_ndof (els K))%nat ->
    rsum (3 * e_ndof (els K)) (fun j => e_delta (els K) i j * dq K j) +
    rsum (e_nbound (els K)) (fun b =>
      rsum (length (b_dofs (e_bnd (els K) b))) (fun j =>
        b_hat (e_bnd (els K) b) i j * x (nth j (b_dofs (e_bnd (els K) b)) 0%nat)))
    = e_rhs (els K) i.

(** What one side contributes to an edge equation: G dq. *)
Definition side_term (els : nat -> elt R) (dq : nat -> nat -> R) (i : nat) (s : slot) : R :=
  rsum (3 * e_ndof (els (fst s))) (fun j => b_glob (e_bnd (els (fst s)) (snd s)) i j * dq (fst s) j).
(** D dlambda. *)
Definition trace_term (x : nat -> R) (i : nat) (ed : edge R) : R :=
  rsum (length (d_dofs ed)) (fun j => d_delta ed i j * x (nth j (d_dofs ed) 0%nat)).

(** Edge equations: sum over the sides of G dq, plus D dlambda, = g. *)
Definition edge_equations (els : nat -> elt R) (edges : list (list slot * edge R)) (dq : nat -> nat -> R) (x : nat -> R) : Prop :=
  forall sides ed i, In (sides, ed) edges -> (i < 3 * d_ndof ed)%nat ->
    lsum sides (side_term els dq i) + trace_term x i ed = d_rhs ed i.

Definition edges_of (sk : skeleton R) : list (list slot * edge R) :=
  map (fun e => ([fst (fst e); snd (fst e)], snd e)) (s_int sk) ++ map (fun e => ([fst e], snd e)) (s_bnd sk).

Definition full_system (sk : skeleton R) (dq : nat -> nat -> R) (x : nat -> R) : Prop :=
  element_equations (s_nelt sk) (s_elt sk) dq x /\ edge_equations (s_elt sk) (edges_of sk) dq x.

(** Every boundary of every element is a side of exactly one edge and carries its indices. *)
Definition slots_of (nelt : nat) (els : nat -> elt R) : list slot :=
  flat_map (fun K => map (pair K) (seq 0 (e_nbound (els K)))) (seq 0 nelt).
Definition attached (nelt : nat) (els : nat -> elt R) (edges : list (list slot * edge R)) : Prop :=
  Permutation (flat_map fst edges) (slots_of nelt els) /\
  (forall sides ed, In (sides, ed) edges -> (0 < d_ndof ed)%nat /\ length (d_dofs ed) = (3 * d_ndof ed)%nat /\
     forall s, In s sides -> b_dofs (e_bnd (els (fst s)) (snd s)) = d_dofs ed).

(** The serial numbering of C33: the edges own 0, 1, ..., size - 1 in order. *)
Definition numbered (sk : skeleton R) : Prop :=
  concat (map (fun e => d_dofs (snd e)) (edges_of sk)) = seq 0 (s_size sk).
Definition well_formed (sk : skeleton R) : Prop := attached (s_nelt sk) (s_elt sk) (edges_of sk) /\ numbered sk.

(** Contracts of the two library routines. *)
Definition two_sided (n : nat) (A B : nat -> nat -> R) : Prop :=
  forall i j, (i < n)%nat -> (j < n)%nat ->
    rsum n (fun l => A i l * B l j) = (if Nat.eqb i j then 1 else 0) /\
    rsum n (fun l => B i l * A l j) = (if Nat.eqb i j then 1 else 0).
Definition inverse_ok (inverse : nat -> (nat -> nat -> R) -> nat -> nat -> R) : Prop :=
  forall n A, (exists B, two_sided n A B) -> two_sided n A (inverse n A).
Definition solves (n : nat) (M : nat -> nat -> R) (b x : nat -> R) : Prop :=
  forall r, (r < n)%nat -> rsum n (fun c => M r c * x c) = b r.
Definition agree (n : nat) (x y : nat -> R) : Prop := forall r, (r < n)%nat -> x r = y r.
Definition solver_ok (solve : nat -> (nat -> nat -> R) -> (nat -> R) -> nat -> R) : Prop :=
  forall n M b, (exists x, solves n M b x /\ forall y, solves n M b y -> agree n x y) -> solves n M b (solve n M b).

(** The local blocks can be inverted, and the coupled system has exactly one solution. *)
Definition invertible_blocks (nelt : nat) (els : nat -> elt R) : Prop :=
  forall K, (K < nelt)%nat -> exists B, two_sided (3 * e_ndof (els K)) (e_delta (els K)) B.
Definition same_update (nelt : nat) (els : nat -> elt R) (size : nat) (dq dq' : nat -> nat -> R) (x x' : nat -> R) : Prop :=
  (forall K, (K < nelt)%nat -> agree (3 * e_ndof (els K)) (dq K) (dq' K)) /\ agree size x x'.
Definition uniquely_solvable (sk : skeleton R) : Prop :=
  (exists dq x, full_system sk dq x) /\
  (forall dq x dq' x', full_system sk dq x -> full_system sk dq' x' -> same_update (s_nelt sk) (s_elt sk) (s_size sk) dq dq' x x').

(** The new states are the old ones plus the updates, three variables per degree of freedom. *)
Definition q_updated (nelt : nat) (els : nat -> elt R) (q : nat -> nat -> nat -> R) (dq : nat -> nat -> R) : Prop :=
  forall K var dof, (K < nelt)%nat -> (var < 3)%nat -> (dof < e_ndof (els K))%nat ->
    q K var dof = e_q (els K) var dof + dq K (3 * dof + var)%nat.
Definition qhat_updated (ed : edge R) (qhat : nat -> nat -> R) (x : nat -> R) : Prop :=
  forall var dof, (var < 3)%nat -> (dof < d_ndof ed)%nat ->
    qhat var dof = d_qhat ed var dof + x (nth (3 * dof + var) (d_dofs ed) 0%nat).

(** The iteration stops when the root of the sum of squares of the trace update, divided by the
    number of trace unknowns, is below 1e-8. *)
Definition conv_spec (size : nat) (x : nat -> R) (b : bool) : Prop :=
  b = true <-> sqrt (rsum size (fun r => x r * x r)) / INR size < / 100000000.

(** ** Distributed edges: the two submeshes sharing an edge hold one half each. *)
Definition unit_edge_list (u : unit_edges R) : list (list slot * edge R) :=
  map (fun e => ([fst (fst e); snd (fst e)], snd e)) (u_ints u) ++ map (fun e => ([fst e], snd e)) (u_bnds u).
Definition half_list (us : list (unit_edges R)) : list (slot * edge R) := flat_map u_dists us.

(** [pairs] joins the halves two by two; both halves carry the same indices. *)
Definition paired (us : list (unit_edges R)) (pairs : list ((slot * edge R) * (slot * edge R))) : Prop :=
  Permutation (half_list us) (flat_map (fun p => [fst p; snd p]) pairs) /\
  (forall p, In p pairs -> d_dofs (snd (fst p)) = d_dofs (snd (snd p)) /\ d_ndof (snd (fst p)) = d_ndof (snd (snd p))).
(** The edge of the undivided mesh: both sides, blocks and right-hand sides added. *)
Definition joined (p : (slot * edge R) * (slot * edge R)) : list slot * edge R :=
  ([fst (fst p); fst (snd p)],
   Edge (d_ndof (snd (fst p))) (fun i j => d_delta (snd (fst p)) i j + d_delta (snd (snd p)) i j)
        (fun i => d_rhs (snd (fst p)) i + d_rhs (snd (snd p)) i) (d_dofs (snd (fst p))) (d_qhat (snd (fst p)))).
Definition whole_edges (us : list (unit_edges R)) (pairs : list ((slot * edge R) * (slot * edge R))) : list (list slot * edge R) :=
  flat_map unit_edge_list us ++ map joined pairs.

Definition whole_system (nelt : nat) (els : nat -> elt R) (us : list (unit_edges R))
    (pairs : list ((slot * edge R) * (slot * edge R))) (dq : nat -> nat -> R) (x : nat -> R) : Prop :=
  element_equations nelt els dq x /\ edge_equations els (whole_edges us pairs) dq x.
Definition whole_ok (size nelt : nat) (els : nat -> elt R) (us : list (unit_edges R))
    (pairs : list ((slot * edge R) * (slot * edge R))) : Prop :=
  paired us pairs /\ attached nelt els (whole_edges us pairs) /\
  Permutation (concat (map (fun e => d_dofs (snd e)) (whole_edges us pairs))) (seq 0 size).

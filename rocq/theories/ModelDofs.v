(** Model of the numbering of global unknowns in the IHDG scheme.

    Edges are represented by their number of polynomial degrees of freedom and,
    for distributed edges, the (locality, submesh) pairs on both sides and the
    position in the rank boundary; the matrices resized in the same loops are not
    modelled.  The value exchanged for a distributed edge goes through the message
    of ModelComm; here the cell with key (sender, receiver, position) holds it. *)
From Coq Require Import NArith List Bool.
From Verif Require Import Outcome ModelDist ModelComm.
Import ListNotations.
Open Scope N_scope.

Record dedge := DEdge { g_ndof : N; g_in : N * N; g_ex : N * N; g_pos : N }.
Record dunit := DUnit { u_int : list N; u_bnd : list N; u_dist : list dedge }.

(** ihdg_swe_pre_init_global_prob.hpp lines 120-126, 212-218 and 289-296: comparison
    of the two sides of a distributed edge. *)
Definition side_lt (a b : N * N) : bool := (fst a <? fst b) || ((fst a =? fst b) && (snd a <? snd b)).
Definition owns (e : dedge) : bool := side_lt (g_in e) (g_ex e).
Definition defers (e : dedge) : bool := side_lt (g_ex e) (g_in e).

(** Lines 37-47 / 79-87 / 127-136: one block of ndof * n_variables indices. *)
Definition dofs (ndof : N) : N := w32 (ndof * 3).
Definition indices (offset ndof : N) : list N := map (fun i => w32 (i + offset)) (seqN (dofs ndof)).
Definition number_edges (ndofs : list N) (offset : N) : list (list N) * N :=
  fold_left (fun acc ndof => (fst acc ++ [indices (snd acc) ndof], w32 (snd acc + dofs ndof))) ndofs ([], offset).
Definition number_dist (es : list dedge) (offset : N) : list (list N) * N :=
  fold_left (fun acc e => if owns e then (fst acc ++ [indices (snd acc) (g_ndof e)], w32 (snd acc + dofs (g_ndof e)))
                          else (fst acc ++ [[]], snd acc)) es ([], offset).

(** Index lists of the interfaces, boundaries and distributed edges of a unit. *)
Record numbering := Numbering { n_int : list (list N); n_bnd : list (list N); n_dist : list (list N) }.

(** initialize_global_problem_serial, lines 6-103. *)
Definition number_serial (u : dunit) (offset : N) : numbering * N :=
  let i := number_edges (u_int u) offset in
  let b := number_edges (u_bnd u) (snd i) in
  (Numbering (fst i) (fst b) [], snd b).
(** initialize_global_problem_parallel_pre_send, lines 105-149. *)
Definition pre_send (u : dunit) : numbering * N :=
  let s := number_serial u 0 in
  let d := number_dist (u_dist u) (snd s) in
  (Numbering (n_int (fst s)) (n_bnd (fst s)) (fst d), snd d).

(** ihdg_swe_pre_ompi.hpp lines 51-61 and 86-97.  std::accumulate with initial value
    0 (an int; unsigned terms make the additions unsigned), rotation by one to the
    right, front set to 0, running sums. *)
Definition accumulate (v : list N) : N := fold_left (fun a x => w32 (a + x)) v 0.
Definition rotate_right (v : list N) : list N := match v with [] => [] | _ => last v 0 :: removelast v end.
Definition set_front (v : list N) : list N := match v with [] => [] | _ :: r => 0 :: r end.
Definition running (v : list N) : list N :=
  match v with [] => [] | x :: r => fold_left (fun acc y => acc ++ [w32 (y + last acc 0)]) r [x] end.
Definition exclusive_scan (v : list N) : list N := running (set_front (rotate_right v)).

(** initialize_global_problem_parallel_finalize_pre_send, lines 151-232; for a
    distributed edge the indices are shifted only by its owner (the others are
    still empty). *)
Definition shift (off : N) (b : list N) : list N := map (fun i => w32 (i + off)) b.
Definition finalize (n : numbering) (off : N) : numbering :=
  Numbering (map (shift off) (n_int n)) (map (shift off) (n_bnd n)) (map (shift off) (n_dist n)).
(** First index sent by the owner; global_dof_indx[0] of an empty vector is undefined. *)
Definition cell : Type := (N * N) * (N * N) * N.
Definition mail (u : dunit) (n : numbering) : outcome (list (cell * N)) :=
  ofold (fun acc eb => if owns (fst eb) then do x <- of_index (nth_error (snd eb) 0) ; Ok (acc ++ [((g_in (fst eb), g_ex (fst eb), g_pos (fst eb)), x)])
                       else Ok acc) (combine (u_dist u) (n_dist n)) [].

(** initialize_global_problem_parallel_post_receive, lines 234-320; an absent cell
    stands for reading a buffer nobody wrote. *)
Definition cell_eqb (a b : cell) : bool :=
  let '((a1, a2), (a3, a4), a5) := a in let '((b1, b2), (b3, b4), b5) := b in
  (a1 =? b1) && (a2 =? b2) && (a3 =? b3) && (a4 =? b4) && (a5 =? b5).
Definition lookup (c : cell) (box : list (cell * N)) : option N := option_map snd (find (fun x => cell_eqb c (fst x)) box).
Definition post_receive (box : list (cell * N)) (u : dunit) (n : numbering) : outcome numbering :=
  do d <- ofold (fun acc eb =>
    if defers (fst eb) then do x <- of_index (lookup (g_ex (fst eb), g_in (fst eb), g_pos (fst eb)) box) ; Ok (acc ++ [indices x (g_ndof (fst eb))])
    else Ok (acc ++ [snd eb])) (combine (u_dist u) (n_dist n)) [] ;
  Ok (Numbering (n_int n) (n_bnd n) d).

(** ihdg_swe_pre_ompi.hpp lines 33-131 for all localities at once: [ls] lists the
    units of each locality.  MPI_Gather / MPI_Scatter move the totals to and the
    scanned offsets from locality 0.  The calls of [.front()] on empty vectors
    there (lines 75, 101, 147) are the subject of a separate statement. *)
Fixpoint omap {A B : Type} (f : A -> outcome B) (l : list A) : outcome (list B) :=
  match l with [] => Ok [] | a :: r => do b <- f a ; do t <- omap f r ; Ok (b :: t) end.
Definition unit_offsets (loc_off : N) (totals : list N) : list N := map (fun o => w32 (o + loc_off)) (exclusive_scan totals).
Definition finalize_units (loc_off : N) (pre : list (numbering * N)) : list numbering :=
  map (fun x => finalize (fst (fst x)) (snd x)) (combine pre (unit_offsets loc_off (map snd pre))).
Definition number_all (ls : list (list dunit)) : outcome (list (list numbering) * N) :=
  let pre := map (map pre_send) ls in
  let totals := map (fun us => accumulate (map snd us)) pre in
  let fin := map (fun x => finalize_units (snd x) (fst x)) (combine pre (exclusive_scan totals)) in
  do boxes <- omap (fun un => omap (fun x => mail (fst x) (snd x)) (combine (fst un) (snd un))) (combine ls fin) ;
  let box := concat (concat boxes) in
  do res <- omap (fun un => omap (fun x => post_receive box (fst x) (snd x)) (combine (fst un) (snd un))) (combine ls fin) ;
  Ok (res, accumulate totals).

(** Lines 234-320: sol_offset of every edge and the local list of indices. *)
Definition all_edges (n : numbering) : list (list N) := n_int n ++ n_bnd n ++ n_dist n.
Definition collect (ns : list numbering) : list (list N) * list N :=
  fold_left (fun acc n =>
    let r := fold_left (fun a b => (fst a ++ [N.of_nat (length (snd a))], snd a ++ b)) (all_edges n) ([], snd acc) in
    (fst acc ++ [fst r], snd r)) ns ([], []).

(** Lines 69-75: length of the vector whose .front() is passed to MPI_Gather. *)
Definition gather_vector (locality n_localities : N) : list N := if locality =? 0 then repeat 0 (N.to_nat n_localities) else [].
Definition front {A : Type} (v : list A) : outcome A := of_index (nth_error v 0).

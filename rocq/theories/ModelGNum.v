(** Numbering, assembly and read-back of the trace unknowns of the Green-Naghdi
    correction on several localities with wetting and drying:
    problem/Green-Naghdi/discretization_EHDG/kernels_processor/ehdg_gn_proc_ompi_sol_glob_prob.hpp
    lines 147-380 and reset_PETSC_solver, lines 386-635.

    A unit is the list of its edges in the order in which the code visits them
    (interfaces, boundaries, distributed edges), each with the three numbers stored for
    it.  Elements, faces and edges are named by numbers that are unique on the whole
    mesh.  One unknown stands for the block of unknowns of an edge: the code numbers
    blocks (VecSetBlockSize, MatSetValuesBlocked).  A message of an edge is found by the
    two sides and the edge.  The values of the blocks are parameters; creation of the
    PETSc objects and the solver itself are left out. *)
From Coq Require Import NArith List Bool Reals.
From Verif Require Import Outcome ModelDist ModelComm ModelDofs.
Import ListNotations.
Open Scope N_scope.

(** (element, face). *)
Definition slot : Type := (nat * nat)%type.
(** Int: both slots; Bnd: the slot; Cut: the own slot, the (locality, submesh) pairs
    in and ex of the exchanger and wet_neighbor. *)
Inductive item := Int (k : nat) (a b : slot) | Bnd (k : nat) (a : slot) | Cut (k : nat) (a : slot) (i x : N * N) (wn : bool).
(** edge_internal.dc_global_dof_indx, boundary[..].dc_global_dof_indx and
    edge_internal.dc_local_dof_indx. *)
Record ids := Ids { i_glob : N; i_slot : N; i_loc : N }.
Definition entry : Type := (item * ids)%type.
Definition gunit : Type := list entry.

Definition i_edge (it : item) : nat := match it with Int k _ _ => k | Bnd k _ => k | Cut k _ _ _ _ => k end.
Definition i_slots (it : item) : list slot := match it with Int _ a b => [a; b] | Bnd _ a => [a] | Cut _ a _ _ _ => [a] end.
Definition set_glob (m : ids) (g : N) : ids := Ids g g (i_loc m).
Definition set_loc (m : ids) (l : N) : ids := Ids (i_glob m) (i_slot m) l.

Section Num.
  Context (wet : nat -> bool).
  Definition is_wet (s : slot) : bool := wet (fst s).
  (** Lines 410-413, 427-428 and 446-448: edges numbered by this unit. *)
  Definition numbers (it : item) : bool :=
    match it with
    | Int _ a b => is_wet a || is_wet b
    | Bnd _ a => is_wet a
    | Cut _ a i x wn => (is_wet a || wn) && side_lt i x
    end.
  (** Lines 574-577, 586-587 and 603-604: edges that get a place in the local solution. *)
  Definition holds (it : item) : bool :=
    match it with
    | Int _ a b => is_wet a || is_wet b
    | Bnd _ a => is_wet a
    | Cut _ a _ _ _ => is_wet a
    end.
  (** Line 605. *)
  Definition asks (it : item) : bool := match it with Cut _ _ i x _ => side_lt x i | _ => false end.

  (** Lines 401-455: the counter runs through all the units of the locality. *)
  Fixpoint count_edges (u : gunit) (off : N) : gunit * N :=
    match u with
    | [] => ([], off)
    | (it, m) :: r =>
        if numbers it then let (r', o) := count_edges r (w32 (off + 1)) in ((it, set_glob m off) :: r', o)
        else let (r', o) := count_edges r off in ((it, m) :: r', o)
    end.
  Fixpoint count_units (us : list gunit) (off : N) : list gunit * N :=
    match us with
    | [] => ([], off)
    | u :: r => let (u', o) := count_edges u off in let (r', o') := count_units r o in (u' :: r', o')
    end.

  (** Lines 513-562. *)
  Definition shift_entry (off : N) (e : entry) : entry :=
    if numbers (fst e) then (fst e, set_glob (snd e) (w32 (i_glob (snd e) + off))) else e.
  Definition shift_units (off : N) (us : list gunit) : list gunit := map (map (shift_entry off)) us.
  (** Lines 552-559: the number goes to the other half. *)
  Definition mails (e : entry) : list ((N * N) * (N * N) * nat * N) :=
    match fst e with
    | Cut k _ i x _ => if numbers (fst e) then [(i, x, k, i_glob (snd e))] else []
    | _ => []
    end.
  Definition is_for (a b : N * N) (k : nat) (w : (N * N) * (N * N) * nat * N) : bool :=
    let '(i, x, j, _) := w in
    (fst i =? fst a) && (snd i =? snd a) && (fst x =? fst b) && (snd x =? snd b) && Nat.eqb j k.
  Definition letter (box : list ((N * N) * (N * N) * nat * N)) (a b : N * N) (k : nat) : outcome N :=
    of_index (option_map snd (find (is_for a b k) box)).

  (** Lines 567-617, [v] being the vector dc_global_dof_indx of the locality.  A number
      nobody sent stands for whatever the buffer holds. *)
  Definition answer (box : list ((N * N) * (N * N) * nat * N)) (e : entry) : outcome entry :=
    match fst e with
    | Cut k _ i x _ => if asks (fst e) then do g <- letter box x i k ; Ok (fst e, set_glob (snd e) g) else Ok e
    | _ => Ok e
    end.
  Fixpoint gather_edges (box : list ((N * N) * (N * N) * nat * N)) (u : gunit) (v : list N) : outcome (gunit * list N) :=
    match u with
    | [] => Ok ([], v)
    | e :: r =>
        if holds (fst e) then
          do e' <- answer box e ;
          do p <- gather_edges box r (v ++ [i_glob (snd e')]) ;
          Ok ((fst e', set_loc (snd e') (N.of_nat (length v))) :: fst p, snd p)
        else do p <- gather_edges box r v ; Ok (e :: fst p, snd p)
    end.
  Fixpoint gather_units (box : list ((N * N) * (N * N) * nat * N)) (us : list gunit) (v : list N) : outcome (list gunit * list N) :=
    match us with
    | [] => Ok ([], v)
    | u :: r => do p <- gather_edges box u v ; do q <- gather_units box r (snd p) ; Ok (fst p :: fst q, snd q)
    end.

  (** reset_PETSC_solver for all localities: the units and the vector dc_global_dof_indx
      of each, and the size of the system in blocks (lines 462-473 and 499-507 as in
      ModelDofs). *)
  Definition renumber_all (rs : list (list gunit)) : outcome (list (list gunit * list N) * N) :=
    let one := map (fun us => count_units us 0) rs in
    let totals := map snd one in
    let two := map (fun x => shift_units (snd x) (fst (fst x))) (combine one (exclusive_scan totals)) in
    let box := flat_map mails (concat (concat two)) in
    do res <- omap (fun us => gather_units box us []) two ;
    Ok (res, accumulate totals).
  (** Line 628 (ehdg_gn_pre_ompi.hpp line 129). *)
  Definition index_set (v : list N) : outcome N := front v.

  (** ** Assembly, lines 156-286.  own s: what the side [s] adds to the block of its edge
      with itself; con s f: with the edge of face [f] of the same element; rh s: to the
      right hand side. *)
  Section Assembly.
    Context (own : slot -> R) (con : slot -> nat -> R) (rh : slot -> R).
    Definition slot_eqb (a b : slot) : bool := Nat.eqb (fst a) (fst b) && Nat.eqb (snd a) (snd b).
    Definition has_slot (s : slot) (e : entry) : bool := existsb (slot_eqb s) (i_slots (fst e)).
    (** boundary[f].dc_global_dof_indx of an element of the unit. *)
    Definition slot_number (u : gunit) (s : slot) : N := match find (has_slot s) u with Some e => i_slot (snd e) | None => 0 end.
    Definition wet_slots (it : item) : list slot := filter is_wet (i_slots it).
    Definition others (f : nat) : list nat := filter (fun f' => negb (Nat.eqb f' f)) [0; 1; 2]%nat.
    Definition sum_of {A : Type} (f : A -> R) (l : list A) : R := fold_right (fun a x => Rplus (f a) x) 0%R l.
    Definition edge_blocks (u : gunit) (e : entry) : list (N * N * R) :=
      if holds (fst e) then
        (i_glob (snd e), i_glob (snd e), sum_of own (wet_slots (fst e))) ::
        flat_map (fun s => map (fun f => (i_glob (snd e), slot_number u (fst s, f), con s f)) (others (snd s))) (wet_slots (fst e))
      else [].
    Definition edge_rhs (e : entry) : list (N * R) :=
      if holds (fst e) then [(i_glob (snd e), sum_of rh (wet_slots (fst e)))] else [].
    Definition matrix (us : list gunit) : list (N * N * R) := flat_map (fun u => flat_map (edge_blocks u) u) us.
    Definition right_side (us : list gunit) : list (N * R) := flat_map (fun u => flat_map edge_rhs u) us.
    (** ADD_VALUES: row [r] of the product with [X], and entry [r] of the right hand side. *)
    Definition row_times (M : list (N * N * R)) (X : N -> R) (r : N) : R :=
      sum_of (fun w => Rmult (snd w) (X (snd (fst w)))) (filter (fun w => fst (fst w) =? r) M).
    Definition row_rhs (b : list (N * R)) (r : N) : R := sum_of snd (filter (fun w => fst w =? r) b).
  End Assembly.

  (** ** Read-back, lines 306-315 and 328-371: the scatter of the solution to the local
      vector, and the subvector taken for every edge of the unit, wet or not; past the
      end is undefined (ModelGN). *)
  Definition scatter (X : N -> R) (v : list N) : list R := map X v.
  Definition read_trace (w : list R) (e : entry) : outcome R := of_index (nth_error w (N.to_nat (i_loc (snd e)))).
  Definition read_traces (w : list R) (us : list gunit) : outcome (list R) := omap (read_trace w) (concat us).
End Num.

(** ehdg_gn_pre_ompi.hpp lines 41-131 with ehdg_gn_pre_init_global_prob.hpp lines 32-204:
    the first numbering is the same without the tests for wet elements. *)
Definition first_numbers (rs : list (list gunit)) : outcome (list (list gunit * list N) * N) := renumber_all (fun _ => true) rs.

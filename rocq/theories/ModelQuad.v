(** The quadrilateral mesh generator, /repo/mesh_generators/quad_mesh_generator.cpp.

    Unsigned arithmetic is modulo 2^32: [u32] is applied to whole expressions of
    additions and multiplications, which gives the same result as wrapping after every
    operation.  Loop counters themselves are assumed not to wrap.  Coordinates are in the
    number type T; bathymetry_function is a parameter. *)
From Coq Require Import ZArith NArith List Bool.
From Verif Require Import Num Outcome ModelMesh.
Import ListNotations.
Local Open Scope N_scope.

Definition u32 (x : N) : N := x mod 4294967296.
Definition nrange (n : N) : list N := map N.of_nat (seq 0 (N.to_nat n)).
(** for (uint i = start; i < stop; i += step) *)
Definition loop (start step stop : N) : list N :=
  map (fun k => start + step * k) (nrange ((stop - start + step - 1) / step)).

(** std::vector: size and contents; [None] is a default-constructed entry.  Writing outside
    is undefined. *)
Record vec (A : Type) := Vec { v_size : N; v_at : N -> option A }.
Arguments Vec {A}. Arguments v_size {A}. Arguments v_at {A}.
Definition vset {A : Type} (v : vec A) (w : N * A) : outcome (vec A) :=
  if fst w <? v_size v then Ok (Vec (v_size v) (fun k => if k =? fst w then Some (snd w) else v_at v k)) else UB.
(** Reading all entries in order; reading an entry that was never assigned is undefined. *)
Definition vall {A : Type} (v : vec A) : outcome (list A) :=
  ofold (fun l k => do x <- of_index (v_at v k) ; Ok (l ++ [x])) (nrange (v_size v)) [].

(** lines 15-19: ID and nodes (type is always 3). *)
Definition element := (N * (N * N * N))%type.

(** lines 468-476 (also 485-493, 516-524): cell cut from lower left to upper right. *)
Definition cut_up (m i j : N) : list (N * element) :=
  [(u32 (2 * i + 2 * m * j),
      (u32 (2 * i + 2 * m * j), (u32 (i + (m + 1) * j), u32 (i + m + 2 + (m + 1) * j), u32 (i + m + 1 + (m + 1) * j))));
   (u32 (2 * i + 2 * m * j + 1),
      (u32 (2 * i + 2 * m * j + 1), (u32 (i + (m + 1) * j), u32 (i + 1 + (m + 1) * j), u32 (i + m + 2 + (m + 1) * j))))].
(** lines 499-507, 530-538: cell cut from lower right to upper left. *)
Definition cut_down (m i j : N) : list (N * element) :=
  [(u32 (2 * i + 2 * m * j),
      (u32 (2 * i + 2 * m * j), (u32 (i + (m + 1) * j), u32 (i + 1 + (m + 1) * j), u32 (i + m + 1 + (m + 1) * j))));
   (u32 (2 * i + 2 * m * j + 1),
      (u32 (2 * i + 2 * m * j + 1), (u32 (i + 1 + (m + 1) * j), u32 (i + m + 2 + (m + 1) * j), u32 (i + m + 1 + (m + 1) * j))))].

(** The assignments of the pattern functions in program order. *)
Definition cells (cut : N -> N -> list (N * element)) (js : list N) (is : N -> list N) : list (N * element) :=
  flat_map (fun j => flat_map (fun i => cut i j) (is j)) js.
(** lines 464-479. *)
Definition simple_pattern (m n : N) : list (N * element) := cells (cut_up m) (loop 0 1 n) (fun _ => loop 0 1 m).
(** lines 481-510. *)
Definition zigzag_pattern (m n : N) : list (N * element) :=
  cells (cut_up m) (loop 0 2 n) (fun _ => loop 0 1 m) ++ cells (cut_down m) (loop 1 2 n) (fun _ => loop 0 1 m).
(** lines 512-541. *)
Definition checker_pattern (m n : N) : list (N * element) :=
  cells (cut_up m) (loop 0 1 n) (fun j => loop (j mod 2) 2 m) ++
  cells (cut_down m) (loop 0 1 n) (fun j => loop ((j + 1) mod 2) 2 m).
(** lines 8 and 133-143. *)
Inductive pattern := simple | zigzag | checker.
Definition pattern_writes (p : pattern) (m n : N) : list (N * element) :=
  match p with simple => simple_pattern m n | zigzag => zigzag_pattern m n | checker => checker_pattern m n end.
(** line 131-143. *)
Definition make_elements (p : pattern) (m n : N) : outcome (list element) :=
  do v <- ofold vset (pattern_writes p m n) (Vec (u32 (2 * m * n)) (fun _ => None)) ; vall v.

(** lines 145-160: the four node lists (m + 1 and n + 1 do not wrap). *)
Definition boundary_nodes (m n : N) : list (list N) :=
  [map (fun i => i) (nrange (m + 1)); map (fun i => u32 (m + i * (m + 1))) (nrange (n + 1));
   map (fun i => u32 (i + (m + 1) * n)) (nrange (m + 1)); map (fun i => u32 (i * (m + 1))) (nrange (n + 1))].

(** lines 216-276, as the reader receives it (adcirc_format.cpp lines 47-135): tide lists are
    open boundaries; land, flow, function and outflow lists are land boundaries with codes 0,
    2, 77, 88; no generic boundaries.  The text form of the numbers is not modelled. *)
Definition land_code (t : N) : option N :=
  if t =? bt_land then Some 0 else if t =? bt_flow then Some 2
  else if t =? bt_function then Some 77 else if t =? bt_outflow then Some 88 else None.
Definition open_lists (types : list N) (lists : list (list N)) : list (list N) :=
  flat_map (fun tl => if fst tl =? bt_tide then [snd tl] else []) (combine types lists).
Definition land_segments (types : list N) (lists : list (list N)) : list segment :=
  flat_map (fun tl => match land_code (fst tl) with Some c => [Segment c (snd tl) None] | None => [] end) (combine types lists).
Definition quad_adcirc (types : list N) (m n : N) (els : list element) : adcirc :=
  Adcirc els (open_lists types (boundary_nodes m n)) (land_segments types (boundary_nodes m n)) [].

Section Coord.
  Context {T : Type} {NT : Num T}.
  Definition zofN (k : N) : T := nofZ (Z.of_N k).

  (** lines 113-124. *)
  Definition shape4 (m n i j : N) : T * T * T * T :=
    let dxi := ndiv (nofZ 2) (zofN m) in
    let deta := ndiv (nofZ 2) (zofN n) in
    let xi := nadd (nofZ (-1)) (nmul dxi (zofN i)) in
    let eta := nadd (nofZ (-1)) (nmul deta (zofN j)) in
    let one := nofZ 1 in let four := nofZ 4 in
    (ndiv (nmul (nsub one xi) (nsub one eta)) four, ndiv (nmul (nadd one xi) (nsub one eta)) four,
     ndiv (nmul (nadd one xi) (nadd one eta)) four, ndiv (nmul (nsub one xi) (nadd one eta)) four).
  Definition bilinear (a b c d : T) (s : T * T * T * T) : T :=
    let '(n1, n2, n3, n4) := s in
    nadd (nadd (nadd (nmul a n1) (nmul b n2)) (nmul c n3)) (nmul d n4).

  (** lines 109-129: assignments of the node loop, ID and coordinates. *)
  Definition node_writes (p1 p2 p3 p4 : T * T) (bath : T -> T -> T) (m n : N) : list (N * (N * (T * T * T))) :=
    flat_map (fun i => map (fun j =>
      let s := shape4 m n i j in
      let x := bilinear (fst p1) (fst p2) (fst p3) (fst p4) s in
      let y := bilinear (snd p1) (snd p2) (snd p3) (snd p4) s in
      (u32 (j * (m + 1) + i), (u32 (j * (m + 1) + i), (x, y, bath x y)))) (nrange (n + 1))) (nrange (m + 1)).
  Definition make_nodes (p1 p2 p3 p4 : T * T) (bath : T -> T -> T) (m n : N) : outcome (list (N * (T * T * T))) :=
    do v <- ofold vset (node_writes p1 p2 p3 p4 bath m n) (Vec (u32 ((m + 1) * (n + 1))) (fun _ => None)) ; vall v.

  (** lines 98-276.  For m = 0 or n = 0 the steps are divisions by zero. *)
  Definition quad_mesh (p1 p2 p3 p4 : T * T) (bath : T -> T -> T) (p : pattern) (types : list N) (m n : N)
      : outcome (list (N * (T * T * T)) * adcirc) :=
    do nodes <- make_nodes p1 p2 p3 p4 bath m n ;
    do els <- make_elements p m n ;
    Ok (nodes, quad_adcirc types m n els).
End Coord.

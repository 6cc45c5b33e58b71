(** Reading output files back, by the published formats and not by how they are
    written: the legacy and the XML format of VTK unstructured grids (as lists of
    tokens), files of coefficients, and what a subdivision into cells should be. *)
From Coq Require Import String ZArith Reals List Bool Arith.
From Verif Require Import ModelSWE ModelBasis ModelVtk SpecStepper SpecShape.
Import ListNotations.
Open Scope R_scope.

Record grid_file := GF {
  g_points : list (R * R * R); g_cells : list (list nat); g_types : list nat;
  g_cell_data : list (string * list tok); g_point_data : list (string * list tok) }.

Definition obind {A B : Type} (x : option A) (f : A -> option B) : option B := match x with Some a => f a | None => None end.
Notation "'let?' x := e 'in' f" := (obind e (fun x => f)) (at level 61, x pattern, e at next level, right associativity).

Definition expect (s : string) (l : list tok) : option (list tok) :=
  match l with Word x :: r => if String.eqb x s then Some r else None | _ => None end.
Definition read_int (l : list tok) : option (nat * list tok) := match l with Int k :: r => Some (k, r) | _ => None end.
Definition read_word (l : list tok) : option (string * list tok) := match l with Word s :: r => Some (s, r) | _ => None end.
Fixpoint many {A : Type} (rd : list tok -> option (A * list tok)) (k : nat) (l : list tok) : option (list A * list tok) :=
  match k with
  | 0%nat => Some ([], l)
  | S k' => let? (a, r) := rd l in let? (al, r') := many rd k' r in Some (a :: al, r')
  end.
Definition read_point (l : list tok) : option ((R * R * R) * list tok) :=
  match l with Real x :: Real y :: Real z :: r => Some ((x, y, z), r) | _ => None end.
Definition read_cell (l : list tok) : option (list nat * list tok) := let? (k, r) := read_int l in many read_int k r.
Definition is_value (t : tok) : bool := match t with Int _ | Real _ => true | _ => false end.
Definition read_value (l : list tok) : option (tok * list tok) :=
  match l with t :: r => if is_value t then Some (t, r) else None | _ => None end.
(** SCALARS name type components, LOOKUP_TABLE name, then one value per point or cell. *)
Definition read_scalars (k : nat) (l : list tok) : option ((string * list tok) * list tok) :=
  let? r := expect "SCALARS" l in let? (name, r) := read_word r in let? (_, r) := read_word r in
  let? (comp, r) := read_int r in
  if (comp =? 1)%nat then
    let? r := expect "LOOKUP_TABLE" r in let? (_, r) := read_word r in
    let? (v, r) := many read_value k r in Some ((name, v), r)
  else None.
(** As many SCALARS as there are. *)
Fixpoint read_all_scalars (fuel k : nat) (l : list tok) : option (list (string * list tok) * list tok) :=
  match fuel with
  | 0%nat => None
  | S f => match expect "SCALARS" l with
           | None => Some ([], l)
           | Some _ => let? (a, r) := read_scalars k l in let? (al, r') := read_all_scalars f k r in Some (a :: al, r')
           end
  end.
Definition total (cells : list (list nat)) : nat := fold_right (fun c s => S (length c) + s)%nat 0%nat cells.
(** The legacy format: the second number of CELLS is the number of integers that follow. *)
Definition read_vtk (l : list tok) : option grid_file :=
  let? (_, r) := read_word l in let? (_, r) := read_word r in
  let? r := expect "ASCII" r in let? r := expect "DATASET" r in let? r := expect "UNSTRUCTURED_GRID" r in
  let? r := expect "POINTS" r in let? (np, r) := read_int r in let? (_, r) := read_word r in
  let? (pts, r) := many read_point np r in
  let? r := expect "CELLS" r in let? (nc, r) := read_int r in let? (size, r) := read_int r in
  let? (cells, r) := many read_cell nc r in
  if (size =? total cells)%nat then
    let? r := expect "CELL_TYPES" r in let? (nt, r) := read_int r in
    if (nt =? nc)%nat then
      let? (types, r) := many read_int nc r in
      let? r := expect "CELL_DATA" r in let? (k, r) := read_int r in
      if (k =? nc)%nat then
        let? (cd, r) := read_all_scalars (length r) k r in
        let? r := expect "POINT_DATA" r in let? (k, r) := read_int r in
        if (k =? np)%nat then
          let? (pd, r) := read_all_scalars (S (length r)) k r in
          match r with [] => Some (GF pts cells types cd pd) | _ => None end
        else None
      else None
    else None
  else None.

(** XML. *)
Definition expect_open (tag : string) (l : list tok) : option (string * list tok) :=
  match l with Open t name :: r => if String.eqb t tag then Some (name, r) else None | _ => None end.
Definition expect_close (tag : string) (l : list tok) : option (list tok) :=
  match l with Close t :: r => if String.eqb t tag then Some r else None | _ => None end.
(** The content of an array: everything up to the next tag. *)
Definition is_tag (t : tok) : bool := match t with Open _ _ | Close _ | Piece _ _ => true | _ => false end.
Fixpoint content (l : list tok) : list tok * list tok :=
  match l with
  | [] => ([], [])
  | t :: r => if is_tag t then ([], l) else let (a, b) := content r in (t :: a, b)
  end.
Definition read_array (l : list tok) : option ((string * list tok) * list tok) :=
  let? (name, r) := expect_open "DataArray" l in
  let (v, r) := content r in
  let? r := expect_close "DataArray" r in Some ((name, v), r).
Fixpoint read_arrays (fuel : nat) (l : list tok) : option (list (string * list tok) * list tok) :=
  match fuel with
  | 0%nat => None
  | S f => match expect_open "DataArray" l with
           | None => Some ([], l)
           | Some _ => let? (a, r) := read_array l in let? (al, r') := read_arrays f r in Some (a :: al, r')
           end
  end.
Definition read_section (tag : string) (l : list tok) : option (list (string * list tok) * list tok) :=
  let? (_, r) := expect_open tag l in
  let? (al, r) := read_arrays (length r) r in
  let? r := expect_close tag r in Some (al, r).
Definition read_piece (l : list tok) : option (nat * nat * list tok) := match l with Piece a b :: r => Some (a, b, r) | _ => None end.
Definition whole {A : Type} (rd : list tok -> option (list A * list tok)) (l : list tok) : option (list A) :=
  let? (al, r) := rd l in match r with [] => Some al | _ => None end.
Fixpoint lookup (name : string) (al : list (string * list tok)) : option (list tok) :=
  match al with [] => None | (s, v) :: t => if String.eqb s name then Some v else lookup name t end.
(** Cell k consists of the entries of the connectivity from one offset to the next. *)
Fixpoint cut (start : nat) (off : list nat) (conn : list nat) : list (list nat) :=
  match off with [] => [] | o :: t => firstn (o - start) conn :: cut o t (skipn (o - start) conn) end.
Definition sized (k : nat) (al : list (string * list tok)) : bool := forallb (fun a => (length (snd a) =? k)%nat) al.
Definition read_vtu (l : list tok) : option grid_file :=
  let? (_, r) := expect_open "VTKFile" l in let? (_, r) := expect_open "UnstructuredGrid" r in
  let? (np, nc, r) := read_piece r in
  let? (pd, r) := read_section "PointData" r in let? (cd, r) := read_section "CellData" r in
  let? (ps, r) := read_section "Points" r in let? (cs, r) := read_section "Cells" r in
  let? r := expect_close "Piece" r in let? r := expect_close "UnstructuredGrid" r in let? r := expect_close "VTKFile" r in
  match ps, r with
  | [(_, coords)], [] =>
      let? pts := whole (many read_point np) coords in
      let? co := lookup "connectivity" cs in let? conn := whole (many read_int (length co)) co in
      let? of_ := lookup "offsets" cs in let? off := whole (many read_int nc) of_ in
      let? ty := lookup "types" cs in let? types := whole (many read_int nc) ty in
      if sized np pd && sized nc cd && (last off 0%nat =? length conn)%nat then Some (GF pts (cut 0 off conn) types cd pd) else None
  | _, _ => None
  end.

(** A file of coefficients of [nel] elements with [ndof] coefficients each: frames of
    a time and, per element, its number in every line. *)
Definition read_line (l : list tok) : option ((nat * R) * list tok) := match l with Int i :: Real x :: r => Some ((i, x), r) | _ => None end.
Definition read_frame (ndof nel : nat) (l : list tok) : option ((R * list (list (nat * R))) * list tok) :=
  match l with
  | Real t :: r => let? (es, r) := many (many read_line ndof) nel r in Some ((t, es), r)
  | _ => None
  end.
Definition read_modal (ndof nel frames : nat) (l : list tok) : option (list (R * list (list (nat * R)))) :=
  whole (many (read_frame ndof nel) frames) l.

(** The e-th block of m entries of a list. *)
Definition slice {A : Type} (m e : nat) (l : list A) : list A := firstn m (skipn (e * m) l).
(** Corner j of a cell. *)
Definition corner (P : list (R * R * R)) (c : list nat) (j : nat) : pt := fst (nth (nth j c 0%nat) P (0, 0, 0)).
Definition in_cell (P : list (R * R * R)) (c : list nat) (x : pt) : Prop := in_triangle (corner P c 0) (corner P c 1) (corner P c 2) x.
Definition inside_cell (P : list (R * R * R)) (c : list nat) (x : pt) : Prop :=
  exists u v w, 0 < u /\ 0 < v /\ 0 < w /\ u + v + w = 1 /\ x = comb (corner P c 0) (corner P c 1) (corner P c 2) u v w.
(** Cells cover the triangle a b c, stay within, and have no interior point in common. *)
Definition tiles (P : list (R * R * R)) (cs : list (list nat)) (a b c : pt) : Prop :=
  (forall x, in_triangle a b c x -> exists k, (k < length cs)%nat /\ in_cell P (nth k cs []) x) /\
  (forall k x, (k < length cs)%nat -> in_cell P (nth k cs []) x -> in_triangle a b c x) /\
  (forall k k' x, (k < length cs)%nat -> (k' < length cs)%nat -> inside_cell P (nth k cs []) x -> inside_cell P (nth k' cs []) x -> k = k').
Definition centroid (P : list (R * R * R)) (c : list nat) : pt := comb (corner P c 0) (corner P c 1) (corner P c 2) (/ 3) (/ 3) (/ 3).

(** The point of the triangle a b c with local coordinates z, and the polynomial with
    coefficients u there. *)
Definition in_reference (z : pt) : Prop := -1 <= fst z /\ -1 <= snd z /\ fst z + snd z <= 0.
Definition image (a b c : pt) (z : pt) : pt := comb a b c (- (fst z + snd z) / 2) ((1 + fst z) / 2) ((1 + snd z) / 2).
Definition field (p : nat) (u : nat -> R) (z : pt) : R := rsum ((p + 1) * (p + 2) / 2) (fun d => u d * GetPhi d z).
Definition field3 (p : nat) (u : nat -> vec3 R) (z : pt) : vec3 R :=
  V3 (field p (fun d => ze (u d)) z) (field p (fun d => qx (u d)) z) (field p (fun d => qy (u d)) z).

(** y is x printed with six significant digits (the default of a stream). *)
Definition six_digits (x y : R) : Prop :=
  (x = 0 /\ y = 0) \/
  exists k m : Z, powerRZ 10 k <= Rabs x < powerRZ 10 (k + 1) /\
                  y = IZR m * powerRZ 10 (k - 5) /\ Rabs (x - y) <= powerRZ 10 (k - 5) / 2.

(** Entry k of the array of a given name. *)
Definition entry_of (l : list (string * list tok)) (name : string) (k : nat) : option tok :=
  match find (fun x => String.eqb (fst x) name) l with Some x => nth_error (snd x) k | None => None end.
Definition printed (prd : R -> R) (x : R * R * R) : R * R * R := (prd (fst (fst x)), prd (snd (fst x)), prd (snd x)).
(** The arrays with suffix "_point" or "_cell" hold the solution u and the bathymetry b
    at local coordinates z, printed. *)
Definition holds_at (p : nat) (prf : R -> R) (l : list (string * list tok)) (suffix : string) (k : nat) (u : nat -> vec3 R) (b : nat -> R) (z : pt) : Prop :=
  entry_of l (String.append "ze" suffix) k = Some (Real (prf (field p (fun d => ze (u d)) z))) /\
  entry_of l (String.append "qx" suffix) k = Some (Real (prf (field p (fun d => qx (u d)) z))) /\
  entry_of l (String.append "qy" suffix) k = Some (Real (prf (field p (fun d => qy (u d)) z))) /\
  entry_of l (String.append "bath" suffix) k = Some (Real (prf (field p b z))).
Definition flag (b : bool) : tok := Int (if b then 1 else 0).
(** A file shows the mesh [els0] with the solution [els]; P are the points before printing. *)
Definition shows (n p : nat) (prd prf : R -> R) (els0 els : list elem) (P : list (R * R * R)) (g : grid_file) : Prop :=
  let np := ((n + 1) * (n + 2) / 2)%nat in
  length P = (length els * np)%nat /\ g_points g = map (printed prd) P /\
  length (g_cells g) = (length els * (n * n))%nat /\ g_types g = repeat 5%nat (length els * (n * n)) /\
  forall e E0 E, nth_error els0 e = Some E0 -> nth_error els e = Some E ->
  let a := el_nodes E0 0%nat in let b := el_nodes E0 1%nat in let c := el_nodes E0 2%nat in
  (orient a b c <> 0 -> tiles P (slice (n * n) e (g_cells g)) a b c) /\
  (forall i, (i < np)%nat -> exists z, in_reference z /\ nth (e * np + i) P (0, 0, 0) = (image a b c z, 0) /\
     holds_at p prf (g_point_data g) "_point" (e * np + i) (el_q E) (el_bath E) z) /\
  (forall k, (k < n * n)%nat -> exists z, in_reference z /\ image a b c z = centroid P (nth (e * (n * n) + k) (g_cells g) []) /\
     holds_at p prf (g_cell_data g) "_cell" (e * (n * n) + k) (el_q E) (el_bath E) z /\
     entry_of (g_cell_data g) "ID" (e * (n * n) + k) = Some (Int (el_id E)) /\
     entry_of (g_cell_data g) "wet_dry" (e * (n * n) + k) = Some (flag (el_wet E)) /\
     entry_of (g_cell_data g) "went_completely_dry" (e * (n * n) + k) = Some (flag (el_gone E))).
(** The speed beside the points of the XML file: discharge over depth, no number where the depth is zero. *)
Definition shows_speed (n p : nat) (prf : R -> R) (els0 els : list elem) (P : list (R * R * R)) (g : grid_file) : Prop :=
  let np := ((n + 1) * (n + 2) / 2)%nat in
  forall e E0 E i, nth_error els0 e = Some E0 -> nth_error els e = Some E -> (i < np)%nat ->
  exists z v, in_reference z /\ nth (e * np + i) P (0, 0, 0) = (image (el_nodes E0 0%nat) (el_nodes E0 1%nat) (el_nodes E0 2%nat) z, 0) /\
    entry_of (g_point_data g) "velocity_point" (e * np + i) = Some v /\
    let u := field3 p (el_q E) z in let h := ze u + field p (el_bath E) z in
    (h <> 0 -> v = Real (prf (sqrt (qx u * qx u + qy u * qy u) / h))) /\ (h = 0 -> forall x, v <> Real x).
(** Linear interpolation of the point values over the cells gives the solution itself. *)
Definition interpolates (prf : R -> R) (g : grid_file) (name : string) (cell : list nat) (u v w y : R) : Prop :=
  exists x0 x1 x2, entry_of (g_point_data g) name (nth 0 cell 0%nat) = Some (Real (prf x0)) /\
    entry_of (g_point_data g) name (nth 1 cell 0%nat) = Some (Real (prf x1)) /\
    entry_of (g_point_data g) name (nth 2 cell 0%nat) = Some (Real (prf x2)) /\ y = u * x0 + v * x1 + w * x2.
Definition shows_exactly (n p : nat) (prf : R -> R) (els0 els : list elem) (P : list (R * R * R)) (g : grid_file) : Prop :=
  forall e E0 E k u v w, nth_error els0 e = Some E0 -> nth_error els e = Some E -> (k < n * n)%nat ->
  0 <= u -> 0 <= v -> 0 <= w -> u + v + w = 1 ->
  let cell := nth (e * (n * n) + k) (g_cells g) [] in
  exists z, in_reference z /\
    image (el_nodes E0 0%nat) (el_nodes E0 1%nat) (el_nodes E0 2%nat) z = comb (corner P cell 0) (corner P cell 1) (corner P cell 2) u v w /\
    interpolates prf g "ze_point" cell u v w (field p (fun d => ze (el_q E d)) z) /\
    interpolates prf g "qx_point" cell u v w (field p (fun d => qx (el_q E d)) z) /\
    interpolates prf g "qy_point" cell u v w (field p (fun d => qy (el_q E d)) z) /\
    interpolates prf g "bath_point" cell u v w (field p (el_bath E) z).
(** The first n(n+1)/2 cells of an element keep its orientation and the others reverse it;
    all have the same share of its area. *)
Definition turns (n : nat) (els0 : list elem) (P : list (R * R * R)) (g : grid_file) : Prop :=
  forall e E0 k, nth_error els0 e = Some E0 -> (k < n * n)%nat ->
  let cell := nth (e * (n * n) + k) (g_cells g) [] in
  orient (corner P cell 0) (corner P cell 1) (corner P cell 2) =
  (if (k <? n * (n + 1) / 2)%nat then 1 else -1) * (orient (el_nodes E0 0%nat) (el_nodes E0 1%nat) (el_nodes E0 2%nat) / (INR n * INR n)).

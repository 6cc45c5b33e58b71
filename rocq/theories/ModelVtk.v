(** Output of the solution for visualisation and as coefficients:
      shape/shapes_2D/shape_straighttriangle.cpp lines 297-350 (GetVTK)
      master/elements_2D/master_triangle.tpp lines 64-68, 154-195 (VTKPostCell, VTKPostPoint)
      geometry/element.hpp lines 507-533 (InitializeVTK, WriteCellDataVTK, WritePointDataVTK)
      simulation/writer.hpp lines 100-375 (geometry, merging of the pieces, modal output)
      problem/SWE/problem_postprocessor/swe_post_write_{vtk,vtu,modal}.hpp
    Reals for double; what a printed double or float becomes is a parameter.  A file
    is its list of tokens: white space, and the type and format attributes of the XML
    arrays, are left out.  Numbers of points and cells stay below 2^32.  One order and
    straight triangles.  The existence checks of files just written (lines 130-138,
    160-174) are left out. *)
From Coq Require Import String NArith Reals List Bool Arith.
From Verif Require Import Num Outcome ModelSWE ModelShape ModelBasis ModelStepper ModelRun.
Import ListNotations.
Open Scope R_scope.

(** An element as the writers see it: GetID, shape, state[0].q and state[0].aux (the
    bathymetry row; output has one auxiliary), wet_dry_state.wet and went_completely_dry. *)
Record elem := Elem { el_id : nat; el_nodes : nodes; el_q : nat -> vec3 R; el_bath : nat -> R; el_wet : bool; el_gone : bool }.

Inductive tok := Word (s : string) | Int (k : nat) | Real (x : R)
  | Piece (np nc : nat) | Open (tag name : string) | Close (tag : string).

Section Writers.
  Context (n : nat).                       (* N_DIV, general_definitions.hpp line 229 *)
  Context (p : nat).                       (* order *)

  (** The double loops, i outside: lines 304-305 (also 186-187 of the master element),
      325-326 (161-162) and 338-339 (168-169). *)
  Definition loop (is : list nat) (width : nat -> nat) : list (nat * nat) :=
    flat_map (fun i => map (fun j => (i, j)) (seq 0 (width i))) is.
  Definition point_loop : list (nat * nat) := loop (seq 0 (n + 1)) (fun i => (n - i + 1)%nat).
  Definition up_loop : list (nat * nat) := loop (seq 0 n) (fun i => (n - i)%nat).
  Definition down_loop : list (nat * nat) := loop (seq 1 (n - 1)) (fun i => (n - i)%nat).
  Definition dz : R := 2 / INR n.
  Definition grid (ij : nat * nat) : point := (-1 + dz * INR (snd ij), -1 + dz * INR (fst ij)).

  (** GetVTK lines 298-322: three coordinates, the last is zero. *)
  Definition vtk_point (nd : nodes) (ij : nat * nat) : R * R * R :=
    let z1 := fst (grid ij) in let z2 := snd (grid ij) in
    (fst (nd 0%nat) * (- (z1 + z2) / 2) + fst (nd 1%nat) * ((1 + z1) / 2) + fst (nd 2%nat) * ((1 + z2) / 2),
     snd (nd 0%nat) * (- (z1 + z2) / 2) + snd (nd 1%nat) * ((1 + z1) / 2) + snd (nd 2%nat) * ((1 + z2) / 2),
     0).
  (** Lines 329 and 342. *)
  Definition pt_ID (number_pt : nat) (ij : nat * nat) : nat :=
    (number_pt + (n + 1) * (n + 2) / 2 - (n - fst ij + 1) * (n - fst ij + 2) / 2 + snd ij)%nat.
  Definition straight_triangle : nat := 5.
  (** Lines 331-334 and 344-347: type and three point numbers. *)
  Definition up_cell (k : nat) (ij : nat * nat) : list nat :=
    [straight_triangle; pt_ID k ij; (pt_ID k ij + 1)%nat; (pt_ID k ij + (n + 1 - fst ij))%nat].
  Definition down_cell (k : nat) (ij : nat * nat) : list nat :=
    [straight_triangle; pt_ID k ij; (pt_ID k ij + 1)%nat; (pt_ID k ij - (n + 2 - fst ij) + 1)%nat].
  Definition get_vtk (acc : list (R * R * R) * list (list nat)) (nd : nodes) : list (R * R * R) * list (list nat) :=
    let k := length (fst acc) in
    (fst acc ++ map (vtk_point nd) point_loop, snd acc ++ map (up_cell k) up_loop ++ map (down_cell k) down_loop).
  Definition geometry (els : list elem) : list (R * R * R) * list (list nat) :=
    fold_left get_vtk (map el_nodes els) ([], []).

  (** A vector of [size] points filled with a running index; a write past its end is
      undefined, places never written keep the initial point. *)
  Definition filled (size : nat) (l : list point) : outcome (list point) :=
    if (length l <=? size)%nat then Ok (l ++ repeat (0, 0) (size - length l)) else UB.
  (** master_triangle.tpp lines 154-177 and 179-195. *)
  Definition up_centre (ij : nat * nat) : point := (-1 + dz * INR (snd ij) + dz / 3, -1 + dz * INR (fst ij) + dz / 3).
  Definition down_centre (ij : nat * nat) : point := (-1 + dz * INR (snd ij) + 2 * dz / 3, -1 + dz * INR (fst ij) - dz / 3).
  Definition VTKPostCell : outcome (list point) := filled (n * n) (map up_centre up_loop ++ map down_centre down_loop).
  Definition VTKPostPoint : outcome (list point) := filled ((n + 1) * (n + 2) / 2) (map grid point_loop).

  (** element.hpp lines 513-533: the values at the points or cells, appended; one column
      of the basis matrix (lines 64-68 of the master element) per point. *)
  Definition value (u : nat -> R) (z : point) : R := vmsum (dubiner_ndof p) (fun dof => u dof * GetPhi dof z).
  Definition values (u : nat -> vec3 R) (z : point) : vec3 R :=
    V3 (value (fun d => ze (u d)) z) (value (fun d => qx (u d)) z) (value (fun d => qy (u d)) z).
  Definition write_q (zs : list point) (acc : list (vec3 R)) (e : elem) : list (vec3 R) := acc ++ map (values (el_q e)) zs.
  Definition write_aux (zs : list point) (acc : list R) (e : elem) : list R := acc ++ map (value (el_bath e)) zs.
  (** swe_post_write_vtu.hpp lines 24-29. *)
  Definition write_cells {A : Type} (f : elem -> A) (acc : list A) (e : elem) : list A := acc ++ repeat (f e) (n * n).

  Record data := Data { d_qp : list (vec3 R); d_qc : list (vec3 R); d_ap : list R; d_ac : list R;
                        d_id : list nat; d_wet : list bool; d_gone : list bool }.
  (** swe_post_write_vtu.hpp lines 7-29 (swe_post_write_vtk.hpp lines 7-29). *)
  Definition collect (els : list elem) : outcome data :=
    do zp <- VTKPostPoint ; do zc <- VTKPostCell ;
    Ok (Data (fold_left (write_q zp) els []) (fold_left (write_q zc) els [])
             (fold_left (write_aux zp) els []) (fold_left (write_aux zc) els [])
             (fold_left (write_cells el_id) els []) (fold_left (write_cells el_wet) els []) (fold_left (write_cells el_gone) els [])).

  (** Printing of a double and of a double converted to float. *)
  Context (prd prf : R -> R).
  Definition pf (x : R) : tok := Real (prf x).
  Definition pb (b : bool) : tok := Int (if b then 1 else 0).
  Definition triple (x : R * R * R) : list tok := [Real (prd (fst (fst x))); Real (prd (snd (fst x))); Real (prd (snd x))].

  (** ** The legacy format.  writer.hpp lines 205-268; a cell of another type ends the
      program (lines 227-231, 244-248): Throw. *)
  Definition cell_entries (cells : list (list nat)) : outcome nat :=
    ofold (fun s c => if (hd 0 c =? straight_triangle)%nat then Ok (s + 4)%nat else Throw) cells 0%nat.
  Definition cell_line (c : list nat) : outcome (list tok) :=
    if (hd 0 c =? straight_triangle)%nat then Ok (Int 3 :: map (fun i => Int (nth i c 0%nat)) (seq 1 3)) else Throw.
  Definition cell_lines (line : list nat -> outcome (list tok)) (cells : list (list nat)) : outcome (list tok) :=
    ofold (fun l c => do x <- line c ; Ok (l ++ x)) cells [].
  Definition geometry_vtk (els : list elem) : outcome (list tok) :=
    let points := fst (geometry els) in let cells := snd (geometry els) in
    do n_cell_entries <- cell_entries cells ;
    do lines <- cell_lines cell_line cells ;
    Ok ([Word "# vtk DataFile Version 3.0"; Word "OUTPUT DATA"; Word "ASCII"; Word "DATASET"; Word "UNSTRUCTURED_GRID";
         Word "POINTS"; Int (length points); Word "double"] ++ flat_map triple points ++
        [Word "CELLS"; Int (length cells); Int n_cell_entries] ++ lines ++
        [Word "CELL_TYPES"; Int (length cells)] ++ map (fun c => Int (hd 0%nat c)) cells).
  (** swe_post_write_vtk.hpp lines 31-88. *)
  Definition scalars (name kind : string) (l : list tok) : list tok :=
    [Word "SCALARS"; Word name; Word kind; Int 1; Word "LOOKUP_TABLE"; Word "default"] ++ l.
  Definition raw_vtk (d : data) : list tok :=
    [Word "CELL_DATA"; Int (length (d_qc d))] ++
    scalars "ze_cell" "double" (map (fun q => pf (ze q)) (d_qc d)) ++
    scalars "qx_cell" "double" (map (fun q => pf (qx q)) (d_qc d)) ++
    scalars "qy_cell" "double" (map (fun q => pf (qy q)) (d_qc d)) ++
    scalars "bath_cell" "double" (map pf (d_ac d)) ++
    scalars "ID" "unsigned_int" (map Int (d_id d)) ++
    scalars "wet_dry" "bit" (map pb (d_wet d)) ++
    scalars "went_completely_dry" "bit" (map pb (d_gone d)) ++
    [Word "POINT_DATA"; Int (length (d_qp d))] ++
    scalars "ze_point" "double" (map (fun q => pf (ze q)) (d_qp d)) ++
    scalars "qx_point" "double" (map (fun q => pf (qx q)) (d_qp d)) ++
    scalars "qy_point" "double" (map (fun q => pf (qy q)) (d_qp d)) ++
    scalars "bath_point" "double" (map pf (d_ap d)).
  (** writer.hpp lines 123-151: geometry written at the first step from [els0], data from [els]. *)
  Definition file_vtk (els0 els : list elem) : outcome (list tok) :=
    do g <- geometry_vtk els0 ; do d <- collect els ; Ok (g ++ raw_vtk d).

  (** ** The XML format, writer.hpp lines 271-373 and swe_post_write_vtu.hpp lines 31-100. *)
  Definition array (name : string) (l : list tok) : list tok := [Open "DataArray" name] ++ l ++ [Close "DataArray"].
  (** Lines 52-58; a division by zero prints no number. *)
  Definition velocity (q : vec3 R) (b : R) : tok :=
    if Req_EM_T (ze q + b) 0 then (if Req_EM_T (ModelShape.hypot (qx q) (qy q)) 0 then Word "nan" else Word "inf")
    else pf (ModelShape.hypot (qx q) (qy q) / (ze q + b)).
  Definition head_vtu (els : list elem) : list tok :=
    [Open "VTKFile" ""; Open "UnstructuredGrid" ""; Piece (length (fst (geometry els))) (length (snd (geometry els)))].
  Definition connectivity (c : list nat) : outcome (list tok) :=
    if (hd 0 c =? straight_triangle)%nat then Ok (map (fun i => Int (nth i c 0%nat)) (seq 1 3)) else Throw.
  Definition offsets (cells : list (list nat)) : outcome (nat * list tok) :=
    ofold (fun s c => if (hd 0 c =? straight_triangle)%nat then Ok ((fst s + 3)%nat, snd s ++ [Int (fst s + 3)]) else Throw) cells (0%nat, []).
  Definition foot_vtu (els : list elem) : outcome (list tok) :=
    let points := fst (geometry els) in let cells := snd (geometry els) in
    do conn <- cell_lines connectivity cells ; do off <- offsets cells ;
    Ok ([Open "Points" ""] ++ array "" (flat_map triple points) ++ [Close "Points"; Open "Cells" ""] ++
        array "connectivity" conn ++ array "offsets" (snd off) ++ array "types" (map (fun c => Int (hd 0%nat c)) cells) ++
        [Close "Cells"; Close "Piece"; Close "UnstructuredGrid"; Close "VTKFile"]).
  Definition raw_vtu (d : data) : list tok :=
    [Open "PointData" ""] ++
    array "ze_point" (map (fun q => pf (ze q)) (d_qp d)) ++
    array "qx_point" (map (fun q => pf (qx q)) (d_qp d)) ++
    array "qy_point" (map (fun q => pf (qy q)) (d_qp d)) ++
    array "bath_point" (map pf (d_ap d)) ++
    array "velocity_point" (map (fun k => velocity (nth k (d_qp d) (V3 0 0 0)) (nth k (d_ap d) 0)) (seq 0 (length (d_qp d)))) ++
    [Close "PointData"; Open "CellData" ""] ++
    array "ze_cell" (map (fun q => pf (ze q)) (d_qc d)) ++
    array "qx_cell" (map (fun q => pf (qx q)) (d_qc d)) ++
    array "qy_cell" (map (fun q => pf (qy q)) (d_qc d)) ++
    array "bath_cell" (map pf (d_ac d)) ++
    array "ID" (map Int (d_id d)) ++
    array "wet_dry" (map pb (d_wet d)) ++
    array "went_completely_dry" (map pb (d_gone d)) ++
    [Close "CellData"].
  (** writer.hpp lines 153-188. *)
  Definition file_vtu (els0 els : list elem) : outcome (list tok) :=
    do f <- foot_vtu els0 ; do d <- collect els ; Ok (head_vtu els0 ++ raw_vtu d ++ f).

  (** ** Coefficients, swe_post_write_modal.hpp: one file per variable; a file is truncated
      at step 0 and appended to later.  [prt] prints the time (std::to_string), [prs] a
      coefficient (std::scientific). *)
  Context (prt prs : R -> R).
  Definition modal_lines (u : elem -> nat -> R) (e : elem) : list tok :=
    flat_map (fun dof => [Int (el_id e); Real (prs (u e dof))]) (seq 0 (dubiner_ndof p)).
  Definition modal_frame (u : elem -> nat -> R) (t : R) (els : list elem) : list tok :=
    Real (prt t) :: flat_map (modal_lines u) els.
  Definition write_modal (u : elem -> nat -> R) (step : nat) (t : R) (els : list elem) (file : list tok) : list tok :=
    if (step =? 0)%nat then modal_frame u t els else file ++ modal_frame u t els.
  (** writer.hpp lines 190-192 at the steps of a run (WriteFirstStep, then every step);
      [sol k] and [time k] are the elements and the clock after k steps, [old] what the
      file held before the run. *)
  Definition offer_modal (u : elem -> nat -> R) (freq : N) (sol : nat -> list elem) (time : nat -> R) (file : list tok) (k : nat) : outcome (list tok) :=
    do w <- write_guard freq (N.of_nat k) ; Ok (if w then write_modal u k (time k) (sol k) file else file).
  Definition run_modal (u : elem -> nat -> R) (freq : N) (sol : nat -> list elem) (time : nat -> R) (steps : nat) (old : list tok) : outcome (list tok) :=
    ofold (offer_modal u freq sol time) (seq 0 (steps + 1)) old.
End Writers.

(** Straight triangles: shape/shapes_2D/shape_straighttriangle.cpp, the
    boundary coordinates of the master triangle (master/elements_2D/
    master_triangle.tpp) and the geometric factors computed by Element,
    Boundary and Interface.  Reals; every routine that takes a list of points
    treats them one by one, so the model takes one point.  Nodal coordinates
    are Point<3>; the third coordinate (bathymetry) is never read here, except
    that the constructor swaps whole points, so a node is a pair.  Determinant
    and inverse of a 2x2 matrix are the linear algebra library's; they are
    taken to be the textbook formulas.  std::hypot(x,y) and
    sqrt(pow(x,2.0)+pow(y,2.0)) are the exact square root. *)
From Coq Require Import Reals Arith List Bool.
From Verif Require Import Num.
Import ListNotations.
Open Scope R_scope.

Definition point := (R * R)%type.
(** Three nodes, indexed 0, 1, 2; other indices are never read. *)
Definition nodes := nat -> point.

Record mat2 := M2 { a00 : R; a01 : R; a10 : R; a11 : R }.
Definition determinant (J : mat2) : R := a00 J * a11 J - a01 J * a10 J.
(** Meaningless when the determinant is zero. *)
Definition inverse (J : mat2) : mat2 :=
  M2 (a11 J / determinant J) (- a01 J / determinant J)
     (- a10 J / determinant J) (a00 J / determinant J).

Definition hypot (x y : R) : R := sqrt (x * x + y * y).

(** The matrix J of lines 100-103, 129-132, 145-148. *)
Definition deformation (n : nodes) : mat2 :=
  M2 ((fst (n 1%nat) - fst (n 0%nat)) / 2) ((fst (n 2%nat) - fst (n 0%nat)) / 2)
     ((snd (n 1%nat) - snd (n 0%nat)) / 2) ((snd (n 2%nat) - snd (n 0%nat)) / 2).

(** Lines 95-108. *)
Definition GetJdet (n : nodes) : R := determinant (deformation n).
(** Lines 124-137. *)
Definition GetJinv (n : nodes) : mat2 := inverse (deformation n).

(** Lines 4-12, the constructor: std::swap of nodes 0 and 2. *)
Definition swap02 {A : Type} (n : nat -> A) : nat -> A :=
  fun i => match i with 0%nat => n 2%nat | 2%nat => n 0%nat | _ => n i end.
Definition StraightTriangle (n : nodes) : nodes :=
  if Rltb (GetJdet n) 0 then swap02 n else n.

(** Lines 14-21. *)
Definition GetBoundaryNodeID {A : Type} (bound_id : nat) (node_ID : nat -> A) : A * A :=
  (node_ID ((bound_id + 1) mod 3)%nat, node_ID ((bound_id + 2) mod 3)%nat).

(** Lines 23-30. *)
Definition GetArea (n : nodes) : R :=
  (1 / 2) * (fst (n 0%nat) * (snd (n 1%nat) - snd (n 2%nat)) +
             fst (n 1%nat) * (snd (n 2%nat) - snd (n 0%nat)) +
             fst (n 2%nat) * (snd (n 0%nat) - snd (n 1%nat))).

Definition side_length (n : nodes) (side : nat) : R :=
  hypot (fst (n side) - fst (n ((side + 1) mod 3)%nat)) (snd (n side) - snd (n ((side + 1) mod 3)%nat)).
(** Lines 32-40. *)
Definition GetRadius (n : nodes) : R :=
  fold_left (fun ret side => ret * side_length n side) (seq 0 3) (1 / (4 * GetArea n)).
(** Lines 42-50. *)
Definition GetPerimeter (n : nodes) : R :=
  fold_left (fun ret side => ret + side_length n side) (seq 0 3) 0.
(** Lines 52-61. *)
Definition GetLengths (n : nodes) : list R :=
  map (fun side => hypot (fst (n ((side + 1) mod 3)%nat) - fst (n ((side + 2) mod 3)%nat))
                         (snd (n ((side + 1) mod 3)%nat) - snd (n ((side + 2) mod 3)%nat))) (seq 0 3).
(** Lines 63-77. *)
Definition GetBarycentricCoordinates (n : nodes) : point :=
  ((fst (n 0%nat) + fst (n 1%nat) + fst (n 2%nat)) / 3, (snd (n 0%nat) + snd (n 1%nat) + snd (n 2%nat)) / 3).
(** Lines 79-93. *)
Definition GetMidpointCoordinates (n : nodes) : list point :=
  map (fun m => ((fst (n ((m + 1) mod 3)%nat) + fst (n ((m + 2) mod 3)%nat)) / 2,
                 (snd (n ((m + 1) mod 3)%nat) + snd (n ((m + 2) mod 3)%nat)) / 2)) (seq 0 3).

(** Lines 110-122. *)
Definition GetSurfaceJ (n : nodes) (bound_id : nat) : R :=
  sqrt ((fst (n ((bound_id + 2) mod 3)%nat) - fst (n ((bound_id + 1) mod 3)%nat)) ^ 2 +
        (snd (n ((bound_id + 2) mod 3)%nat) - snd (n ((bound_id + 1) mod 3)%nat)) ^ 2) / 2.

(** Lines 139-168.  Division by zero for a degenerate triangle. *)
Definition GetSurfaceNormal (n : nodes) (bound_id : nat) : point :=
  let det_J := determinant (deformation n) in
  let cw := det_J / Rabs det_J in
  let length := hypot (fst (n ((bound_id + 2) mod 3)%nat) - fst (n ((bound_id + 1) mod 3)%nat))
                      (snd (n ((bound_id + 2) mod 3)%nat) - snd (n ((bound_id + 1) mod 3)%nat)) in
  (cw * (snd (n ((bound_id + 2) mod 3)%nat) - snd (n ((bound_id + 1) mod 3)%nat)) / length,
   - cw * (fst (n ((bound_id + 2) mod 3)%nat) - fst (n ((bound_id + 1) mod 3)%nat)) / length).

(** Lines 170-183; row [k] of psi at the point. *)
Definition GetPsi (z : point) (k : nat) : R :=
  match k with
  | 0%nat => - (fst z + snd z) / 2
  | 1%nat => (1 + fst z) / 2
  | _ => (1 + snd z) / 2
  end.
(** Lines 185-213; row [k], (d/dx, d/dy). *)
Definition GetDPsi (n : nodes) (k : nat) : point :=
  let J_inv := GetJinv n in
  match k with
  | 0%nat => (- (1 / 2) * a00 J_inv - (1 / 2) * a10 J_inv, - (1 / 2) * a01 J_inv - (1 / 2) * a11 J_inv)
  | 1%nat => ((1 / 2) * a00 J_inv, (1 / 2) * a01 J_inv)
  | _ => ((1 / 2) * a10 J_inv, (1 / 2) * a11 J_inv)
  end.
(** Lines 215-227; row [k] at the boundary point. *)
Definition GetBoundaryPsi (z : R) (k : nat) : R :=
  match k with 0%nat => (1 - z) / 2 | _ => (1 + z) / 2 end.

(** Lines 229-247. *)
Definition LocalToGlobalCoordinates (n : nodes) (z : point) : point :=
  (fst (n 0%nat) * GetPsi z 0 + fst (n 1%nat) * GetPsi z 1 + fst (n 2%nat) * GetPsi z 2,
   snd (n 0%nat) * GetPsi z 0 + snd (n 1%nat) * GetPsi z 1 + snd (n 2%nat) * GetPsi z 2).

(** The matrix T and the vector lambda of lines 254-268 and 278-289. *)
Definition barycentric (n : nodes) (x : point) : point :=
  let T := M2 (fst (n 1%nat) - fst (n 0%nat)) (fst (n 2%nat) - fst (n 0%nat))
              (snd (n 1%nat) - snd (n 0%nat)) (snd (n 2%nat) - snd (n 0%nat)) in
  let T_inv := inverse T in
  ((fst x - fst (n 0%nat)) * a00 T_inv + (snd x - snd (n 0%nat)) * a01 T_inv,
   (fst x - fst (n 0%nat)) * a10 T_inv + (snd x - snd (n 0%nat)) * a11 T_inv).
(** Lines 249-275. *)
Definition GlobalToLocalCoordinates (n : nodes) (x : point) : point :=
  let lambda := barycentric n x in (2 * fst lambda - 1, 2 * snd lambda - 1).
(** Lines 277-295. *)
Definition ContainsPoint (n : nodes) (x : point) : bool :=
  let lambda := barycentric n x in
  Rleb 0 (fst lambda) && Rleb 0 (snd lambda) && Rleb (fst lambda + snd lambda) 1.

(** master_triangle.tpp lines 89-122.  Ids above 2 leave the vector
    uninitialised; not modelled (the loop of CreateRawBoundaries runs over the
    three boundary types). *)
Definition BoundaryToMasterCoordinates (bound_id : nat) (z : R) : point :=
  match bound_id with
  | 0%nat => (- z, z)
  | 1%nat => (-1, - z)
  | _ => (z, -1)
  end.

(** master_triangle.tpp lines 17-44: chi at the barycentre and the midpoints,
    lines 51-54: chi at a Gauss point, 38-44: derivatives (constant). *)
Definition chi_baryctr (k : nat) : R := 1 / 3.
Definition chi_midpts (k m : nat) : R := if Nat.eqb k m then 0 else 1 / 2.
Definition chi_gp (z : point) (k : nat) : R :=
  match k with
  | 0%nat => - (fst z + snd z) / 2
  | 1%nat => (1 + fst z) / 2
  | _ => (1 + snd z) / 2
  end.
Definition master_dchi (k : nat) : point :=
  match k with 0%nat => (-1/2, -1/2) | 1%nat => (1/2, 0) | _ => (0, 1/2) end.

(** geometry/element.hpp, Element::Initialize, const_J branch: the derivative
    of a linear or modal basis function in direction x and y is the sum over z
    of the master derivative times J_inv(z, dir). *)
Definition physical_derivative (n : nodes) (dz : point) : point :=
  let J_inv := GetJinv n in
  (0 + fst dz * a00 J_inv + snd dz * a10 J_inv, 0 + fst dz * a01 J_inv + snd dz * a11 J_inv).
Definition dchi (n : nodes) (k : nat) : point := physical_derivative n (master_dchi k).

(** geometry/element.hpp, int_fact: the rule's weight times abs(det J);
    m_inv divided by abs(det J). *)
Definition element_weight (n : nodes) (w : R) : R := w * Rabs (GetJdet n).
Definition element_minv (n : nodes) (m : R) : R := m / Rabs (GetJdet n).

(** geometry/boundary.hpp and geometry/interface.hpp constructors: position of
    a boundary Gauss point, its weight, the normal at Gauss point [gp] of the
    two sides.  The interface takes length and normal from the "in" element
    and stores the negated normal at index ngp - gp - 1 of the other side. *)
Definition boundary_point (n : nodes) (bound_id : nat) (z : R) : point :=
  LocalToGlobalCoordinates n (BoundaryToMasterCoordinates bound_id z).
Definition boundary_weight (n : nodes) (bound_id : nat) (w : R) : R := w * GetSurfaceJ n bound_id.
Definition normal_in (n_in : nodes) (bound_id_in : nat) (gp : nat) : point := GetSurfaceNormal n_in bound_id_in.
Definition normal_ex (n_in : nodes) (bound_id_in : nat) (ngp gp : nat) : point :=
  let nm := GetSurfaceNormal n_in bound_id_in in (- fst nm, - snd nm).

(** geometry/element.hpp, CreateRawBoundaries: the node ids given to face
    [bound_id] come from the topological list, the coordinates from the shape. *)
Definition raw_boundary {A : Type} (node_ID : nat -> A) (shape : nodes) (bound_id : nat) : (A * A) * (point * point) :=
  (GetBoundaryNodeID bound_id node_ID,
   (boundary_point shape bound_id (-1), boundary_point shape bound_id 1)).

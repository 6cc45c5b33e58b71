(** Modal bases: basis/polynomials/basis_polynomials.cpp,
    basis/bases_2D/basis_dubiner_2D.cpp and basis/bases_1D/basis_legendre_1D.cpp.
    Reals for double; every routine treats the points of its argument one by
    one, so the model takes one point.  Unsigned (32-bit) integer arithmetic is
    kept, with wrap-around. *)
From Coq Require Import ZArith Reals List Bool Arith.
From Verif Require Import Num ModelSWE ModelRun Outcome ModelShape.
Import ListNotations.
Open Scope R_scope.

(** Value of an unsigned expression: reduction at the end gives the same result
    as reduction at every operation. *)
Definition uint (z : Z) : R := IZR (z mod 2 ^ 32).

(** basis_polynomials.cpp lines 4-44, jacobi_polynomial.  J is the 3-row buffer
    (rows as a function); row 2 starts as 0. *)
Definition jacobi_first (a b : Z) (x : R) : R := (uint (a - b) + uint (a + b + 2) * x) / 2.
Definition jacobi_next (a b i : Z) (x Jn Jp : R) : R :=
  let a1 := uint (2 * (i + 1) * (i + a + b + 1) * (2 * i + a + b)) in
  let a2 := uint ((2 * i + a + b + 1) * (a * a - b * b)) in
  let a3 := uint ((2 * i + a + b) * (2 * i + a + b + 1) * (2 * i + a + b + 2)) in
  let a4 := uint (2 * (i + a) * (i + b) * (2 * i + a + b + 2)) in
  ((a2 + a3 * x) * Jn - a4 * Jp) / a1.
Definition jacobi_rows (n : nat) (a b : Z) (x : R) : nat -> R :=
  fold_left (fun J i => upd J ((i + 1) mod 3) (jacobi_next a b (Z.of_nat i) x (J (i mod 3)%nat) (J ((i - 1) mod 3)%nat)))
            (seq 1 (n - 1))
            (fun r => match r with 0%nat => 1 | 1%nat => jacobi_first a b x | _ => 0 end).
Definition jacobi_polynomial (n : nat) (a b : Z) (x : R) : R :=
  match n with
  | 0%nat => 1
  | 1%nat => jacobi_first a b x
  | _ => jacobi_rows n a b x (n mod 3)%nat
  end.

(** Lines 46-67, jacobi_polynomial_derivative. *)
Definition jacobi_polynomial_derivative (n : nat) (a b : Z) (x : R) : R :=
  match n with
  | 0%nat => 0
  | 1%nat => uint (a + b + Z.of_nat n + 1) / 2
  | _ => jacobi_polynomial (n - 1) (a + 1) (b + 1) x * (uint (a + b + Z.of_nat n + 1) / 2)
  end.

(** basis_dubiner_2D.cpp line 5 (also 32, 66): ndof. *)
Definition dubiner_ndof (p : nat) : nat := ((p + 1) * (p + 2) / 2)%nat.

(** Lines 19-23 (also 49-53, 73-77): degree and exponents of a basis function.
    The square root and the ceiling are exact here. *)
Definition tri_num_indx (dof : nat) : nat := Z.to_nat (ceilR ((-3 + sqrt (1 + 8 * INR (dof + 1))) / 2)).
Definition lower_tri_num (dof : nat) : nat := ((tri_num_indx dof + 1) * tri_num_indx dof / 2)%nat.
Definition dubiner_p (dof : nat) : nat := (dof - lower_tri_num dof)%nat.
Definition dubiner_q (dof : nat) : nat := (tri_num_indx dof - dubiner_p dof)%nat.

(** Collapsed coordinate n1 of lines 13-16: None is the NaN of 0/0 at (-1,1).
    For z2 = 1 and z1 <> -1 the code gets an infinity; such points lie outside
    the master triangle and no theorem is stated for them. *)
Definition collapsed (z : point) : option R :=
  if Req_EM_T (snd z) 1
  then if Req_EM_T (fst z) (-1) then None else Some 0
  else Some (2 * (1 + fst z) / (1 - snd z) - 1).

(** Lines 85-111, ComputePhi. *)
Definition ComputePhi (p q : nat) (n1 : option R) (n2 : R) : R :=
  match n1 with
  | Some n1 => jacobi_polynomial p 0 0 n1 * ((1 - n2) / 2) ^ p * jacobi_polynomial q (2 * Z.of_nat p + 1) 0 n2
  | None => match p with 0%nat => INR (q + 1) | _ => 0 end
  end.

(** Lines 177-193 and 195-211. *)
Fixpoint ComputeSingularDPhiDZ1 (q : nat) : R * R :=
  match q with
  | 0%nat => (3, 1)
  | S q' => let t := ComputeSingularDPhiDZ1 q' in (fst t + INR q + 2, fst t + snd t)
  end.
Fixpoint ComputeSingularDPhiDZ2 (q : nat) : R * R :=
  match q with
  | 0%nat => (1 / 2, 0)
  | S q' => let t := ComputeSingularDPhiDZ2 q' in (fst t + 1 / 2 * INR (q + 1), fst t + snd t)
  end.

(** Lines 113-139. *)
Definition ComputeDPhiDZ1 (p q : nat) (n1 : option R) (n2 : R) : R :=
  match n1 with
  | Some n1 => (2 / (1 - n2)) * jacobi_polynomial_derivative p 0 0 n1 * ((1 - n2) / 2) ^ p *
               jacobi_polynomial q (2 * Z.of_nat p + 1) 0 n2
  | None => if Nat.eqb p 1 then snd (ComputeSingularDPhiDZ1 q) else 0
  end.

(** Lines 141-175.  pow(., (int)(p-1)) for p = 0 is a power -1. *)
Definition ComputeDPhiDZ2 (p q : nat) (n1 : option R) (n2 : R) : R :=
  match n1 with
  | Some n1 =>
      ((1 + n1) / (1 - n2)) * jacobi_polynomial_derivative p 0 0 n1 * ((1 - n2) / 2) ^ p *
        jacobi_polynomial q (2 * Z.of_nat p + 1) 0 n2 +
      jacobi_polynomial p 0 0 n1 *
        (((1 - n2) / 2) ^ p * jacobi_polynomial_derivative q (2 * Z.of_nat p + 1) 0 n2 -
         (INR p / 2) * (match p with 0%nat => / ((1 - n2) / 2) | S p' => ((1 - n2) / 2) ^ p' end) *
         jacobi_polynomial q (2 * Z.of_nat p + 1) 0 n2)
  | None => match p with
            | 0%nat => 3 * snd (ComputeSingularDPhiDZ2 q)
            | 1%nat => snd (ComputeSingularDPhiDZ2 (q + 1))
            | _ => 0
            end
  end.

(** Lines 4-29 and 31-63: row [dof] at the point. *)
Definition GetPhi (dof : nat) (z : point) : R :=
  ComputePhi (dubiner_p dof) (dubiner_q dof) (collapsed z) (snd z).
Definition GetDPhi (dof : nat) (z : point) : point :=
  (ComputeDPhiDZ1 (dubiner_p dof) (dubiner_q dof) (collapsed z) (snd z),
   ComputeDPhiDZ2 (dubiner_p dof) (dubiner_q dof) (collapsed z) (snd z)).

(** Lines 65-83: entry (i,j); the diagonal is an unsigned product over 2.0. *)
Definition GetMinv (i j : nat) : R :=
  if Nat.eqb i j
  then uint ((2 * Z.of_nat (dubiner_p i) + 1) * (Z.of_nat (dubiner_p i) + Z.of_nat (dubiner_q i) + 1)) / 2
  else 0.

(** Lines 213-234, GetBasisLinearT: an ndof x 3 matrix; rows 0 to 2 are written
    whatever ndof is, so order 0 (one row) is an out-of-range write. *)
Definition GetBasisLinearT (p : nat) : outcome (nat -> nat -> R) :=
  if (3 <=? dubiner_ndof p)%nat
  then Ok (fun dof v => match dof, v with
    | 0%nat, 0%nat => 1 | 1%nat, 0%nat => -1 | 2%nat, 0%nat => -1
    | 0%nat, 1%nat => 1 | 1%nat, 1%nat => -1 | 2%nat, 1%nat => 1
    | 0%nat, 2%nat => 1 | 1%nat, 2%nat => 2 | 2%nat, 2%nat => 0
    | _, _ => 0 end)
  else UB.
(** Lines 236-257, GetLinearBasisT: a 3 x ndof matrix. *)
Definition GetLinearBasisT (p : nat) : outcome (nat -> nat -> R) :=
  if (3 <=? dubiner_ndof p)%nat
  then Ok (fun v dof => match v, dof with
    | 0%nat, 0%nat => 1/3 | 1%nat, 0%nat => 1/3 | 2%nat, 0%nat => 1/3
    | 0%nat, 1%nat => -1/6 | 1%nat, 1%nat => -1/6 | 2%nat, 1%nat => 1/3
    | 0%nat, 2%nat => -1/2 | 1%nat, 2%nat => 1/2 | 2%nat, 2%nat => 0
    | _, _ => 0 end)
  else UB.

(** Row vector times matrix, ProjectBasisToLinear and ProjectLinearToBasis
    (master_triangle.tpp lines 124-134). *)
Fixpoint vmsum (n : nat) (f : nat -> R) : R := match n with 0%nat => 0 | S m => vmsum m f + f m end.
Definition vmul (rows : nat) (u : nat -> R) (A : nat -> nat -> R) : nat -> R :=
  fun c => vmsum rows (fun r => u r * A r c).
Definition ProjectBasisToLinear (p : nat) (u : nat -> R) : outcome (nat -> R) :=
  do A <- GetBasisLinearT p ; Ok (vmul (dubiner_ndof p) u A).
Definition ProjectLinearToBasis (p : nat) (u_lin : nat -> R) : outcome (nat -> R) :=
  do A <- GetLinearBasisT p ; Ok (vmul 3 u_lin A).

(** basis_legendre_1D.cpp: rows of GetPhi and GetDPhi, diagonal of GetMinv. *)
Definition legendre_phi (dof : nat) (l1 : R) : R := jacobi_polynomial dof 0 0 l1.
Definition legendre_dphi (dof : nat) (l1 : R) : R := jacobi_polynomial_derivative dof 0 0 l1.
Definition legendre_minv (i j : nat) : R := if Nat.eqb i j then uint (2 * Z.of_nat i + 1) / 2 else 0.

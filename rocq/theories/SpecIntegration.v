(** Polynomials given by their coefficients, and the sum of the sizes of these. *)
From Coq Require Import Reals List.
From Verif Require Import SpecBasis.
Import ListNotations.
Open Scope R_scope.

(** sum of c_k x^k for k < n *)
Definition poly1 (n : nat) (c : nat -> R) (x : R) : R := bsum n (fun k => c k * x ^ k).
Definition size1 (n : nat) (c : nat -> R) : R := bsum n (fun k => Rabs (c k)).
(** sum of c_ij x^i y^j for i + j <= d *)
Definition poly2 (d : nat) (c : nat -> nat -> R) (x y : R) : R :=
  bsum (S d) (fun i => bsum (S (d - i)) (fun j => c i j * (x ^ i * y ^ j))).
Definition size2 (d : nat) (c : nat -> nat -> R) : R :=
  bsum (S d) (fun i => bsum (S (d - i)) (fun j => Rabs (c i j))).
Fixpoint increasing (l : list R) : Prop :=
  match l with
  | [] => True
  | x :: r => (match r with [] => True | y :: _ => x < y end) /\ increasing r
  end.

(** Reference notions for the search for NaN. *)
From Coq Require Import List Arith.
From Coq.Floats Require Import SpecFloat.

Definition nan_in_row (ndof : nat) (q : nat -> nat -> spec_float) (row : nat) : Prop :=
  exists mode, mode < ndof /\ q row mode = S754_nan.
(** A NaN among the coefficients of surface elevation (row 0) and discharge (rows 1 and 2). *)
Definition has_nan (ndof : nat) (q : nat -> nat -> spec_float) : Prop := exists row, row < 3 /\ nan_in_row ndof q row.
(** No element has one. *)
Definition clean (n ndof : nat) (q : nat -> nat -> nat -> spec_float) : Prop := forall e, e < n -> ~ has_nan ndof (q e).

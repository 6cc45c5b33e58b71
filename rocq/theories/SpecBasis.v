(** Reference notions for the modal bases: classical Jacobi polynomials,
    polynomials in two variables with their degree, integrals over the master
    triangle with vertices (-1,-1), (1,-1), (-1,1). *)
From Coq Require Import Reals Arith.
From Coquelicot Require Import Coquelicot.
Open Scope R_scope.

Fixpoint bsum (n : nat) (f : nat -> R) : R := match n with 0%nat => 0 | S m => bsum m f + f m end.

(** Jacobi polynomial as a sum of powers of (1 - x) / 2. *)
Definition jacobi_coeff (n a b k : nat) : R :=
  (-1) ^ k * INR (fact (n + a)) * INR (fact (n + a + b + k)) /
  (INR (fact k) * INR (fact (n - k)) * INR (fact (a + k)) * INR (fact (n + a + b))).
Definition jacobi_classical (n a b : nat) (x : R) : R :=
  bsum (S n) (fun k => jacobi_coeff n a b k * ((1 - x) / 2) ^ k).

(** Functions of two variables that are polynomials of total degree at most d. *)
Inductive poly_deg : nat -> (R -> R -> R) -> Prop :=
| pd_const : forall c, poly_deg 0 (fun _ _ => c)
| pd_x : poly_deg 1 (fun x _ => x)
| pd_y : poly_deg 1 (fun _ y => y)
| pd_add : forall d f g, poly_deg d f -> poly_deg d g -> poly_deg d (fun x y => f x y + g x y)
| pd_mul : forall d e f g, poly_deg d f -> poly_deg e g -> poly_deg (d + e) (fun x y => f x y * g x y)
| pd_le : forall d e f, (d <= e)%nat -> poly_deg d f -> poly_deg e f
| pd_ext : forall d f g, (forall x y, f x y = g x y) -> poly_deg d f -> poly_deg d g.

(** Iterated integral over the master triangle. *)
Definition is_triangle_int (f : R -> R -> R) (v : R) : Prop :=
  exists inner : R -> R,
    (forall z2, -1 <= z2 <= 1 -> is_RInt (fun z1 => f z1 z2) (-1) (- z2) (inner z2)) /\
    is_RInt inner (-1) 1 v.

(** Points of the closed master triangle. *)
Definition in_master (z1 z2 : R) : Prop := -1 <= z1 /\ -1 <= z2 /\ z1 + z2 <= 0.

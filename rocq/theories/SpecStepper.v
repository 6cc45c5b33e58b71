(** Specifications for the time-stepper properties. *)
From Coq Require Import ZArith QArith Qabs List Reals Qreals.
Import ListNotations.

(** Finite sums f 0 + ... + f (n-1). *)
Fixpoint rsum (n : nat) (f : nat -> R) : R :=
  match n with O => 0%R | S m => (rsum m f + f m)%R end.
Fixpoint qsum (n : nat) (f : nat -> Q) : Q :=
  match n with O => 0%Q | S m => Qred (qsum m f + f m)%Q end.

(** Shu-Osher form of an explicit Runge-Kutta step with coefficients a, b:
    [Qs k] is the k-th stage state, [sols k] the right-hand side evaluated there. *)
Definition shu_osher {I : Type} (a b : nat -> nat -> Q) (dt : R) (n : nat) (Qs sols : nat -> I -> R) : Prop :=
  forall k, (k < n)%nat -> forall i,
    Qs (S k) i = rsum (S k) (fun s => Q2R (a k s) * Qs s i + dt * Q2R (b k s) * sols s i)%R.

(** Butcher form: stage k is r_k times the old state plus dt times the
    combination [M k] of right-hand sides; row n is the new state. *)
Definition butcher_form {I : Type} (r : nat -> Q) (M : nat -> nat -> Q) (dt : R) (n : nat)
    (Qs sols : nat -> I -> R) : Prop :=
  forall k, (k <= n)%nat -> forall i,
    Qs k i = (Q2R (r k) * Qs O i + dt * rsum n (fun j => Q2R (M k j) * sols j i))%R.

(** Abscissa of stage k. *)
Definition abscissa (M : nat -> nat -> Q) (n k : nat) : Q := qsum n (M k).

(** Accuracy of the printed coefficients: bound on the order residuals. *)
Definition rk_accuracy (n p : nat) : Q := (match n, p with
  | 5%nat, 4%nat => 9 # 100000000000 | 6%nat, 4%nat => 6 # 10000000000000 | 7%nat, 4%nat => 5 # 1000000000000 | 8%nat, 4%nat => 4 # 100000000000000
  | 5%nat, 3%nat | 6%nat, 3%nat | 7%nat, 3%nat | 8%nat, 3%nat => 2 # 1000000000000000 | _, _ => 0 end)%Q.
(** Residuals of the Runge-Kutta order conditions (rooted trees up to order p
    <= 4) for the tableau with stage rows [M 0 .. M (n-1)] and weights [M n]. *)
Definition order_residuals (M : nat -> nat -> Q) (n p : nat) : list Q :=
  let b := M n in
  let c := abscissa M n in
  let S := qsum n in
  (if Nat.leb 1 p then [S b - 1] else []) ++
  (if Nat.leb 2 p then [S (fun i => b i * c i) - (1#2)] else []) ++
  (if Nat.leb 3 p then [S (fun i => b i * (c i * c i)) - (1#3);
                        S (fun i => b i * S (fun j => M i j * c j)) - (1#6)] else []) ++
  (if Nat.leb 4 p then [S (fun i => b i * (c i * c i * c i)) - (1#4);
                        S (fun i => b i * c i * S (fun j => M i j * c j)) - (1#8);
                        S (fun i => b i * S (fun j => M i j * (c j * c j))) - (1#12);
                        S (fun i => b i * S (fun j => M i j * S (fun k => M j k * c k))) - (1#24)] else []).

(** [d!] as a rational, 1/d! being the Taylor coefficients of exp. *)
Fixpoint qfact (d : nat) : Q := match d with O => 1 | S m => inject_Z (Z.of_nat d) * qfact m end.

(** Linear functionals on states (total mass, a component of momentum, ...). *)
Record linear_functional {I : Type} (L : (I -> R) -> R) : Prop := {
  lf_ext : forall x y, (forall i, x i = y i) -> L x = L y;
  lf_add : forall x y, L (fun i => x i + y i)%R = (L x + L y)%R;
  lf_scal : forall c x, L (fun i => c * x i)%R = (c * L x)%R }.

(** Sublinear functionals (seminorms, maxima, total variation, ...). *)
Record sublinear {I : Type} (N : (I -> R) -> R) : Prop := {
  sl_ext : forall x y, (forall i, x i = y i) -> N x = N y;
  sl_add : forall x y, (N (fun i => x i + y i) <= N x + N y)%R;
  sl_scal : forall c x, (0 <= c)%R -> N (fun i => c * x i)%R = (c * N x)%R }.

(** Polynomials with rational coefficients, constant term first. *)
Fixpoint peval (l : list Q) (z : R) : R :=
  match l with [] => 0%R | c :: r => (Q2R c + z * peval r z)%R end.

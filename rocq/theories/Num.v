(** Numeric operations used by the models of floating-point code.

    The record holds operations only, no laws, so the same definition can be
    run on rationals (tests) and reasoned about on the reals (theorems).
    [double] in the C++ code is modelled by exact arithmetic: rounding,
    overflow and NaN are not modelled.  Division by zero has no meaningful
    value here; definitions that can divide by zero say so and either take an
    explicit branch or are used under a hypothesis excluding it. *)
From Coq Require Import ZArith QArith Qabs Reals Bool Lra.

Class Num (T : Type) := {
  nofZ : Z -> T;
  nadd : T -> T -> T;
  nsub : T -> T -> T;
  nmul : T -> T -> T;
  ndiv : T -> T -> T;
  nopp : T -> T;
  nleb : T -> T -> bool;   (* x <= y *)
  nltb : T -> T -> bool;   (* x <  y *)
  nsqrt : T -> T
}.

Declare Scope num_scope.
Delimit Scope num_scope with num.
Infix "+" := nadd : num_scope.
Infix "-" := nsub : num_scope.
Infix "*" := nmul : num_scope.
Infix "/" := ndiv : num_scope.
Notation "- x" := (nopp x) : num_scope.
Infix "<=?" := nleb : num_scope.
Infix "<?" := nltb : num_scope.
Notation "$ z" := (nofZ z%Z) (at level 1, z at level 0, format "$ z") : num_scope.

Section Derived.
  Context {T : Type} {N : Num T}.
  Local Open Scope num_scope.

  (** std::abs, std::max, std::min. *)
  Definition nabs (x : T) : T := if $0 <=? x then x else - x.
  (** std::max(a,b) returns a unless a < b; std::min(a,b) returns a unless b < a. *)
  Definition nmax (a b : T) : T := if a <? b then b else a.
  Definition nmin (a b : T) : T := if b <? a then b else a.
  Definition nsq (x : T) : T := x * x.
  (** 10^-12, the flux threshold literal 1e-12. *)
  Definition n1em12 : T := $1 / $1000000000000.
End Derived.

(** ** Reals *)
Definition Rleb (x y : R) : bool := if Rle_dec x y then true else false.
Definition Rltb (x y : R) : bool := if Rlt_dec x y then true else false.

Global Instance Num_R : Num R := {
  nofZ := IZR; nadd := Rplus; nsub := Rminus; nmul := Rmult; ndiv := Rdiv;
  nopp := Ropp; nleb := Rleb; nltb := Rltb; nsqrt := sqrt }.

(** ** Rationals; [nsqrt] is exact on squares of rationals, otherwise rounded
    down (it is used in executable tests only).  Not an instance, so that
    definitions used without a type annotation resolve to the reals. *)
Definition Qsqrt_floor (x : Q) : Q := Qmake (Z.sqrt (Qnum x * Zpos (Qden x))) (Qden x).
Definition Qltb (x y : Q) : bool := negb (Qle_bool y x).

Definition Num_Q : Num Q := {|
  nofZ := inject_Z; nadd := fun x y => Qred (x + y); nsub := fun x y => Qred (x - y);
  nmul := fun x y => Qred (x * y); ndiv := fun x y => Qred (x / y);
  nopp := fun x => Qred (- x); nleb := Qle_bool; nltb := Qltb; nsqrt := fun x => Qred (Qsqrt_floor (Qred x)) |}.

(** ** Characterising lemmas at the reals *)
Lemma Rleb_spec : forall x y : R, reflect (x <= y)%R (Rleb x y).
Proof. intros x y; unfold Rleb; destruct (Rle_dec x y); constructor; assumption. Qed.

Lemma Rltb_spec : forall x y : R, reflect (x < y)%R (Rltb x y).
Proof. intros x y; unfold Rltb; destruct (Rlt_dec x y); constructor; assumption. Qed.

Lemma Rleb_true : forall x y : R, (x <= y)%R -> Rleb x y = true.
Proof. intros x y H; destruct (Rleb_spec x y); [reflexivity | contradiction]. Qed.

Lemma Rltb_true : forall x y : R, (x < y)%R -> Rltb x y = true.
Proof. intros x y H; destruct (Rltb_spec x y); [reflexivity | contradiction]. Qed.

Lemma Rltb_false : forall x y : R, (y <= x)%R -> Rltb x y = false.
Proof. intros x y H; destruct (Rltb_spec x y); [exfalso; lra | reflexivity]. Qed.

Lemma Rleb_false : forall x y : R, (y < x)%R -> Rleb x y = false.
Proof. intros x y H; destruct (Rleb_spec x y); [exfalso; lra | reflexivity]. Qed.

Lemma nabs_R : forall x : R, nabs x = Rabs x.
Proof.
  intros x; unfold nabs; cbn.
  destruct (Rleb_spec 0 x) as [H|H].
  - rewrite Rabs_pos_eq; [reflexivity | exact H].
  - rewrite Rabs_left; [reflexivity | lra].
Qed.

Lemma nmax_R : forall a b : R, nmax a b = Rmax a b.
Proof.
  intros a b; unfold nmax; cbn.
  destruct (Rltb_spec a b) as [H|H].
  - rewrite Rmax_right; [reflexivity | lra].
  - rewrite Rmax_left; [reflexivity | lra].
Qed.

Lemma nmin_R : forall a b : R, nmin a b = Rmin a b.
Proof.
  intros a b; unfold nmin; cbn.
  destruct (Rltb_spec b a) as [H|H].
  - rewrite Rmin_right; [reflexivity | lra].
  - rewrite Rmin_left; [reflexivity | lra].
Qed.

(** Turns every numeric operation at R into the standard one. *)
Ltac num_R :=
  rewrite ?nabs_R, ?nmax_R, ?nmin_R in *; unfold nsq, n1em12 in *;
  cbn [nofZ nadd nsub nmul ndiv nopp nleb nltb nsqrt Num_R] in *.

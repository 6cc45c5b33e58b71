(** Coordinates written with twelve decimals. *)
From Coq Require Import Reals ZArith.
From Verif Require Import ModelStream ModelMeta SpecMeta.
Local Open Scope R_scope.

(** Within 10^-12 plus one unit in the last place. *)
Definition near (a b : double) : Prop :=
  Rabs (double_value a - double_value b) <= / 1000000000000 + / 4503599627370496 * Rabs (double_value b).
Definition near_points (p q : point3) : Prop :=
  let '(x, y, z) := p in let '(x', y', z') := q in near x x' /\ near y y' /\ near z z'.

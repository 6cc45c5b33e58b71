(** What the geometric routines should deliver, in terms of plane geometry. *)
From Coq Require Import Reals.
Open Scope R_scope.

Definition pt := (R * R)%type.
Definition vsub (a b : pt) : pt := (fst a - fst b, snd a - snd b).
Definition vdot (a b : pt) : R := fst a * fst b + snd a * snd b.
Definition dist (a b : pt) : R := sqrt (vdot (vsub a b) (vsub a b)).
(** Twice the signed area of the triangle a b c, positive counter-clockwise. *)
Definition orient (a b c : pt) : R :=
  (fst b - fst a) * (snd c - snd a) - (snd b - snd a) * (fst c - fst a).
(** Affine combination of three points. *)
Definition comb (a b c : pt) (u v w : R) : pt :=
  (u * fst a + v * fst b + w * fst c, u * snd a + v * snd b + w * snd c).
Definition in_triangle (a b c x : pt) : Prop :=
  exists u v w, 0 <= u /\ 0 <= v /\ 0 <= w /\ u + v + w = 1 /\ x = comb a b c u v w.
(** [m] is the outward unit normal of the edge p q of the triangle p q r. *)
Definition outward_normal (m p q r : pt) : Prop :=
  vdot m m = 1 /\ vdot m (vsub q p) = 0 /\ vdot m (vsub r p) < 0.
(** Radius of the circle through three points. *)
Definition circumradius (a b c : pt) (rad : R) : Prop :=
  exists o, dist o a = rad /\ dist o b = rad /\ dist o c = rad.
(** Point at parameter z in [-1,1] of the segment from p to q. *)
Definition on_segment (p q : pt) (z : R) : pt :=
  ((1 - z) / 2 * fst p + (1 + z) / 2 * fst q, (1 - z) / 2 * snd p + (1 + z) / 2 * snd q).

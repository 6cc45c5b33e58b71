(** Reference notions for slope limiting. *)
From Coq Require Import Reals List Bool.
From Verif Require Import ModelShape ModelBasis ModelJac SpecWetDry ModelSlope.
Import ListNotations.
Open Scope R_scope.

(** A linear function of the plane. *)
Definition plane (c : R * R * R) (x : point) : R := let '(a, b, d) := c in a + b * fst x + d * snd x.

(** The slope values of an element: midpoint value minus centre value. *)
Definition midpoint_slope (w : nat -> R) (b : nat) : R :=
  ((w 0%nat + w 1%nat + w 2%nat) - w b) / 2 - (w 0%nat + w 1%nat + w 2%nat) / 3.

(** [y] has the sign of [x] and is no larger. *)
Definition damped (y x : R) : Prop := (0 <= x /\ 0 <= y <= x) \/ (x <= 0 /\ x <= y <= 0).

(** The (element, face) pairs of a face and what is seen across each. *)
Definition face_sides (f : sl_face) : list (nat * nat) :=
  match f with Intface ei bi ee be => [(ei, bi); (ee, be)] | Bound e b => [(e, b)] end.
Definition across (f : sl_face) (e b : nat) : nat :=
  match f with
  | Intface ei bi ee be => if andb (Nat.eqb e ei) (Nat.eqb b bi) then ee else ei
  | Bound e' _ => e'
  end.

Definition unit_medians (s : sl_in) : Prop := forall b, (b < 3)%nat -> fst (sl_med s b) * fst (sl_med s b) + snd (sl_med s b) * snd (sl_med s b) = 1.
(** The characteristic differences of a state, in terms of its own values. *)
Definition depth_c (s : sl_in) (q : nat -> nat -> R) : R := q 0%nat 0%nat + sl_bath s.
Definition slope_vec (q : nat -> nat -> R) (b : nat) : vec := fun var => midpoint_slope (vertex_value (q var)) b.
Definition neigh_vec (s : sl_in) (q : nat -> nat -> R) (b : nat) : vec := fun var =>
  fst (sl_al s b) * (sl_neigh s b var - q var 0%nat) + snd (sl_al s b) * (sl_neigh s ((b + 1) mod 3)%nat var - q var 0%nat).
Definition to_char (s : sl_in) (q : nat -> nat -> R) (b : nat) (w : vec) : vec :=
  mvec (invR (sl_g s) (depth_c s q) (q 1%nat 0%nat / depth_c s q) (q 2%nat 0%nat / depth_c s q) (fst (sl_med s b)) (snd (sl_med s b))) w.
(** The minmod-limited slopes across face [b], back in conserved variables. *)
Definition limited_slope (s : sl_in) (q : nat -> nat -> R) (var b : nat) : R :=
  mvec (eigR (sl_g s) (depth_c s q) (q 1%nat 0%nat / depth_c s q) (q 2%nat 0%nat / depth_c s q) (fst (sl_med s b)) (snd (sl_med s b)))
    (fun i => minmod (sl_M s) (sl_nu s) (sl_rs s b) (to_char s q b (slope_vec q b) i) (to_char s q b (neigh_vec s q b) i)) var.

(** [d'] is [d] with its larger part scaled down so that the sum is zero. *)
Definition sum3 (f : nat -> R) : R := f 0%nat + f 1%nat + f 2%nat.
Definition balanced (d d' : nat -> R) : Prop :=
  let pos := sum3 (fun b => Rmax 0 (d b)) in
  let neg := sum3 (fun b => Rmax 0 (- d b)) in
  sum3 d' = 0 /\ forall b, (b < 3)%nat -> damped (d' b) (d b) /\
  (pos <= neg -> (0 <= d b -> d' b = d b) /\ (d b <= 0 -> d' b * neg = d b * pos)) /\
  (neg <= pos -> (d b <= 0 -> d' b = d b) /\ (0 <= d b -> d' b * pos = d b * neg)).
Definition length3 (w : nat -> R) : R := sqrt (sum3 (fun v => w v * w v)).

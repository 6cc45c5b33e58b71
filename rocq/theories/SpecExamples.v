(** What it means that given functions of time and place solve the equations. *)
From Coq Require Import Reals.
From Coquelicot Require Import Hierarchy Derive.
From Verif Require Import Num ModelSWE ModelJac ModelStep SpecGN.
Open Scope R_scope.

(** dU/dt + dF/dx + dG/dy = S at a point, with derivatives that exist. *)
Definition field := R -> R -> R -> R.
Definition balance (U F G S : field) (t x y : R) : Prop := exists a b c,
  is_derive (fun s => U s x y) t a /\ is_derive (fun s => F t s y) x b /\ is_derive (fun s => G t x s) y c /\ a + b + c = S t x y.

Section Equations.
  Context (g : R) (B : R -> R -> R) (Bx By : R -> R -> R) (src : R -> R -> R -> vec3 R) (q : R -> R -> R -> vec3 R).
  (** Depth of the water, [B] the depth of the bed below the datum. *)
  Definition column (t x y : R) : R := ze (q t x y) + B x y.
  Definition bed_slope : Prop := forall x y, is_derive (fun s => B s y) x (Bx x y) /\ is_derive (fun s => B x s) y (By x y).
  (** The shallow-water equations as in the textbooks: mass, and momentum with the
      pressure g h^2 / 2 and the force of the sloping bed. *)
  Definition shallow_water (t x y : R) : Prop :=
    balance (fun t x y => ze (q t x y)) (fun t x y => qx (q t x y)) (fun t x y => qy (q t x y)) (fun t x y => ze (src t x y)) t x y /\
    balance (fun t x y => qx (q t x y)) (fun t x y => qx (q t x y) ^ 2 / column t x y + g * column t x y ^ 2 / 2)
      (fun t x y => qx (q t x y) * qy (q t x y) / column t x y) (fun t x y => g * column t x y * Bx x y + qx (src t x y)) t x y /\
    balance (fun t x y => qy (q t x y)) (fun t x y => qx (q t x y) * qy (q t x y) / column t x y)
      (fun t x y => qy (q t x y) ^ 2 / column t x y + g * column t x y ^ 2 / 2) (fun t x y => g * column t x y * By x y + qy (src t x y)) t x y.
  (** The same with the flux and the source the code evaluates, without friction. *)
  Definition aux_of (t x y : R) : aux3 R := Aux (B x y) (column t x y) 1.
  Definition code_flux (t x y : R) : vec3 R * vec3 R := get_F g (q t x y) (aux_of t x y).
  Definition code_source (t x y : R) : vec3 R :=
    get_source g (SourceIn false 0 false 0) (Some (fun _ => src t x y)) 1 (fun _ => q t x y) (fun _ => aux_of t x y) (fun _ => V2 (Bx x y) (By x y)) 0%nat.
  Definition solver_equations (t x y : R) : Prop := forall v, (v < 3)%nat ->
    balance (fun t x y => vget (q t x y) v) (fun t x y => vget (fst (code_flux t x y)) v) (fun t x y => vget (snd (code_flux t x y)) v)
      (fun t x y => vget (code_source t x y) v) t x y.
End Equations.

(** Flat bed at depth [H], waves along x, no forcing: the equations the dispersive solver
    discretises.  Mass as above; momentum with the source g/alpha h zeta_x - w1 where
      w1 - alpha/3 (w2)_x = K,   w2 = h^3 (w1 / h)_x,
    K the source of the dispersive system (SpecGN) on a flat bed.  [u], [ux], [uxx], [hx]
    are velocity, its derivatives and the slope of the surface. *)
Definition flat {A} (z : A) (i : nat) : A := z.
Definition along (a b : R) (i : nat) : R := match i with 0%nat => a | _ => b end.
Definition green_naghdi (g alpha H : R) (q : R -> R -> R -> vec3 R) : Prop :=
  exists u ux uxx hx w1 w1x w2 w2x : R -> R -> R,
  (forall t x y, u t x = qx (q t x y) / (ze (q t x y) + H)) /\
  (forall t x, is_derive (fun s => u t s) x (ux t x) /\ is_derive (fun s => ux t s) x (uxx t x)) /\
  (forall t x y, is_derive (fun s => ze (q t s y)) x (hx t x)) /\
  (forall t x y, shallow_water g (fun _ _ => H) (fun _ _ => 0) (fun _ _ => 0)
     (fun t x y => V3 0 (g / alpha * (ze (q t x y) + H) * hx t x - w1 t x) 0) q t x y) /\
  (forall t x y, is_derive (fun s => w1 t s / (ze (q t s y) + H)) x (w1x t x) /\ w2 t x = (ze (q t x y) + H) ^ 3 * w1x t x) /\
  (forall t x, is_derive (fun s => w2 t s) x (w2x t x)) /\
  (forall t x y, w1 t x - alpha / 3 * w2x t x =
     disp_source g alpha (ze (q t x y) + H) (along (hx t x) 0) (flat 0) (flat (flat 0)) (flat (flat (flat 0))) (along (hx t x) 0)
       (along (u t x) 0) (fun i c => match i, c with 0%nat, 0%nat => ux t x | _, _ => 0 end)
       (fun i c d => match i, c, d with 0%nat, 0%nat, 0%nat => uxx t x | _, _, _ => 0 end) 0%nat).

(** Oscillation in a parabolic basin of depth -a r^2 below datum (Thacker): with
    D = X + Y cos(om t) the depth is 1/D + a (Y^2 - X^2)/D^2 r^2 and the velocity is
    D'/(2 D) (x, y). *)
Definition thacker (a X Y om t x y : R) : vec3 R :=
  let D := X + Y * cos (om * t) in
  let h := 1 / D + a * (Y ^ 2 - X ^ 2) / D ^ 2 * (x ^ 2 + y ^ 2) in
  let l := - (Y * om * sin (om * t)) / (2 * D) in
  V3 (h + a * (x ^ 2 + y ^ 2)) (h * (l * x)) (h * (l * y)).

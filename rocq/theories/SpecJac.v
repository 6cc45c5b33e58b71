(** Specifications for Jacobians, characteristic decomposition and friction. *)
From Coq Require Import Reals.
From Coquelicot Require Import Coquelicot.
From Verif Require Import Num ModelSWE ModelJac.
Open Scope R_scope.

(** State and auxiliaries with elevation z, discharge (x, y), bathymetry b;
    the depth is z + b, as the solvers keep it. *)
Definition state (z x y : R) : vec3 R := V3 z x y.
Definition auxil (z b s : R) : aux3 R := Aux b (z + b) s.

(** Entrywise derivatives. *)
Definition vderive (F : R -> vec3 R) (t : R) (a b c : R) : Prop :=
  is_derive (fun s => ze (F s)) t a /\ is_derive (fun s => qx (F s)) t b /\ is_derive (fun s => qy (F s)) t c.
Definition mderive (F : R -> mat3) (t : R) (D : mat3) : Prop :=
  is_derive (fun s => m00 (F s)) t (m00 D) /\ is_derive (fun s => m01 (F s)) t (m01 D) /\ is_derive (fun s => m02 (F s)) t (m02 D) /\
  is_derive (fun s => m10 (F s)) t (m10 D) /\ is_derive (fun s => m11 (F s)) t (m11 D) /\ is_derive (fun s => m12 (F s)) t (m12 D) /\
  is_derive (fun s => m20 (F s)) t (m20 D) /\ is_derive (fun s => m21 (F s)) t (m21 D) /\ is_derive (fun s => m22 (F s)) t (m22 D).

(** J is the Jacobian matrix of F at (z, x, y): column j holds the partial
    derivatives with respect to variable j. *)
Definition jacobian (F : R -> R -> R -> vec3 R) (z x y : R) (J : mat3) : Prop :=
  vderive (fun t => F t x y) z (m00 J) (m10 J) (m20 J) /\
  vderive (fun t => F z t y) x (m01 J) (m11 J) (m21 J) /\
  vderive (fun t => F z x t) y (m02 J) (m12 J) (m22 J).

Definition ident : mat3 := M3 1 0 0 0 1 0 0 0 1.
Definition mzero : mat3 := M3 0 0 0 0 0 0 0 0 0.
Definition mapply (A : mat3) (w : R * R * R) : R * R * R :=
  let '(a, b, c) := w in
  (m00 A * a + m01 A * b + m02 A * c, m10 A * a + m11 A * b + m12 A * c, m20 A * a + m21 A * b + m22 A * c).
Definition wscale (s : R) (w : R * R * R) : R * R * R := let '(a, b, c) := w in (s * a, s * b, s * c).
(** l is an eigenvalue of A. *)
Definition eigenvalue (A : mat3) (l : R) : Prop := exists w, w <> (0, 0, 0) /\ mapply A w = wscale l w.

(** Friction coefficient in effect at depth h: Cf, or with Manning's law the
    larger of Cf and g n^2 / h^(1/3). *)
Definition friction_coef (p : source_in) (h : R) : R :=
  if s_manning p then Rmax (s_Cf p) (s_g_manning_n_sq p / cube_root h) else s_Cf p.

(** Pressure term g ze grad(b) plus the function source. *)
Definition unfrictioned (g : R) (fs : option (nat -> vec3 R)) (q : vec3 R) (db : vec2 R) (j : nat) : vec3 R :=
  let f := match fs with Some f => f j | None => V3 0 0 0 end in
  V3 (ze f) (g * (nx db * ze q) + qx f) (g * (ny db * ze q) + qy f).

(** Rate of working of a source on the flow: source . velocity, up to the positive factor 1/h. *)
Definition power (s q : vec3 R) : R := qx s * qx q + qy s * qy q.

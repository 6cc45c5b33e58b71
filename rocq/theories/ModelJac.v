(** Flux Jacobians, characteristic decomposition and source terms at one
    Gauss point.  Reals; [g] is Global::g.  The routines loop over the columns
    of their arguments and treat each column independently. *)
From Coq Require Import Reals.
From Verif Require Import Num ModelSWE.
Open Scope R_scope.

(** StatMatrix<double,3,3>, row by row (also the flattened layout
    JacobianVariables, swe_definitions.hpp). *)
Record mat3 := M3 {
  m00 : R; m01 : R; m02 : R;
  m10 : R; m11 : R; m12 : R;
  m20 : R; m21 : R; m22 : R }.

Definition madd (A B : mat3) : mat3 :=
  M3 (m00 A + m00 B) (m01 A + m01 B) (m02 A + m02 B)
     (m10 A + m10 B) (m11 A + m11 B) (m12 A + m12 B)
     (m20 A + m20 B) (m21 A + m21 B) (m22 A + m22 B).
Definition mscale (s : R) (A : mat3) : mat3 :=
  M3 (s * m00 A) (s * m01 A) (s * m02 A) (s * m10 A) (s * m11 A) (s * m12 A) (s * m20 A) (s * m21 A) (s * m22 A).
Definition msub (A B : mat3) : mat3 := madd A (mscale (-1) B).
Definition mmul (A B : mat3) : mat3 :=
  M3 (m00 A * m00 B + m01 A * m10 B + m02 A * m20 B)
     (m00 A * m01 B + m01 A * m11 B + m02 A * m21 B)
     (m00 A * m02 B + m01 A * m12 B + m02 A * m22 B)
     (m10 A * m00 B + m11 A * m10 B + m12 A * m20 B)
     (m10 A * m01 B + m11 A * m11 B + m12 A * m21 B)
     (m10 A * m02 B + m11 A * m12 B + m12 A * m22 B)
     (m20 A * m00 B + m21 A * m10 B + m22 A * m20 B)
     (m20 A * m01 B + m21 A * m11 B + m22 A * m21 B)
     (m20 A * m02 B + m21 A * m12 B + m22 A * m22 B).
Definition mdiag (a b c : R) : mat3 := M3 a 0 0 0 b 0 0 0 c.

(** problem/SWE/problem_flux/swe_flux.hpp lines 70-102, get_dF_dq. *)
Definition get_dF_dq (g : R) (q : vec3 R) (a : aux3 R) : mat3 * mat3 :=
  let u := qx q / hh a in
  let v := qy q / hh a in
  (M3 0 1 0
      (- (u * u) + g * hh a) (2 * u) 0
      (- (u * v)) v u,
   M3 0 0 1
      (- (u * v)) v u
      (- (v * v) + g * hh a) 0 (2 * v)).

(** swe_flux.hpp lines 104-128, get_dFn_dq. *)
Definition get_dFn_dq (g : R) (q : vec3 R) (a : aux3 R) (n : vec2 R) : mat3 :=
  let u := qx q / hh a in
  let v := qy q / hh a in
  M3 0 (nx n) (ny n)
     ((- (u * u) + g * hh a) * nx n - u * v * ny n) (2 * (u * nx n) + v * ny n) (u * ny n)
     (- (u * v * nx n) + (- (v * v) + g * hh a) * ny n) (v * nx n) (u * nx n + 2 * (v * ny n)).

(** problem/SWE/problem_jacobian/swe_jacobian.hpp lines 313-326 L, 328-345
    dL_dze, 347-363 dL_dqx, 365-381 dL_dqy. *)
Definition eigL (g h u v nx ny : R) : mat3 :=
  let c := sqrt (g * h) in
  let un := u * nx + v * ny in
  mdiag (un - c) un (un + c).
Definition dL_dze (g h u v nx ny : R) : mat3 :=
  let dc_dze := sqrt (g / h) / 2 in
  let dun_dze := - (u * nx + v * ny) / h in
  mdiag (dun_dze - dc_dze) dun_dze (dun_dze + dc_dze).
Definition dL_dqx (g h u v nx ny : R) : mat3 := mdiag (nx / h) (nx / h) (nx / h).
Definition dL_dqy (g h u v nx ny : R) : mat3 := mdiag (ny / h) (ny / h) (ny / h).

(** lines 383-396 absL, 398-418 dabsL_dze, 420-439 dabsL_dqx, 441-460 dabsL_dqy;
    [nsign] is Utilities::sign. *)
Definition absL (g h u v nx ny : R) : mat3 :=
  let c := sqrt (g * h) in
  let un := u * nx + v * ny in
  mdiag (Rabs (un - c)) (Rabs un) (Rabs (un + c)).
Definition dabsL_dze (g h u v nx ny : R) : mat3 :=
  let c := sqrt (g * h) in
  let un := u * nx + v * ny in
  let dc_dze := sqrt (g / h) / 2 in
  let dun_dze := - (u * nx + v * ny) / h in
  mdiag ((dun_dze - dc_dze) * nsign (un - c)) (dun_dze * nsign un) ((dun_dze + dc_dze) * nsign (un + c)).
Definition dabsL_dqx (g h u v nx ny : R) : mat3 :=
  let c := sqrt (g * h) in
  let un := u * nx + v * ny in
  mdiag (nx / h * nsign (un - c)) (nx / h * nsign un) (nx / h * nsign (un + c)).
Definition dabsL_dqy (g h u v nx ny : R) : mat3 :=
  let c := sqrt (g * h) in
  let un := u * nx + v * ny in
  mdiag (ny / h * nsign (un - c)) (ny / h * nsign un) (ny / h * nsign (un + c)).

(** lines 462-480 R, 482-499 dR_dze, 501-514 dR_dqx, 516-529 dR_dqy. *)
Definition eigR (g h u v nx ny : R) : mat3 :=
  let c := sqrt (g * h) in
  M3 1 0 1
     (u - c * nx) (- ny) (u + c * nx)
     (v - c * ny) nx (v + c * ny).
Definition dR_dze (g h u v nx ny : R) : mat3 :=
  let dc_dze := sqrt (g / h) / 2 in
  M3 0 0 0
     (- u / h - dc_dze * nx) 0 (- u / h + dc_dze * nx)
     (- v / h - dc_dze * ny) 0 (- v / h + dc_dze * ny).
Definition dR_dqx (g h u v nx ny : R) : mat3 := M3 0 0 0 (1 / h) 0 (1 / h) 0 0 0.
Definition dR_dqy (g h u v nx ny : R) : mat3 := M3 0 0 0 0 0 0 (1 / h) 0 (1 / h).

(** lines 531-550 invR, 552-578 dinvR_dze, 580-596 dinvR_dqx, 598-614 dinvR_dqy. *)
Definition invR (g h u v nx ny : R) : mat3 :=
  let c := sqrt (g * h) in
  let un := u * nx + v * ny in
  M3 ((c + un) / (2 * c)) (- nx / (2 * c)) (- ny / (2 * c))
     (u * ny - v * nx) (- ny) nx
     ((c - un) / (2 * c)) (nx / (2 * c)) (ny / (2 * c)).
Definition dinvR_dze (g h u v nx ny : R) : mat3 :=
  let c := sqrt (g * h) in
  let c_sq := g * h in
  let un := u * nx + v * ny in
  let dc_dze := sqrt (g / h) / 2 in
  M3 (-3 * un / (4 * h * c)) (dc_dze * nx / (2 * c_sq)) (dc_dze * ny / (2 * c_sq))
     (- (u * ny - v * nx) / h) 0 0
     (3 * un / (4 * h * c)) (- dc_dze * nx / (2 * c_sq)) (- dc_dze * ny / (2 * c_sq)).
Definition dinvR_dqx (g h u v nx ny : R) : mat3 :=
  let c := sqrt (g * h) in
  M3 (nx / h / (2 * c)) 0 0 (ny / h) 0 0 (- nx / h / (2 * c)) 0 0.
Definition dinvR_dqy (g h u v nx ny : R) : mat3 :=
  let c := sqrt (g * h) in
  M3 (ny / h / (2 * c)) 0 0 (- nx / h) 0 0 (- ny / h / (2 * c)) 0 0.

(** All routines of lines 27-311 compute h, u, v, nx, ny of a column and then
    a product of the matrices above; [at_point] does the first part. *)
Definition at_point (F : R -> R -> R -> R -> R -> mat3) (q : vec3 R) (a : aux3 R) (n : vec2 R) : mat3 :=
  F (hh a) (qx q / hh a) (qy q / hh a) (nx n) (ny n).

(** R * D * invR for a diagonal factor D, and its derivative given the
    derivatives of the three factors (lines 56-58 etc.). *)
Definition conj3 (g : R) (D : R -> R -> R -> R -> R -> mat3) (h u v nx ny : R) : mat3 :=
  mmul (mmul (eigR g h u v nx ny) (D h u v nx ny)) (invR g h u v nx ny).
Definition dconj3 (g : R) (D dD dR dinvR : R -> R -> R -> R -> R -> mat3) (h u v nx ny : R) : mat3 :=
  madd (madd (mmul (mmul (dR h u v nx ny) (D h u v nx ny)) (invR g h u v nx ny))
             (mmul (mmul (eigR g h u v nx ny) (dD h u v nx ny)) (invR g h u v nx ny)))
       (mmul (mmul (eigR g h u v nx ny) (D h u v nx ny)) (dinvR h u v nx ny)).

(** lines 27-41 get_A, 43-95 get_dA_d*, 97-111 get_absA, 113-165 get_dabsA_d*. *)
Definition get_A (g : R) := at_point (conj3 g (eigL g)).
Definition get_dA_dze (g : R) := at_point (dconj3 g (eigL g) (dL_dze g) (dR_dze g) (dinvR_dze g)).
Definition get_dA_dqx (g : R) := at_point (dconj3 g (eigL g) (dL_dqx g) (dR_dqx g) (dinvR_dqx g)).
Definition get_dA_dqy (g : R) := at_point (dconj3 g (eigL g) (dL_dqy g) (dR_dqy g) (dinvR_dqy g)).
Definition get_absA (g : R) := at_point (conj3 g (absL g)).
Definition get_dabsA_dze (g : R) := at_point (dconj3 g (absL g) (dabsL_dze g) (dR_dze g) (dinvR_dze g)).
Definition get_dabsA_dqx (g : R) := at_point (dconj3 g (absL g) (dabsL_dqx g) (dR_dqx g) (dinvR_dqx g)).
Definition get_dabsA_dqy (g : R) := at_point (dconj3 g (absL g) (dabsL_dqy g) (dR_dqy g) (dinvR_dqy g)).

(** lines 167-238 get_Aplus and derivatives, 240-311 get_Aminus and derivatives.
    [0.5 * R * M * invR] scales R first. *)
Definition halfconj3 (g : R) (D : R -> R -> R -> R -> R -> mat3) (h u v nx ny : R) : mat3 :=
  mmul (mmul (mscale (1/2) (eigR g h u v nx ny)) (D h u v nx ny)) (invR g h u v nx ny).
Definition plus5 (D E : R -> R -> R -> R -> R -> mat3) (h u v nx ny : R) : mat3 :=
  madd (D h u v nx ny) (E h u v nx ny).
Definition minus5 (D E : R -> R -> R -> R -> R -> mat3) (h u v nx ny : R) : mat3 :=
  msub (D h u v nx ny) (E h u v nx ny).
Definition half5 (D : R -> R -> R -> R -> R -> mat3) (h u v nx ny : R) : mat3 := mscale (1/2) (D h u v nx ny).

Definition get_Aplus (g : R) := at_point (halfconj3 g (plus5 (eigL g) (absL g))).
Definition get_dAplus_dze (g : R) :=
  at_point (half5 (dconj3 g (plus5 (eigL g) (absL g)) (plus5 (dL_dze g) (dabsL_dze g)) (dR_dze g) (dinvR_dze g))).
Definition get_dAplus_dqx (g : R) :=
  at_point (half5 (dconj3 g (plus5 (eigL g) (absL g)) (plus5 (dL_dqx g) (dabsL_dqx g)) (dR_dqx g) (dinvR_dqx g))).
Definition get_dAplus_dqy (g : R) :=
  at_point (half5 (dconj3 g (plus5 (eigL g) (absL g)) (plus5 (dL_dqy g) (dabsL_dqy g)) (dR_dqy g) (dinvR_dqy g))).
Definition get_Aminus (g : R) := at_point (halfconj3 g (minus5 (eigL g) (absL g))).
Definition get_dAminus_dze (g : R) :=
  at_point (half5 (dconj3 g (minus5 (eigL g) (absL g)) (minus5 (dL_dze g) (dabsL_dze g)) (dR_dze g) (dinvR_dze g))).
Definition get_dAminus_dqx (g : R) :=
  at_point (half5 (dconj3 g (minus5 (eigL g) (absL g)) (minus5 (dL_dqx g) (dabsL_dqx g)) (dR_dqx g) (dinvR_dqx g))).
Definition get_dAminus_dqy (g : R) :=
  at_point (half5 (dconj3 g (minus5 (eigL g) (absL g)) (minus5 (dL_dqy g) (dabsL_dqy g)) (dR_dqy g) (dinvR_dqy g))).

(** ** problem/SWE/problem_source/swe_source.hpp lines 8-51, get_source, for all
    Gauss points of an element.  The forcings in the block comment of lines
    53-97 are not compiled and therefore not modelled.  [fs] is the value added
    by function_source (None if switched off). *)
From Coq Require Import List.
Record source_in := SourceIn {
  s_bottom_friction : bool;  (* SourceTerms::bottom_friction *)
  s_Cf : R;                  (* SourceTerms::Cf *)
  s_manning : bool;          (* source.manning *)
  s_g_manning_n_sq : R       (* source.g_manning_n_sq *) }.

(** std::hypot and std::pow(h, 1/3) for h > 0. *)
Definition hypot (x y : R) : R := sqrt (x * x + y * y).
Definition cube_root (h : R) : R := Rpower h (1 / 3).

(** lines 36-49, loop body; the local variable Cf is carried from one Gauss
    point to the next. *)
Definition friction_body (p : source_in) (q : nat -> vec3 R) (a : nat -> aux3 R)
    (st : R * (nat -> vec3 R)) (gp : nat) : R * (nat -> vec3 R) :=
  let '(Cf, src) := st in
  let h := hh (a gp) in
  let u := qx (q gp) / h in
  let v := qy (q gp) / h in
  let Cf1 := if s_manning p then
      let C := s_g_manning_n_sq p / cube_root h in if Rltb C (s_Cf p) then s_Cf p else C
    else Cf in
  let stress := Cf1 * hypot u v / h in
  (Cf1, upd src gp (V3 (ze (src gp)) (qx (src gp) - stress * qx (q gp)) (qy (src gp) - stress * qy (q gp)))).

Definition get_source (g : R) (p : source_in) (fs : option (nat -> vec3 R)) (ngp : nat)
    (q : nat -> vec3 R) (a : nat -> aux3 R) (db : nat -> vec2 R) : nat -> vec3 R :=
  let S0 := fun gp => V3 0 (g * (nx (db gp) * ze (q gp))) (g * (ny (db gp) * ze (q gp))) in
  let S1 := match fs with Some f => fun gp => vadd (S0 gp) (f gp) | None => S0 end in
  if s_bottom_friction p then snd (fold_left (friction_body p q a) (seq 0 ngp) (s_Cf p, S1)) else S1.

(** The problem functions of the examples (copied over the problem_function_files by
    the build scripts of /repo/examples) and the initial state from such a function.
    Reals for double; exp, sin, cos, sqrt and cosh are those of the reals. *)
From Coq Require Import Reals List.
From Verif Require Import Num ModelSWE ModelShape ModelBasis ModelStep ModelInit ModelGrad.
Open Scope R_scope.

(** ** examples/swe_manufactured_solution.  manufactured_swe_initial_condition_functions.hpp
    lines 32-38, ic_q (lines 11-30 are in a comment). *)
Definition man_ic (t x y : R) : vec3 R :=
  V3 (exp (sin (3 * x) * sin (3 * y) - sin (3 * t))) (cos (x - 4 * t)) (sin (y + 4 * t)).
(** manufactured_swe_true_solution_functions.hpp lines 32-38, true_q. *)
Definition man_true (t x y : R) : vec3 R :=
  V3 (exp (sin (3 * x) * sin (3 * y) - sin (3 * t))) (cos (x - 4 * t)) (sin (y + 4 * t)).
(** manufactured_swe_source_functions.hpp lines 78-103, source_q (lines 10-76 are in a
    comment); [e] stands for the exponential written out in every term. *)
Definition man_source (t x y : R) : vec3 R :=
  let e := exp (- sin (3 * t) + sin (3 * x) * sin (3 * y)) in
  V3 (Ropp 3 * e * cos (3 * t) + cos (4 * t + y) + sin (4 * t - x))
     (cos (4 * t - x) * cos (4 * t + y) / (2 + e) - 4 * sin (4 * t - x) +
      2 * cos (4 * t - x) * sin (4 * t - x) / (2 + e) +
      3 * e * (2 + e) * cos (3 * x) * sin (3 * y) -
      3 * e * cos (4 * t - x) ^ 2 * cos (3 * x) * sin (3 * y) / (2 + e) ^ 2 -
      3 * e * cos (4 * t - x) * cos (3 * y) * sin (3 * x) * sin (4 * t + y) / (2 + e) ^ 2)
     (4 * cos (4 * t + y) +
      3 * e * (2 + e) * cos (3 * y) * sin (3 * x) +
      2 * cos (4 * t + y) * sin (4 * t + y) / (2 + e) +
      sin (4 * t - x) * sin (4 * t + y) / (2 + e) -
      3 * e * cos (4 * t - x) * cos (3 * x) * sin (3 * y) * sin (4 * t + y) / (2 + e) ^ 2 -
      3 * e * cos (3 * y) * sin (3 * x) * sin (4 * t + y) ^ 2 / (2 + e) ^ 2).
(** mesh_generators/bathymetry.hpp lines 4-14 (the depth every generated mesh gets), and
    what scripts/correctness/test_swe_parallel_correctness.sh lines 39-47 puts in its place. *)
Definition generator_depth (x y : R) : R := 3 / 2.
Definition script_depth (x y : R) : R := 2.

(** ** examples/swe_parabolic_bowl.  parabolic_bowl_bathymetry.hpp lines 4-8 and
    parabolic_bowl_initial_condition_functions.hpp lines 7-28 (tau of line 15 is not used). *)
Definition bowl_alpha : R := 1 / 10000000.
Definition bowl_X : R := 1.
Definition bowl_Y : R := - (41884 / 100000).
Definition bowl_depth (x y : R) : R := - bowl_alpha * (x * x + y * y).
Definition bowl_column (x y : R) : R :=
  let r2 := x * x + y * y in
  1 / (bowl_X + bowl_Y) + bowl_alpha * (bowl_Y * bowl_Y - bowl_X * bowl_X) / ((bowl_X + bowl_Y) * (bowl_X + bowl_Y)) * r2.
Definition bowl_ic (t x y : R) : vec3 R :=
  let r2 := x * x + y * y in
  let bathymetry := - bowl_alpha * r2 in
  V3 (bowl_column x y - bathymetry) 0 0.

(** ** examples/gn_analytical_solution.  analytical_gn_initial_condition_functions.hpp lines 7-26 and
    analytical_gn_true_solution_functions.hpp lines 7-26. *)
Definition gn_g : R := 981 / 100.
Definition gn_ao : R := 5 / 100.
Definition gn_Ho : R := 1 / 2.
Definition gn_xo : R := - (5).
Definition gn_co : R := sqrt (gn_g * (gn_Ho + gn_ao)).
Definition gn_w : R := sqrt (3 * gn_ao) / (2 * gn_Ho * sqrt (gn_Ho + gn_ao)).
Definition gn_ic (t x y : R) : vec3 R :=
  V3 (gn_ao * (1 / cosh (gn_w * (x - gn_xo - gn_co * t))) ^ 2)
     (gn_co * gn_ao * (1 / cosh (gn_w * (x - gn_xo - gn_co * t))) ^ 2) 0.
Definition gn_true (t x y : R) : vec3 R :=
  V3 (gn_ao * (1 / cosh (gn_w * (x - gn_xo - gn_co * t))) ^ 2)
     (gn_co * gn_ao * (1 / cosh (gn_w * (x - gn_xo - gn_co * t))) ^ 2) 0.
(** source/problem/Green-Naghdi/gn_definitions.hpp, NDParameters::alpha; never assigned. *)
Definition nd_alpha : R := 1159 / 1000.

(** ** Initial state from a function: swe_pre_init_data.hpp lines 61-64 with
    geometry/element.hpp lines 306-313, L2ProjectionF, and ComputeFgp (values at the
    coordinates of the Gauss points). *)
Section Init.
  Context (i : input).
  Definition f_at_gp (f : R -> R -> vec3 R) (e gp : nat) : vec3 R :=
    let pt := LocalToGlobalCoordinates (in_nodes i e) (snd (gp2 i gp)) in f (fst pt) (snd pt).
  Definition init_qf (ic : R -> R -> R -> vec3 R) (e : nat) : coeffs :=
    fun var => l2 (init_mesh i) (fun e gp => vget (f_at_gp (ic 0) e gp) var) e.
  (** rkdg_swe_bc_function.hpp lines 31-48: the exterior state at the Gauss points of a face. *)
  Definition function_bc (ic : R -> R -> R -> vec3 R) (e b : nat) : bc_kind :=
    Exterior (fun t gp _ _ =>
      let pt := LocalToGlobalCoordinates (in_nodes i e) (BoundaryToMasterCoordinates b (snd (gp1 i gp))) in ic t (fst pt) (snd pt)).
  (** swe_source.hpp lines 23-27 with the source function at the Gauss points. *)
  Definition function_source (src : R -> R -> R -> vec3 R) : R -> nat -> nat -> vec3 R :=
    fun t e gp => f_at_gp (src t) e gp.
End Init.

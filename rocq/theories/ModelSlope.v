(** Cockburn-Shu slope limiter:
    problem/SWE/problem_slope_limiter/swe_CS_slope_limiter.hpp and the geometric
    coefficients of problem/SWE/problem_preprocessor/swe_pre_init_data.hpp lines
    252-325 (366-387 repeat them for elements with distributed faces).  Reals for
    double.  Variable rows 0 ze, 1 qx, 2 qy; faces and vertices 0, 1, 2.  The
    sign bit of zero is taken as positive.  For depth h <= 0 at the centre the
    code computes NaN; the model's values then mean nothing and the theorems that
    look at them ask for h > 0. *)
From Coq Require Import Reals List Bool Arith.
From Verif Require Import Num ModelSWE Outcome ModelShape ModelBasis ModelJac ModelWetDry.
Import ListNotations.
Open Scope R_scope.

(** ** Geometry, swe_pre_init_data.hpp *)
Definition midpoint (n : nodes) (b : nat) : point := nth b (GetMidpointCoordinates n) (0, 0).
Definition to_mid (n : nodes) (b : nat) : point :=
  (fst (midpoint n b) - fst (GetBarycentricCoordinates n), snd (midpoint n b) - snd (GetBarycentricCoordinates n)).
(** Lines 270-277: median / norm(median). *)
Definition sl_median (n : nodes) (b : nat) : point :=
  (fst (to_mid n b) / hypot (fst (to_mid n b)) (snd (to_mid n b)),
   snd (to_mid n b) / hypot (fst (to_mid n b)) (snd (to_mid n b))).
(** Lines 288-295: mirror image used as the neighbour across a boundary. *)
Definition mirror_baryctr (n : nodes) (b : nat) : point :=
  (2 * fst (midpoint n b) - fst (GetBarycentricCoordinates n), 2 * snd (midpoint n b) - snd (GetBarycentricCoordinates n)).
(** Lines 303-322; [nb] are the barycentres of the neighbours. *)
Definition alpha_matrix (n : nodes) (nb : nat -> point) (b : nat) : mat2 :=
  let c := GetBarycentricCoordinates n in
  let e2 := ((b + 1) mod 3)%nat in
  M2 (fst (nb b) - fst c) (fst (nb e2) - fst c)
     (snd (nb b) - snd c) (snd (nb e2) - snd c).
Definition sl_alpha (n : nodes) (nb : nat -> point) (b : nat) : R * R :=
  let Ai := inverse (alpha_matrix n nb b) in
  (a00 Ai * fst (to_mid n b) + a01 Ai * snd (to_mid n b), a10 Ai * fst (to_mid n b) + a11 Ai * snd (to_mid n b)).
Definition sl_r_sq (n : nodes) (b : nat) : R := fst (to_mid n b) * fst (to_mid n b) + snd (to_mid n b) * snd (to_mid n b).

(** ** Preparation, lines 14-19 *)
Definition u_baryctr (u_lin : nat -> R) : R := vmsum 3 (fun v => u_lin v * chi_baryctr v).
Definition u_midpt (u_lin : nat -> R) (b : nat) : R := vmsum 3 (fun v => u_lin v * chi_midpts v b).

(** ** Limiting, lines 89-189 *)
Definition vec := nat -> R.
Definition mvec (A : mat3) (w : vec) : vec := fun i =>
  match i with
  | 0%nat => m00 A * w 0%nat + m01 A * w 1%nat + m02 A * w 2%nat
  | 1%nat => m10 A * w 0%nat + m11 A * w 1%nat + m12 A * w 2%nat
  | _ => m20 A * w 0%nat + m21 A * w 1%nat + m22 A * w 2%nat
  end.

Definition signbit (x : R) : bool := Rltb x 0.
Definition copysign1 (x : R) : R := if signbit x then -1 else 1.
(** Lines 135-142. *)
Definition minmod (M nu r_sq w_tilda w_delta : R) : R :=
  if Rleb (Rabs w_tilda) (M * r_sq) then w_tilda
  else if Bool.eqb (signbit w_tilda) (signbit w_delta)
       then copysign1 w_tilda * Rmin (Rabs w_tilda) (Rabs (nu * w_delta))
       else 0.

Record sl_in := SlIn {
  sl_g : R; sl_M : R; sl_nu : R;             (* Global::g, PostProcessing::M, nu *)
  sl_med : nat -> point;                     (* median *)
  sl_al : nat -> R * R;                      (* alpha *)
  sl_rs : nat -> R;                          (* r_sq *)
  sl_bath : R;                               (* bath_at_baryctr *)
  sl_neigh : nat -> vec }.                   (* q_at_baryctr_neigh *)

(** Differences to the centre in characteristic variables, lines 117-131. *)
Definition char_tilda (p : sl_in) (h u v : R) (centre : vec) (mid : nat -> vec) (b : nat) : vec :=
  let Ri := invR (sl_g p) h u v (fst (sl_med p b)) (snd (sl_med p b)) in
  fun i => mvec Ri (mid b) i - mvec Ri centre i.
Definition char_delta (p : sl_in) (h u v : R) (centre : vec) (b : nat) : vec :=
  let Ri := invR (sl_g p) h u v (fst (sl_med p b)) (snd (sl_med p b)) in
  let e2 := ((b + 1) mod 3)%nat in
  fun i => fst (sl_al p b) * (mvec Ri (sl_neigh p b) i - mvec Ri centre i) +
           snd (sl_al p b) * (mvec Ri (sl_neigh p e2) i - mvec Ri centre i).
Definition limited_char (p : sl_in) (h u v : R) (centre : vec) (mid : nat -> vec) (b : nat) : vec :=
  fun i => minmod (sl_M p) (sl_nu p) (sl_rs p b) (char_tilda p h u v centre mid b i) (char_delta p h u v centre b i).
(** Line 145: delta(var, bound). *)
Definition limited_delta (p : sl_in) (h u v : R) (centre : vec) (mid : nat -> vec) (var b : nat) : R :=
  mvec (eigR (sl_g p) h u v (fst (sl_med p b)) (snd (sl_med p b))) (limited_char p h u v centre mid b) var.

(** Lines 148-172 for one row.  std::min(1.0, x) is 1 for x infinite or NaN. *)
Definition theta (num den : R) : R := if Req_EM_T den 0 then 1 else Rmin 1 (num / den).
Definition balance (d : vec) : vec :=
  if Req_EM_T (vmsum 3 d) 0 then d
  else
    let pos := vmsum 3 (fun b => Rmax 0 (d b)) in
    let neg := vmsum 3 (fun b => Rmax 0 (- d b)) in
    fun b => theta neg pos * Rmax 0 (d b) - theta pos neg * Rmax 0 (- d b).

(** The matrix T, swe_data_slope_limit.hpp lines 23-26, and lines 174-178. *)
Definition sl_T (b v : nat) : R := if Nat.eqb b v then -1 else 1.
Definition new_vrtx (centre : R) (d : vec) (v : nat) : R := centre + vmsum 3 (fun b => d b * sl_T b v).

(** Lines 181-184: del_q_norm / q_norm > 1.0e-12; a zero norm gives infinity, or
    NaN when both are zero. *)
Definition norm3 (w : vec) : R := sqrt (vmsum 3 (fun v => w v * w v)).
Definition differs (new old : vec) : bool :=
  let d := norm3 (fun v => new v - old v) in
  let q := norm3 old in
  if Req_EM_T q 0 then (if Req_EM_T d 0 then false else true) else Rltb (1 / 10 ^ 12) (d / q).

Definition limit_row (p : nat) (s : sl_in) (h u v : R) (q_lin : nat -> nat -> R) (old : vec) (var : nat) : outcome vec :=
  let centre := fun i => u_baryctr (q_lin i) in
  let mid := fun b i => u_midpt (q_lin i) b in
  let w := new_vrtx (centre var) (balance (limited_delta s h u v centre mid var)) in
  if differs w (q_lin var) then ProjectLinearToBasis p w else Ok old.

Definition slope_limiting_kernel (p : nat) (s : sl_in) (wet : bool) (wet_neigh : list bool) (q : nat -> nat -> R)
  : outcome (nat -> nat -> R) :=
  if wet && forallb (fun b => b) wet_neigh then
    do q_lin <- to_linear p q ;
    let h := u_baryctr (q_lin 0%nat) + sl_bath s in
    let u := u_baryctr (q_lin 1%nat) / h in
    let v := u_baryctr (q_lin 2%nat) / h in
    do r0 <- limit_row p s h u v q_lin (q 0%nat) 0 ;
    do r1 <- limit_row p s h u v q_lin (q 1%nat) 1 ;
    do r2 <- limit_row p s h u v q_lin (q 2%nat) 2 ;
    Ok (fun var => match var with 0%nat => r0 | 1%nat => r1 | 2%nat => r2 | _ => q var end)
  else Ok q.

(** ** Exchange of centre values, lines 22-46.  Elements are numbers; a face is an
    interface between (element, face) pairs or a boundary. *)
Inductive sl_face := Intface (e_in b_in e_ex b_ex : nat) | Bound (e b : nat).
Record sl_mesh := SlMesh { n_wet : nat -> nat -> bool; n_q : nat -> nat -> vec }.
Definition set2 {A : Type} (f : nat -> nat -> A) (e b : nat) (x : A) : nat -> nat -> A :=
  fun e' b' => if Nat.eqb e e' && Nat.eqb b b' then x else f e' b'.
Definition prepare_face (wet : nat -> bool) (centre : nat -> vec) (m : sl_mesh) (f : sl_face) : sl_mesh :=
  match f with
  | Intface ei bi ee be =>
      let w := set2 (set2 (n_wet m) ei bi (wet ee)) ee be (wet ei) in
      if wet ei && wet ee then SlMesh w (set2 (set2 (n_q m) ei bi (centre ee)) ee be (centre ei)) else SlMesh w (n_q m)
  | Bound e b =>
      let w := set2 (n_wet m) e b (wet e) in
      if wet e then SlMesh w (set2 (n_q m) e b (centre e)) else SlMesh w (n_q m)
  end.
Definition prepare_faces (wet : nat -> bool) (centre : nat -> vec) (m : sl_mesh) (fs : list sl_face) : sl_mesh :=
  fold_left (prepare_face wet centre) fs m.

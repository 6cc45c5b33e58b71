(** Geographic input of the shallow-water problem:
      problem/SWE/problem_preprocessor/swe_pre_preprocess_mesh.hpp lines 6-28 (projection)
      problem/SWE/problem_preprocessor/swe_pre_init_data.hpp lines 136-163 (distortion
        factor at distributed boundaries; the others are in ModelInit),
        lines 166-196 (Manning coefficients), lines 198-211 (Coriolis parameter)
    Reals for double; pi is the constant of the code.  A line of the Manning file is what
    formatted input makes of it: an identifier and a number, or nothing. *)
From Coq Require Import Reals List Bool Arith.
From Verif Require Import Num ModelPi Outcome ModelSWE ModelShape ModelStep ModelInit.
Import ListNotations.
Open Scope R_scope.

(** swe_inputs.hpp lines 10-15. *)
Record projection := Projection { pr_R : R; pr_lon : R; pr_lat : R }.
Definition default_projection : projection := Projection 6378200 0 0.

(** swe_pre_preprocess_mesh.hpp lines 15-25; the third coordinate is the bathymetry. *)
Definition R_o (p : projection) : R := pr_R p * cos (pr_lat p * code_pi / 180).
Definition project_node (p : projection) (c : R * R * R) : R * R * R :=
  (R_o p * (fst (fst c) - pr_lon p) * code_pi / 180, pr_R p * snd (fst c) * code_pi / 180, snd c).
(** [spherical]: the coordinate system of the mesh input (line 9); the warning of lines
    10-14 changes nothing. *)
Definition preprocess_mesh_data (spherical : bool) (p : projection) (nodes : list (nat * (R * R * R))) : list (nat * (R * R * R)) :=
  if spherical then map (fun n => (fst n, project_node p (snd n))) nodes else nodes.

(** swe_pre_init_data.hpp lines 136-163: as at a boundary, from the own element. *)
Definition init_dbound (i : input) (t : face_table) (e b : nat) : face_table :=
  fold_left (fun t gp => set_face t e b gp (Aux (face_bath i e b gp) 0 (sp_at i (y_at i e (face_point i b gp)))))
    (seq 0 (length (in_rule1 i))) t.

(** Lines 198-211.  [R] is the default radius when no projection is given. *)
Definition coriolis_f (p : projection) (nd : nodes) : R :=
  let y_avg := fold_left (fun s node => s + snd (nd node)) (seq 0 3) 0 / 3 in
  let latitude_avg := y_avg / pr_R p in
  2 * (72921 / 1000000000) * sin latitude_avg.

(** Lines 173-182: std::map, first as it is read: the loop ends with the first line that
    is not an identifier and a number. *)
Definition table := nat -> option R.
Definition insert (t : table) (k : nat) (v : R) : table := fun j => if Nat.eqb j k then Some v else t j.
Fixpoint read_manning (lines : list (option (nat * R))) (t : table) : table :=
  match lines with
  | Some (node_ID, manning_n) :: r => read_manning r (insert t node_ID manning_n)
  | _ => t
  end.
(** operator[] of std::map: an absent key is inserted with value zero. *)
Definition at_key (t : table) (k : nat) : R * table := match t k with Some v => (v, t) | None => (0, insert t k 0) end.
(** Lines 184-195 for one element with node identifiers [ids]; the result is
    manning_n and g_manning_n_sq, and the table is shared by all elements. *)
Definition element_manning (g : R) (st : table * list (list R * R)) (ids : nat -> nat) : table * list (list R * R) :=
  let r := fold_left (fun s node => let x := at_key (fst s) (ids node) in (snd x, snd s ++ [fst x])) (seq 0 3) (fst st, []) in
  let mean := fold_left Rplus (snd r) 0 / INR (length (snd r)) in
  (fst r, snd st ++ [(snd r, g * (mean * mean))]).
(** Lines 167-196; a missing file throws. *)
Definition init_manning (g : R) (file : option (list (option (nat * R)))) (elements : list (nat -> nat)) : outcome (list (list R * R)) :=
  match file with
  | None => Throw
  | Some lines => Ok (snd (fold_left (element_manning g) elements (read_manning lines (fun _ => None), [])))
  end.

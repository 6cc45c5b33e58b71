(** What a .bcis file says, and the signal a tide or flow boundary should follow. *)
From Coq Require Import Reals NArith List Permutation.
From Verif Require Import ModelMesh ModelBcis.
Import ListNotations.
Open Scope R_scope.

(** A constituent: frequency, forcing factor, equilibrium argument in degrees, and for
    every node of the boundary amplitude and phase in degrees. *)
Record con := Con { c_freq : R; c_ff : R; c_eq : R; c_rows : list (N * (R * R)) }.
Inductive kind := TideKind | FlowKind.
Inductive section :=
| Harmonic (k : kind) (nodes : list N) (cs : list con)
| LeveeSection (rows : list ((N * N) * (R * R * R))).

(** Where the data of a kind of boundary are kept, and its type number. *)
Definition tables (k : kind) (d : bcis) : list htable := match k with TideKind => bc_tide d | FlowKind => bc_flow d end.
Definition code (k : kind) : N := match k with TideKind => bt_tide | FlowKind => bt_flow end.

Definition count (n : nat) : token := Int (N.of_nat n).
Definition print_row (r : N * (R * R)) : line := [Int (fst r); Real (fst (snd r)); Real (snd (snd r))].
Definition print_con (c : con) : list line := [Real (c_freq c); Real (c_ff c); Real (c_eq c)] :: map print_row (c_rows c).
Definition print_levee (r : (N * N) * (R * R * R)) : line :=
  [Int (fst (fst r)); Int (snd (fst r)); Real (fst (fst (snd r))); Real (snd (fst (snd r))); Real (snd (snd r))].
Definition print_section (s : section) : list line :=
  match s with
  | Harmonic k nodes cs =>
      [Int (match k with TideKind => 1 | FlowKind => 2 end)%N; count (length nodes)] :: [count (length cs)] :: flat_map print_con cs
  | LeveeSection rows => [Int 129; count (length rows)] :: map print_levee rows
  end.
Definition print (l : list section) : list line := flat_map print_section l.

(** Every constituent lists every node of the boundary once. *)
Definition section_ok (s : section) : Prop :=
  match s with
  | Harmonic _ nodes cs => NoDup nodes /\ cs <> [] /\ forall c, In c cs -> Permutation (map fst (c_rows c)) nodes
  | LeveeSection _ => True
  end.
Definition has_face (k : kind) (a b : N) (s : section) : Prop :=
  match s with Harmonic k' nodes _ => k' = k /\ In a nodes /\ In b nodes | LeveeSection _ => False end.

Definition row_of (c : con) (n : N) : R * R :=
  match find (fun r => N.eqb (fst r) n) (c_rows c) with Some r => snd r | None => (0, 0) end.
(** Linear interpolation on a face, -1 at the first and 1 at the second node. *)
Definition between (x y z : R) : R := (1 - z) / 2 * x + (1 + z) / 2 * y.
Fixpoint total (l : list R) : R := match l with [] => 0 | x :: r => x + total r end.
Definition wave (angle : R -> R) (a b : N) (t z : R) (c : con) : R :=
  c_ff c * between (fst (row_of c a)) (fst (row_of c b)) z *
  cos (c_freq c * t + angle (c_eq c - between (snd (row_of c a)) (snd (row_of c b)) z)).
(** Degrees with twelve digits of pi, and exactly. *)
Definition degrees (x : R) : R := x * (314159265359 / 100000000000 / 180).
Definition true_degrees (x : R) : R := x * (PI / 180).
(** The signal at parameter z of the face with nodes a and b at time t. *)
Definition tide_table (cs : list con) (a b : N) (t z : R) : R := total (map (wave degrees a b t z) cs).

Definition true_table (cs : list con) (a b : N) (t z : R) : R := total (map (wave true_degrees a b t z) cs).

(** The same with the angles taken in radians. *)
Definition radian_table (cs : list con) (a b : N) (t z : R) : R := total (map (wave (fun x => x) a b t z) cs).

Definition levees_of (s : section) : list ((N * N) * (R * R * R)) :=
  match s with Harmonic _ _ _ => [] | LeveeSection rows => rows end.
(** Pairs of levee nodes: no node belongs to two pairs. *)
Definition paired (rows : list ((N * N) * (R * R * R))) : Prop :=
  NoDup (flat_map (fun r => [fst (fst r); snd (fst r)]) rows).
Definition levee_row (rows : list ((N * N) * (R * R * R))) (a b : N) (v : R * R * R) : Prop :=
  In ((a, b), v) rows \/ In ((b, a), v) rows.
Definition between3 (x y : R * R * R) (z : R) : R * R * R :=
  (between (fst (fst x)) (fst (fst y)) z, between (snd (fst x)) (snd (fst y)) z, between (snd x) (snd y) z).

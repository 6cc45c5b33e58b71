(** Mesh metadata that can be written and read back. *)
From Coq Require Import Reals ZArith NArith List.
From Verif Require Import ModelStream ModelMeta.
Import ListNotations.
Local Open Scope N_scope.

(** One word. *)
Definition word (t : text) : Prop := t <> [] /\ Forall (fun c => is_space c = false) t.
Definition uints (l : list N) : Prop := Forall (fun n => n < 4294967296) l.
(** Equal numbers of nodes, neighbours and types; type codes that are not white space. *)
Definition elem_ok (e : elem) : Prop :=
  length (e_neighbours e) = length (e_nodes e) /\ length (e_types e) = length (e_nodes e) /\
  N.of_nat (length (e_nodes e)) < 4294967296 /\ uints (e_nodes e) /\ uints (e_neighbours e) /\
  Forall (fun c => c < 256 /\ is_space c = false) (e_types e).
Definition entries {A : Type} (l : list (N * A)) : Prop := NoDup (map fst l) /\ uints (map fst l) /\ N.of_nat (length l) < 4294967296.
Definition writable (m : metadata) : Prop :=
  entries (md_elements m) /\ entries (md_nodes m) /\ Forall (fun e => elem_ok (snd e)) (md_elements m).

(** The table has exactly these entries. *)
Definition tabulates {A : Type} (t : table A) (l : list (N * A)) : Prop :=
  (forall k v, In (k, v) l -> t k = Some v) /\ (forall k, ~ In k (map fst l) -> t k = None).
(** A double that is the nearest one to a decimal number of at most 15 digits. *)
Definition fifteen_digits (d : double) : Prop := exists neg m k, m < 10 ^ 15 /\ d = to_double neg m k.
Definition coordinates_15 (p : point3) : Prop := let '(x, y, z) := p in fifteen_digits x /\ fifteen_digits y /\ fifteen_digits z.

Local Open Scope R_scope.
Definition double_value (d : double) : R :=
  (if d_neg d then -1 else 1) * (IZR (Z.of_N (d_man d)) * powerRZ 2 (d_exp d)).
Definition close (a b : double) : Prop := Rabs (double_value a - double_value b) <= / 100000000000000 * Rabs (double_value b).
Definition normal (d : double) : Prop := d_man d = 0%N /\ d_exp d = 0%Z \/ (2 ^ 52 <= d_man d < 2 ^ 53)%N.
Definition close_points (p q : point3) : Prop :=
  let '(x, y, z) := p in let '(x', y', z') := q in close x x' /\ close y y' /\ close z z'.

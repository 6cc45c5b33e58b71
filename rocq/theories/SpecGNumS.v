(** The undivided mesh of ModelGN as a division with one unit. *)
From Coq Require Import NArith List Bool Arith.
From Verif Require Import Outcome ModelStep ModelGNum.
From Verif Require ModelGN.
Import ListNotations.

Definition side_slot (s : ModelGN.gside) : slot := (ModelGN.s_e s, ModelGN.s_b s).
Definition edge_item (x : nat * ModelGN.gedge) : item :=
  match ModelGN.ge_sides (snd x) with
  | [] => Bnd (fst x) (0, 0)%nat
  | [a] => Bnd (fst x) (side_slot a)
  | a :: b :: _ => Int (fst x) (side_slot a) (side_slot b)
  end.
(** [mem]: what is stored for an edge. *)
Definition undivided (m : mesh) (mem : nat -> ids) : list (list gunit) :=
  [[map (fun x => (edge_item x, mem (fst x))) (ModelGN.numbered_edges m)]].

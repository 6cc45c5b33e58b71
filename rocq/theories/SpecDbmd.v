(** Distributed boundary files whose numbers all fit the reader's 32 bit variables. *)
From Coq Require Import NArith List.
From Verif Require Import ModelDist SpecMeta.
Import ListNotations.
Local Open Scope N_scope.

Definition pair_ok (d : dbpair) : Prop := uints [d_e1 d; d_e2 d; d_f1 d; d_f2 d; d_p d].
Definition group_ok (g : dbgroup) : Prop :=
  uints [g_locA g; g_subA g; g_locB g; g_subB g] /\ N.of_nat (length (g_faces g)) < 4294967296 /\ Forall pair_ok (g_faces g).

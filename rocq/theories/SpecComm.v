(** Specification of the message buffers. *)
From Coq Require Import NArith List.
From Verif Require Import Num Outcome ModelComm.
Import ListNotations.

(** Numbers a message about one face with ngp Gauss points can hold. *)
Definition capacity (s : scheme) (k : comm) (ngp : N) : N :=
  (match k with
   | baryctr_coord => 2
   | bound_state => 1 + 3 * ngp
   | baryctr_state => 1 + 3 + ngp
   | init_global_prob => match s with EHDG => ngp | _ => 1 + 4 * ngp end
   end)%N.
Fixpoint total (s : scheme) (k : comm) (ngps : list N) : N :=
  match ngps with [] => 0%N | g :: r => (capacity s k g + total s k r)%N end.

(** Sizes stay within uint. *)
Definition fits (s : scheme) (ngps : list N) : Prop := forall k, In k (comms s) -> (total s k ngps < 2 ^ 32)%N.

(** Face i starts at number a of buffer c. *)
Definition starts (s : scheme) (ngps : list N) (c i : nat) (a : N) : Prop :=
  exists o, nth_error (fst (layout s ngps)) i = Some o /\ nth_error o c = Some a.

(** m has n numbers and starts with msg, as far as both go. *)
Definition carries {T : Type} (m msg : list T) (n : nat) : Prop :=
  length m = n /\ forall j, j < n -> j < length msg -> nth_error m j = nth_error msg j.

(** Specifications for run control. *)
From Coq Require Import ZArith NArith List Bool Arith Reals String Ascii.
From Verif Require Import Num Outcome ModelStepper ModelRun.
Import ListNotations.

(** Thread [id] advances the units u with b <= u < e. *)
Definition in_range (b e u : N) : Prop := (b <= u)%N /\ (u < e)%N.

(** n is the least number of steps of size dt that covers time x. *)
Definition least_cover (x dt : R) (n : N) : Prop :=
  (x <= NtoR n * dt)%R /\ (forall m, (x <= NtoR m * dt)%R -> (n <= m)%N).

Definition no_char (c : ascii) (s : string) : Prop := ~ In c (list_ascii_of_string s).

(** The last row a file holds for a node. *)
Definition row_of (rows : list (N * reading)) (node : N) (r : reading) : Prop :=
  exists a b, rows = a ++ (node, r) :: b /\ forall x, In x b -> fst x <> node.

(** The files needed by a run of n steps with period f: those for steps 0, f,
    2f, ... up to the first multiple not below n; each is present and
    has a row for every node. *)
Definition files_complete (files : N -> option (list (N * reading))) (freq : N) (nodes : list N) (n : nat) : Prop :=
  forall j, (j * freq < N.of_nat n + freq)%N ->
  exists rows, files (j * freq)%N = Some rows /\ forall v, In v nodes -> exists r, row_of rows v r.

(** b lies between a and c. *)
Definition between (a b c : R) : Prop := (Rmin a c <= b <= Rmax a c)%R.

(** y is the value at time t of the straight line through (t0, a) and (t1, b). *)
Definition on_line (t0 a t1 b t y : R) : Prop := ((y - a) * (t1 - t0) = (b - a) * (t - t0))%R.

(** The forcing values [vals] handed to the nodes at a call for time t in the
    given step: one per node, in order, each on the line between the rows of the
    files for the last multiple of the period not after the step and the next
    multiple. *)
Definition forcing_ok (files : N -> option (list (N * reading))) (freq : N) (dt : R) (nodes : list N)
    (call : N * nat * R) (vals : list (N * reading)) : Prop :=
  let '(step, _, t) := call in
  exists j, (j * freq <= step < j * freq + freq)%N /\ map fst vals = nodes /\
  forall v r, In (v, r) vals -> exists rows0 rows1 a b,
    files (j * freq)%N = Some rows0 /\ files (j * freq + freq)%N = Some rows1 /\ row_of rows0 v a /\ row_of rows1 v b /\
    let t0 := (NtoR (j * freq) * dt)%R in let t1 := (NtoR (j * freq + freq) * dt)%R in
    on_line t0 (m_x a) t1 (m_x b) t (m_x r) /\ on_line t0 (m_y a) t1 (m_y b) t (m_y r) /\ on_line t0 (m_p a) t1 (m_p b) t (m_p r).

(** Specification of the forcing of a split run. *)
From Coq Require Import ZArith NArith List Bool Arith Reals QArith Qreals.
From Verif Require Import Num Outcome ModelStepper ModelRun ModelGN SpecRun ModelSplitMet.
Import ListNotations.

(** The calls of a stepper with step size dt in its step number k, which begins at time
    k dt, when a step has the stage times k dt + dt d(i). *)
Definition step_at (dt : R) (n : nat) (d : nat -> R) (k : nat) : list pcall :=
  map (fun i => (dt, (N.of_nat k, i, (INR k * dt + dt * d i)%R))) (seq 0 n).
(** What N split steps of size dt call for: half steps 2k, whole step k, half step 2k+1. *)
Definition split_calls (dt : R) (n : nat) (d : nat -> R) (N : nat) : list pcall :=
  flat_map (fun k => step_at (dt / 2) n d (2 * k) ++ step_at dt n d k ++ step_at (dt / 2) n d (2 * k + 1)) (seq 0 N).

(** The values at time t when the snapshot in the file for step s is for time s dt, and
    there is a file for every multiple of freq. *)
Definition snapshots_at (files : N -> option (list (N * reading))) (freq : N) (dt : R) (nodes : list N) (t : R) (vals : list (N * reading)) : Prop :=
  map fst vals = nodes /\
  exists j, let t0 := (NtoR (j * freq) * dt)%R in let t1 := (NtoR (j * freq + freq) * dt)%R in (t0 <= t <= t1)%R /\
  forall v r, In (v, r) vals -> exists rows0 rows1 a b,
    files (j * freq)%N = Some rows0 /\ files (j * freq + freq)%N = Some rows1 /\ row_of rows0 v a /\ row_of rows1 v b /\
    on_line t0 (m_x a) t1 (m_x b) t (m_x r) /\ on_line t0 (m_y a) t1 (m_y b) t (m_y r) /\ on_line t0 (m_p a) t1 (m_p b) t (m_p r).

(** * Meteorological input of a split (Green-Naghdi) run.
    source/problem/Green-Naghdi/discretization_EHDG/kernels_processor/ehdg_gn_proc_serial_step.hpp
    lines 10-45 with source/simulation/stepper/second_strang_stepper.hpp lines 16-31 and
    source/problem/SWE/problem_parser/swe_parser.hpp lines 36-169 (ehdg_gn_proc_ompi_step.hpp
    lines 10-60 makes the same calls on the parser of every unit).  Both steppers go
    through one parser, hence one store of snapshots and one meteo_parse_frequency.
    Simplification: between two calls only the advance of the stepper is kept; the stages
    themselves do not touch the parser. *)
From Coq Require Import ZArith NArith List Bool Arith Reals QArith Qreals.
From Verif Require Import Num Outcome ModelStepper ModelRun ModelGN.
Import ListNotations.

(** A call of ParseInput: GetDT() of the stepper handed over, and its step, stage and
    GetTimeAtCurrentStage(). *)
Definition pcall := (R * (N * nat * R))%type.
Definition call_of (stp : stepper) : pcall := (st_dt stp, (N.of_nat (st_step stp), st_stage stp, time_at_stage stp)).

(** Snapshots held, and the calls so far with the values they handed to the nodes. *)
Definition mstate := (store * list (pcall * list (N * reading)))%type.

Section Split.
  Context (files : N -> option (list (N * reading))) (freq : N) (nodes : list N).

  (** parser.ParseInput(stepper, mesh): lines 20, 28 and 36. *)
  Definition parse_call (acc : mstate) (c : pcall) : outcome mstate :=
    do r <- parse_input files freq (fst c) nodes (fst acc) (snd c) ;
    Ok (fst r, snd acc ++ [(c, snd r)]).

  (** One loop over the stages: lines 18-24, 26-32 or 34-40. *)
  Definition phase_stage (s : mstate * stepper) : outcome (mstate * stepper) :=
    do a <- parse_call (fst s) (call_of (snd s)) ; Ok (a, stepper_incr (snd s)).
  Definition phase (s : mstate * stepper) : outcome (mstate * stepper) :=
    ofold (fun s _ => phase_stage s) (seq 0 (st_nstages (snd s))) s.

  (** Lines 15-40. *)
  Definition split_step (s : mstate * stepper * stepper) : outcome (mstate * stepper * stepper) :=
    let '(a, first, second) := s in
    do x <- phase (a, first) ;
    do y <- phase (fst x, second) ;
    do z <- phase (fst y, snd x) ;
    Ok (fst z, snd z, snd y).
  Definition split_run (n : nat) (s : stepper * stepper) : outcome (mstate * stepper * stepper) :=
    ofold (fun s _ => split_step s) (seq 0 n) ((fun _ => None, []), fst s, snd s).
End Split.

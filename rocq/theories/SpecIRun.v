(** The Newton loop with its stopping test and runs of the implicit HDG solver, serial and
    distributed. *)
From Coq Require Import Reals List Bool Arith.
From Verif Require Import Num ModelSWE ModelStep ModelIHDG ModelIPar ModelIRun SpecStep SpecIHDG SpecIHDG2 SpecIPar.
Import ListNotations.
Open Scope R_scope.

(** At most [n] passes remain: a pass adds increments that solve the system at the current
    state; the loop ends after the first pass whose increments of the traces pass the test
    (ihdg_swe_proc_serial_step.hpp lines 35-72, ihdg_swe_proc_ompi_step.hpp lines 43-91). *)
Inductive loop (m : mesh) (eaux : nat -> nat -> aux3 R) (g dt theta t : R) (qp rp : nat -> coeffs) :
    nat -> (nat -> coeffs) -> (nat -> coeffs) -> (nat -> coeffs) -> (nat -> coeffs) -> Prop :=
| loop_out : forall q qh, loop m eaux g dt theta t qp rp 0 q qh q qh
| loop_stop : forall n q qh s0 dq dqh, solves m (newton_system m eaux g dt theta t qp rp q qh s0) dq dqh -> converged (serial_vector m dqh) = true ->
    loop m eaux g dt theta t qp rp (S n) q qh (plus q dq) (plus qh dqh)
| loop_go : forall n q qh s0 dq dqh q' qh', solves m (newton_system m eaux g dt theta t qp rp q qh s0) dq dqh -> converged (serial_vector m dqh) = false ->
    loop m eaux g dt theta t qp rp n (plus q dq) (plus qh dqh) q' qh' -> loop m eaux g dt theta t qp rp (S n) q qh q' qh'.
Inductive loop_par (m : mesh) (us : list iunit) (eauxs : nat -> nat -> nat -> aux3 R) (g dt theta t : R) (qps rps : nat -> nat -> coeffs) :
    nat -> (nat -> nat -> coeffs) -> (nat -> nat -> coeffs) -> (nat -> nat -> coeffs) -> (nat -> nat -> coeffs) -> Prop :=
| loop_par_out : forall qs qhs, loop_par m us eauxs g dt theta t qps rps 0 qs qhs qs qhs
| loop_par_stop : forall n qs qhs s0 dqs dqhs, same_on_cuts m us dqhs ->
    solves_par m us (fun u => unit_system m (eauxs u) g dt theta (the_unit us u) t (qps u) (rps u) (qs u) (qhs u) (s0 u)) dqs dqhs ->
    converged (par_vector m us dqhs) = true ->
    loop_par m us eauxs g dt theta t qps rps (S n) qs qhs (fun u => plus (qs u) (dqs u)) (fun u => plus (qhs u) (dqhs u))
| loop_par_go : forall n qs qhs s0 dqs dqhs qs' qhs', same_on_cuts m us dqhs ->
    solves_par m us (fun u => unit_system m (eauxs u) g dt theta (the_unit us u) t (qps u) (rps u) (qs u) (qhs u) (s0 u)) dqs dqhs ->
    converged (par_vector m us dqhs) = false ->
    loop_par m us eauxs g dt theta t qps rps n (fun u => plus (qs u) (dqs u)) (fun u => plus (qhs u) (dqhs u)) qs' qhs' ->
    loop_par m us eauxs g dt theta t qps rps (S n) qs qhs qs' qhs'.

(** Runs: step [k] from time [tm k] to [tm (S k)] starts the loop of 100 passes at the old
    state.  Without slope limiting. *)
Inductive run (m : mesh) (eaux : nat -> nat -> aux3 R) (g dt theta : R) (order2 : bool) (tm : nat -> R) (q0 qh0 : nat -> coeffs) :
    nat -> (nat -> coeffs) -> (nat -> coeffs) -> Prop :=
| run_0 : run m eaux g dt theta order2 tm q0 qh0 0 q0 qh0
| run_S : forall k q qh q' qh', run m eaux g dt theta order2 tm q0 qh0 k q qh ->
    loop m eaux g dt theta (tm (S k)) q (init_rhs_prev m eaux g order2 (tm k) q qh) 100 q qh q' qh' ->
    run m eaux g dt theta order2 tm q0 qh0 (S k) q' qh'.
Inductive run_par (m : mesh) (us : list iunit) (eauxs : nat -> nat -> nat -> aux3 R) (g dt theta : R) (order2 : bool) (tm : nat -> R) (q0s qh0s : nat -> nat -> coeffs) :
    nat -> (nat -> nat -> coeffs) -> (nat -> nat -> coeffs) -> Prop :=
| run_par_0 : run_par m us eauxs g dt theta order2 tm q0s qh0s 0 q0s qh0s
| run_par_S : forall k qs qhs qs' qhs', run_par m us eauxs g dt theta order2 tm q0s qh0s k qs qhs ->
    loop_par m us eauxs g dt theta (tm (S k)) qs (fun u => unit_rhs_prev m (eauxs u) g (the_unit us u) order2 (tm k) (qs u) (qhs u)) 100 qs qhs qs' qhs' ->
    run_par m us eauxs g dt theta order2 tm q0s qh0s (S k) qs' qhs'.

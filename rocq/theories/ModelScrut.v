(** The search for NaN after every stage, in double precision:
    problem/SWE/problem_postprocessor/swe_post_scrutinize.hpp with the stages that
    call it.  Doubles are the binary64 values of the standard library's SpecFloat
    (rounding to nearest even, infinities, one NaN).  Rows: 0 ze, 1 qx, 2 qy. *)
From Coq Require Import ZArith List Bool Arith.
From Coq.Floats Require Import SpecFloat.
From Verif Require Import Outcome.
Import ListNotations.

Notation double := spec_float.
Definition dadd : double -> double -> double := SFadd 53 1024.
Definition dsub : double -> double -> double := SFsub 53 1024.
Definition dmul : double -> double -> double := SFmul 53 1024.
Definition ddiv : double -> double -> double := SFdiv 53 1024.
Definition dleb : double -> double -> bool := SFleb.
Definition dltb : double -> double -> bool := SFltb.
(** Conversion of an integer. *)
Definition dofZ (z : Z) : double := binary_normalize 53 1024 z 0 false.
Definition isnan (x : double) : bool := match x with S754_nan => true | _ => false end.

(** A 3 x ndof matrix of modal coefficients. *)
Definition coeffs := nat -> nat -> double.
Definition put {A : Type} (f : nat -> A) (i : nat) (a : A) : nat -> A := fun j => if Nat.eqb j i then a else f j.

(** swe_post_scrutinize.hpp lines 6-41: the variable named in the message, if any;
    the function returns true exactly then. *)
Definition scrutinize (ndof : nat) (q : coeffs) : option nat :=
  let found v := existsb (fun dof => isnan (q v dof)) (seq 0 ndof) in
  if found 0 then Some 0 else if found 1 then Some 1 else if found 2 then Some 2 else None.

(** explicit_ssp_rk_stepper.hpp lines 67-76: the value stored in state[stage+1].q;
    [q s] is state[s].q and [sol s] is state[s].solution. *)
Definition next_q (A B : list (list double)) (dt : double) (stage : nat) (q sol : nat -> coeffs) : coeffs :=
  let entry M s := nth s (nth stage M []) (S754_zero false) in
  fold_left (fun (acc : coeffs) s v d =>
      dadd (acc v d) (dadd (dmul (entry A s) (q s v d)) (dmul (dmul dt (entry B s)) (sol s v d))))
    (seq 0 (stage + 1)) (fun _ _ => S754_zero false).

(** Per element: state[slot].q, state[slot].solution, wet_dry_state.wet. *)
Record dstate := DState { d_q : nat -> nat -> coeffs; d_sol : nat -> nat -> coeffs; d_wet : nat -> bool }.

(** A solver: [c_solution t k] computes state[k].solution of every element from the
    whole state at time stamp t (volume, source, interface and boundary kernels and
    ApplyMinv; arbitrary here).  [c_post k] is what follows ++stepper: wetting and
    drying and slope limiting of slot k (arbitrary here, may be undefined). *)
Record solver := Solver {
  c_n : nat; c_ndof : nat; c_nstages : nat;
  c_A : list (list double); c_B : list (list double); c_dt : double;
  c_solution : nat -> nat -> dstate -> nat -> coeffs;
  c_post : nat -> dstate -> outcome dstate }.

(** explicit_ssp_rk_stepper.hpp lines 67-80 for all elements after the solution has
    been stored. *)
Definition update_all (c : solver) (t k : nat) (s : dstate) : dstate :=
  let sol e := put (d_sol s e) k (c_solution c t k s e) in
  let q e := put (d_q s e) (k + 1) (next_q (c_A c) (c_B c) (c_dt c) k (d_q s e) (sol e)) in
  let swapped e := put (put (q e) 0 (q e (c_nstages c))) (c_nstages c) (q e 0) in
  DState (if Nat.eqb (k + 1) (c_nstages c) then swapped else q) sol (d_wet s).

(** How a run ends: it goes on, abort() was called (MPI_Abort with error code 0 in the
    distributed solver), or its behaviour is undefined. *)
Inductive ended := Running (s : dstate) | Aborted | Undefined.

(** rkdg_swe_proc_serial_step.hpp lines 29-67 and ehdg_swe_proc_serial_step.hpp lines
    30-84: the stage of slot k; the stepper's stage is then (k+1) mod nstages. *)
Definition stage_serial (c : solver) (t k : nat) (s : dstate) : ended :=
  let now := Nat.modulo (k + 1) (c_nstages c) in
  match c_post c now (update_all c t k s) with
  | Ok s' =>
      if existsb (fun e => match scrutinize (c_ndof c) (d_q s' e now) with Some _ => true | None => false end)
                 (seq 0 (c_n c))
      then Aborted else Running s'
  | _ => Undefined
  end.

(** The loop over the stages of a step. *)
Fixpoint stages (f : nat -> nat -> dstate -> ended) (t : nat) (ks : list nat) (s : dstate) : ended :=
  match ks with
  | [] => Running s
  | k :: r => match f t k s with Running s' => stages f (S t) r s' | x => x end
  end.
Definition all_stages (c : solver) : list nat := seq 0 (c_nstages c).

(** rkdg_swe_proc_serial_step.hpp lines 10-26 without input. *)
Definition step_serial (c : solver) (t : nat) (s : dstate) : ended := stages (stage_serial c) t (all_stages c) s.

(** ehdg_gn_proc_serial_step.hpp lines 47-84: a stage of the dispersive correction [g]
    ends with ++stepper; nothing is checked. *)
Definition correction_stage (g : solver) (t k : nat) (s : dstate) : ended := Running (update_all g t k s).

(** ehdg_gn_proc_serial_step.hpp lines 10-45: shallow water, correction, shallow water. *)
Definition step_gn (c g : solver) (t : nat) (s : dstate) : ended :=
  match stages (stage_serial c) t (all_stages c) s with
  | Running s1 =>
      match stages (correction_stage g) (t + c_nstages c) (all_stages g) s1 with
      | Running s2 => stages (stage_serial c) (t + c_nstages c + c_nstages g) (all_stages c) s2
      | x => x
      end
  | x => x
  end.

(** simulation/serial/simulation.hpp lines 79-81: what WriteOutput can write after
    each step (it reads state[0].q: swe_post_write_vtk.hpp lines 14-15,
    swe_post_write_vtu.hpp lines 14-15, swe_post_write_modal.hpp line 11), and the end.
    The first output (WriteFirstStep), made before any stage, is left out; so is the
    choice of the steps that are written. *)
Definition output := nat -> coeffs.
Fixpoint run (step : nat -> dstate -> ended) (len t n : nat) (s : dstate) : list output * ended :=
  match n with
  | 0 => ([], Running s)
  | S m => match step t s with
           | Running s' => let '(os, x) := run step len (t + len) m s' in ((fun e => d_q s' e 0) :: os, x)
           | x => ([], x)
           end
  end.

(** ** Wetting and drying in doubles: swe_post_wet_dry.hpp lines 5-145.
    The right hand side, which is not checked, and went_completely_dry are left out.
    ComputeLinearUvrtx is the identity; the products are sums over all entries, the
    matrices being dense (master_triangle.tpp lines 124-134, general_definitions.hpp lines 129-130). *)
Fixpoint dsum (n : nat) (f : nat -> double) : double := match n with 0 => S754_zero false | S m => dadd (dsum m f) (f m) end.

(** basis_dubiner_2D.cpp lines 213-257, GetBasisLinearT and GetLinearBasisT. *)
Definition basis_linear (dof v : nat) : double :=
  dofZ match dof, v with
       | 0, 0 => 1%Z | 1, 0 => (-1)%Z | 2, 0 => (-1)%Z
       | 0, 1 => 1%Z | 1, 1 => (-1)%Z | 2, 1 => 1%Z
       | 0, 2 => 1%Z | 1, 2 => 2%Z | 2, 2 => 0%Z
       | _, _ => 0%Z end.
Definition linear_basis (v dof : nat) : double :=
  match v, dof with
  | 0, 0 | 1, 0 | 2, 0 | 2, 1 => ddiv (dofZ 1) (dofZ 3)
  | 0, 1 | 1, 1 => ddiv (dofZ (-1)) (dofZ 6)
  | 0, 2 => ddiv (dofZ (-1)) (dofZ 2)
  | 1, 2 => ddiv (dofZ 1) (dofZ 2)
  | _, _ => S754_zero false
  end.
Definition to_linear (ndof : nat) (q : coeffs) : coeffs := fun row v => dsum ndof (fun dof => dmul (q row dof) (basis_linear dof v)).
Definition to_basis (qv : coeffs) : coeffs := fun row dof => dsum 3 (fun v => dmul (qv row v) (linear_basis v dof)).

Definition argmin (h : nat -> double) : nat :=
  let i := if dltb (h 1) (h 0) then 1 else 0 in if dltb (h 2) (h i) then 2 else i.
Definition argmax (h : nat -> double) : nat :=
  let i := if dltb (h 0) (h 1) then 1 else 0 in if dltb (h i) (h 2) then 2 else i.
(** std::max(a,b) is b only if a < b. *)
Definition dmax (a b : double) : double := if dltb a b then b else a.
Definition dry_count (lim : double) (h : nat -> double) : nat := length (filter (fun v => dleb (h v) lim) [0; 1; 2]).

(** Lines 18-31: depths of the vertices and their mean. *)
Definition depths (ndof : nat) (bath : nat -> double) (q : coeffs) : nat -> double :=
  fun v => dadd (to_linear ndof q 0 v) (bath v).
Definition mean_depth (thr : double) (h : nat -> double) : double :=
  let a := ddiv (dadd (dadd (dadd (S754_zero false) (h 0)) (h 1)) (h 2)) (dofZ 3) in
  if dleb a thr then thr else a.

Definition flat (h_avg : double) (bath : nat -> double) : coeffs :=
  fun row v => match row with 0 => dsub h_avg (bath v) | _ => S754_zero false end.
Definition no_discharge (q : coeffs) : coeffs := fun row v => match row with 0 => q 0 v | _ => S754_zero false end.

(** Lines 64-83. *)
Definition new_depths (h_o : double) (h : nat -> double) : outcome (nat -> double) :=
  let mn := argmin h in
  let mx := argmax h in
  let md := 3 - mx - mn in
  if (mx + mn <=? 3) && (md <? 3) then
    let t1 := put h mn h_o in
    let t2 := put t1 md (dmax h_o (dsub (h md) (ddiv (dsub (t1 mn) (h mn)) (dofZ 2)))) in
    Ok (put t2 mx (dsub (dsub (h mx) (dsub (t2 mn) (h mn))) (dsub (t2 md) (h md))))
  else UB.

(** Lines 85-110, with the assertion of line 101. *)
Definition move_discharge (lim : double) (h bath : nat -> double) (q : coeffs) : outcome coeffs :=
  let n := dry_count lim h in
  let del row := fold_left (fun a v => if dleb (h v) lim then dadd a (q row v) else a) [0; 1; 2] (S754_zero false) in
  let kept row v := if dleb (h v) lim then S754_zero false else q row v in
  if n <? 3 then
    Ok (fun row v => match row with
        | 0 => dsub (h v) (bath v)
        | _ => if dltb lim (h v) then dadd (kept row v) (ddiv (del row) (dofZ (Z.of_nat (3 - n)))) else kept row v
        end)
  else UB.

(** Lines 118-144: the new coefficients and the flag. *)
Definition final_check (h_o bath_min : double) (h : nat -> double) (qv q : coeffs) : coeffs * bool :=
  if dltb (dsub h_o bath_min) (qv 0 (argmax h)) then (q, true) else (to_basis (no_discharge qv), false).

Definition wetting_drying (ndof : nat) (h_o thr : double) (bath : nat -> double) (bath_min : double) (q : coeffs) (wet : bool)
    : outcome (coeffs * bool) :=
  if ndof <? 3 then UB else
  let qv := to_linear ndof q in
  let h := depths ndof bath q in
  let lim := dadd h_o thr in
  let h_avg := mean_depth thr h in
  if Nat.eqb (dry_count lim h) 0 then
    Ok (if wet then (q, true) else final_check h_o bath_min h qv q)
  else if Nat.eqb (dry_count lim h) 3 then Ok (to_basis (flat h_avg bath), false)
  else if dleb h_avg lim then
    let f := flat h_avg bath in Ok (final_check h_o bath_min h f (to_basis f))
  else
    do h' <- new_depths h_o h ;
    do m <- move_discharge lim h' bath qv ;
    Ok (final_check h_o bath_min h' m (to_basis m)).

(** rkdg_swe_proc_serial_step.hpp lines 51-53: the kernel on every element; [bath] and
    [bath_min] per element. *)
Definition wet_dry_post (n ndof : nat) (h_o thr : double) (bath : nat -> nat -> double) (bath_min : nat -> double)
    (k : nat) (s : dstate) : outcome dstate :=
  ofold (fun s e =>
      do r <- wetting_drying ndof h_o thr (bath e) (bath_min e) (d_q s e k) (d_wet s e) ;
      Ok (DState (put (d_q s) e (put (d_q s e) k (fst r))) (d_sol s) (put (d_wet s) e (snd r))))
    (seq 0 n) s.

(** ** Slope limiting in doubles: swe_CS_slope_limiter.hpp lines 174-189.  The slopes
    delta(var, bound) computed in lines 91-172 are arbitrary here.  norm is the square root of
    the sum of squares. *)
Definition dsqrt : double -> double := SFsqrt 53 1024.
Definition dnorm (w : nat -> double) : double := dsqrt (dsum 3 (fun v => dmul (w v) (w v))).
(** master_triangle.tpp lines 19-21 and 138-140. *)
Definition centre (qv : coeffs) (row : nat) : double := dsum 3 (fun v => dmul (qv row v) (ddiv (dofZ 1) (dofZ 3))).
(** swe_data_slope_limit.hpp lines 23-26. *)
Definition slope_T (b v : nat) : double := dofZ (if Nat.eqb b v then -1 else 1).
Definition limited_vrtx (delta qv : coeffs) : coeffs :=
  fun row v => dadd (centre qv row) (dsum 3 (fun b => dmul (delta row b) (slope_T b v))).
Definition limit (ndof : nat) (delta q : coeffs) : coeffs :=
  let q_lin := to_linear ndof q in
  let w := limited_vrtx delta q_lin in
  fun row =>
    let del_q_norm := dnorm (fun v => dsub (w row v) (q_lin row v)) in
    if dltb (ddiv (dofZ 1) (dofZ (10 ^ 12))) (ddiv del_q_norm (dnorm (q_lin row))) then to_basis w row else q row.

(** swe_CS_sl_serial.hpp lines 10-23: [active] are the wet elements with wet neighbours only; flags and
    slopes come from the values prepared before the first element is limited. *)
Definition limit_post (n ndof : nat) (active : dstate -> nat -> bool) (delta : dstate -> nat -> coeffs)
    (k : nat) (s : dstate) : dstate :=
  DState (fun e => if (e <? n) && active s e then put (d_q s e) k (limit ndof (delta s e) (d_q s e k)) else d_q s e)
    (d_sol s) (d_wet s).

(** rkdg_swe_proc_serial_step.hpp lines 51-57: both, as configured. *)
Definition post_serial (wd sl : bool) (n ndof : nat) (h_o thr : double) (bath : nat -> nat -> double) (bath_min : nat -> double)
    (active : dstate -> nat -> bool) (delta : dstate -> nat -> coeffs) (k : nat) (s : dstate) : outcome dstate :=
  do s1 <- (if wd then wet_dry_post n ndof h_o thr bath bath_min k s else Ok s) ;
  Ok (if sl then limit_post n ndof active delta k s1 else s1).

(** ** The implicit solver: ihdg_swe_proc_serial_step.hpp lines 30-95.  The iteration (lines 33-72) is an
    arbitrary function; it leaves the new coefficients in state[n_stages].q.  There is no wetting and drying. *)
Definition swap_all (nst : nat) (s : dstate) : dstate :=
  DState (fun e => put (put (d_q s e) 0 (d_q s e nst)) nst (d_q s e 0)) (d_sol s) (d_wet s).
Definition stage_implicit (n ndof nst : nat) (iterate : nat -> nat -> dstate -> dstate) (sl : bool)
    (active : dstate -> nat -> bool) (delta : dstate -> nat -> coeffs) (t k : nat) (s : dstate) : ended :=
  let now := Nat.modulo (k + 1) nst in
  let s1 := swap_all nst (iterate t k s) in
  let s2 := if sl then limit_post n ndof active delta now s1 else s1 in
  if existsb (fun e => match scrutinize ndof (d_q s2 e now) with Some _ => true | None => false end) (seq 0 n)
  then Aborted else Running s2.
Definition step_implicit (n ndof nst : nat) (iterate : nat -> nat -> dstate -> dstate) (sl : bool)
    (active : dstate -> nat -> bool) (delta : dstate -> nat -> coeffs) (t : nat) (s : dstate) : ended :=
  stages (stage_implicit n ndof nst iterate sl active delta) t (seq 0 nst) s.

(** Wetting and drying of one element:
    problem/SWE/problem_postprocessor/swe_post_wet_dry.hpp lines 5-145 and
    problem/SWE/problem_preprocessor/swe_pre_init_data.hpp lines 213-250.
    Reals for double.  Elements have three vertices (the code's index
    3 - max - min assumes it too).  ComputeLinearUvrtx is the identity
    (master_triangle.tpp lines 148-152).  Variable rows: 0 ze, 1 qx, 2 qy. *)
From Coq Require Import Reals List Bool Arith.
From Verif Require Import Num ModelSWE Outcome ModelBasis.
Import ListNotations.
Open Scope R_scope.

Record elt_wd := EltWD {
  e_q : nat -> nat -> R;      (* state.q, row and dof *)
  e_rhs : nat -> nat -> R;    (* state.rhs *)
  e_wet : bool;
  e_completely_dry : bool }.

(** std::min_element and std::max_element on the three depths: first extremum. *)
Definition argmin3 (h : nat -> R) : nat :=
  let i := if Rltb (h 1%nat) (h 0%nat) then 1%nat else 0%nat in if Rltb (h 2%nat) (h i) then 2%nat else i.
Definition argmax3 (h : nat -> R) : nat :=
  let i := if Rltb (h 0%nat) (h 1%nat) then 1%nat else 0%nat in if Rltb (h i) (h 2%nat) then 2%nat else i.

(** ProjectBasisToLinear and ProjectLinearToBasis of a three-row matrix. *)
Definition to_linear (p : nat) (q : nat -> nat -> R) : outcome (nat -> nat -> R) :=
  do r0 <- ProjectBasisToLinear p (q 0%nat) ; do r1 <- ProjectBasisToLinear p (q 1%nat) ;
  do r2 <- ProjectBasisToLinear p (q 2%nat) ;
  Ok (fun v => match v with 0%nat => r0 | 1%nat => r1 | _ => r2 end).
Definition to_basis (p : nat) (q : nat -> nat -> R) : outcome (nat -> nat -> R) :=
  do r0 <- ProjectLinearToBasis p (q 0%nat) ; do r1 <- ProjectLinearToBasis p (q 1%nat) ;
  do r2 <- ProjectLinearToBasis p (q 2%nat) ;
  Ok (fun v => match v with 0%nat => r0 | 1%nat => r1 | _ => r2 end).

Definition count_dry (lim : R) (h : nat -> R) : nat :=
  fold_left (fun n v => if Rleb (h v) lim then S n else n) (seq 0 3) 0%nat.

(** Lines 42-46, 57-61, 134-137: fill of the vertex rows. *)
Definition flat (h_avg : R) (bath : nat -> R) : nat -> nat -> R :=
  fun var v => match var with 0%nat => h_avg - bath v | _ => 0 end.
Definition no_discharge (q : nat -> nat -> R) : nat -> nat -> R :=
  fun var v => match var with 0%nat => q 0%nat v | _ => 0 end.

(** Lines 63-83: new depths.  The middle index is out of range when the two
    extrema coincide. *)
Definition redistribute (h_o : R) (h : nat -> R) : outcome (nat -> R) :=
  let mn := argmin3 h in
  let mx := argmax3 h in
  if (mx + mn <=? 3)%nat && negb (Nat.eqb (3 - mx - mn) 3) then
    let md := (3 - mx - mn)%nat in
    let t1 := upd h mn h_o in
    let t2 := upd t1 md (Rmax h_o (h md - (t1 mn - h mn) / 2)) in
    Ok (upd t2 mx (h mx - (t2 mn - h mn) - (t2 md - h md)))
  else UB.

(** Lines 85-110: discharge of dry vertices moves to the wet ones.  The assertion
    of line 101 and the division by 3 - n_dry are in the model. *)
Definition move_discharge (lim : R) (h : nat -> R) (bath : nat -> R) (q : nat -> nat -> R) : outcome (nat -> nat -> R) :=
  let dry v := Rleb (h v) lim in
  let n_dry := count_dry lim h in
  let del var := fold_left (fun s v => if dry v then s + q var v else s) (seq 0 3) 0 in
  if (n_dry <? 3)%nat then
    Ok (fun var v => match var with
        | 0%nat => h v - bath v
        | _ => (if dry v then 0 else q var v + del var / INR (3 - n_dry))
        end)
  else UB.

(** Lines 118-144.  [h] are the depths used for the choice of the vertex,
    [q] the vertex values, [state] the element's modal state. *)
Definition final_check (p : nat) (h_o bath_min : R) (h : nat -> R) (q : nat -> nat -> R)
    (state rhs : nat -> nat -> R) (cd : bool) : outcome elt_wd :=
  if Rltb (h_o - bath_min) (q 0%nat (argmax3 h))
  then Ok (EltWD state rhs true cd)
  else do q' <- to_basis p (no_discharge q) ; Ok (EltWD q' (fun _ _ => 0) false cd).

Definition wetting_drying_kernel (p : nat) (h_o thr : R) (bath : nat -> R) (bath_min : R) (s : elt_wd) : outcome elt_wd :=
  do q <- to_linear p (e_q s) ;
  let h := fun v => q 0%nat v + bath v in
  let n_dry := count_dry (h_o + thr) h in
  let h_avg0 := (0 + h 0%nat + h 1%nat + h 2%nat) / 3 in
  let cd := Rleb h_avg0 thr in
  let h_avg := if cd then thr else h_avg0 in
  if Nat.eqb n_dry 0 then
    if e_wet s then Ok (EltWD (e_q s) (e_rhs s) true cd)
    else final_check p h_o bath_min h q (e_q s) (e_rhs s) cd
  else if Nat.eqb n_dry 3 then
    do q' <- to_basis p (flat h_avg bath) ; Ok (EltWD q' (fun _ _ => 0) false cd)
  else if Rleb h_avg (h_o + thr) then
    let qv := flat h_avg bath in
    do q' <- to_basis p qv ; final_check p h_o bath_min h qv q' (e_rhs s) cd
  else
    do h' <- redistribute h_o h ;
    do qv <- move_discharge (h_o + thr) h' bath q ;
    do q' <- to_basis p qv ;
    final_check p h_o bath_min h' qv q' (e_rhs s) cd.

(** swe_pre_init_data.hpp lines 220-248; bath_min is the least vertex value. *)
Definition init_wet_dry (p : nat) (h_o thr : R) (bath : nat -> R) (s : elt_wd) : outcome elt_wd :=
  do q <- to_linear p (e_q s) ;
  let h := fun v => q 0%nat v + bath v in
  let dry v := Rleb (h v) (h_o + thr) in
  if dry 0%nat || dry 1%nat || dry 2%nat then
    do q' <- to_basis p (fun var v => match var with 0%nat => if dry v then h_o - bath v else q 0%nat v | _ => 0 end) ;
    Ok (EltWD q' (fun _ _ => 0) false (e_completely_dry s))
  else Ok (EltWD (e_q s) (e_rhs s) true (e_completely_dry s)).
Definition init_bath_min (bath : nat -> R) : R := bath (argmin3 bath).

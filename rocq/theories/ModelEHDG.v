(** One stage and one step of the serial explicit HDG shallow-water solver on a
    whole mesh: problem/SWE/discretization_EHDG/kernels_processor/
    ehdg_swe_proc_serial_step.hpp with the kernels it calls.  Mesh, configuration,
    state and conventions of ModelStep; the same parts are left out (NaN check lines
    76-83, input parsing, output).  The buffers of the faces are kept from stage to
    stage, as in the code: what a kernel does not write stays. *)
From Coq Require Import Reals List Bool Arith.
From Verif Require Import Num ModelSWE Outcome ModelShape ModelBasis ModelJac ModelStepper ModelWetDry ModelSlope ModelStep ModelIHDG.
Import ListNotations.
Open Scope R_scope.

Record estate := EState {
  es_m : mstate;
  es_q : nat -> nat -> nat -> vec3 R;      (* data.boundary[b].q_at_gp: element, face, Gauss point *)
  es_F : nat -> nat -> nat -> vec3 R;      (* data.boundary[b].F_hat_at_gp *)
  es_qh : nat -> coeffs }.                 (* edge_state.q_hat, by position in m_bounds *)

Definition set_face (B : nat -> nat -> nat -> vec3 R) (e b ngp : nat) (u : nat -> vec3 R) : nat -> nat -> nat -> vec3 R :=
  upd B e (upd (B e) b (fun gp => if Nat.ltb gp ngp then u gp else B e b gp)).

Section Kernels.
  Context (m : mesh) (c : config).
  (** utilities/linear_algebra: solve_sle, library code. *)
  Context (solve_sle : nat -> (nat -> nat -> R) -> (nat -> R) -> nat -> R).

  (** ehdg_swe_proc_intface.hpp lines 6-18. *)
  Definition global_interface (k : nat) (s : estate) (f : intface) : estate :=
    let st := es_m s in
    if ms_wet st (i_in f) || ms_wet st (i_ex f) then
      let B1 := set_face (es_q s) (i_in f) (i_bin f) (ngp1 m) (q_face m st k (i_in f) (i_bin f)) in
      EState st (set_face B1 (i_ex f) (i_bex f) (ngp1 m) (q_face m st k (i_ex f) (i_bex f))) (es_F s) (es_qh s)
    else s.
  (** ehdg_swe_proc_bound.hpp lines 6-14. *)
  Definition global_boundary (k : nat) (s : estate) (b : bound) : estate :=
    let st := es_m s in
    if ms_wet st (b_elt b) then
      EState st (set_face (es_q s) (b_elt b) (b_id b) (ngp1 m) (q_face m st k (b_elt b) (b_id b))) (es_F s) (es_qh s)
    else s.

  (** ehdg_swe_pre_init_global_prob.hpp lines 7-45: the bathymetry of the edges.
      Neither the depth (overwritten before use) nor sp (never read) is set. *)
  Definition edge_bath (f : intface) (gp : nat) : aux3 R :=
    Aux ((bath (m_faux m (i_in f) (i_bin f) gp) + bath (m_faux m (i_ex f) (i_bex f) (ngp1 m - gp - 1)%nat)) / 2) 0 0.
  Definition edge_bath_b (b : bound) (gp : nat) : aux3 R := Aux (bath (m_faux m (b_elt b) (b_id b) gp)) 0 0.

  (** ehdg_swe_is_internal.hpp lines 25-151; ehdg_swe_is_levee.hpp lines 53-56: the
      levee computes nothing. *)
  Definition edge_interface (s : estate) (f : intface) : estate :=
    match i_kind f with
    | Internal =>
        let st := es_m s in
        let n_in := normal m (i_in f) (i_bin f) in
        let F := ehdg_internal_flux (c_g c) (ms_wet st (i_in f)) (ms_wet st (i_ex f)) (ngp1 m)
                   (es_q s (i_in f) (i_bin f)) (es_q s (i_ex f) (i_bex f)) (edge_bath f)
                   (fun _ => n_in) (fun _ => opp n_in) (es_F s (i_in f) (i_bin f), es_F s (i_ex f) (i_bex f)) in
        let F1 := set_face (es_F s) (i_in f) (i_bin f) (ngp1 m) (fst F) in
        EState st (es_q s) (set_face F1 (i_ex f) (i_bex f) (ngp1 m) (snd F)) (es_qh s)
    | Levee _ => s
    end.

  (** compute_bc_trace.hpp lines 6-83: Newton's method for the trace of an open boundary;
      one pass (lines 19-75) returns the new trace and the increment.  Entry
      (3 dof + var) of the vectors. *)
  Definition trace_at (qh : coeffs) (gp : nat) : vec3 R :=
    let row var := vmsum (S (m_p m)) (fun j => qh var j * legendre_phi j (z1 m gp)) in
    V3 (row 0%nat) (row 1%nat) (row 2%nat).
  Definition trace_aux (b : bound) (qh : coeffs) (gp : nat) : aux3 R := with_depth (edge_bath_b b gp) (trace_at qh gp).
  Definition trace_size : nat := (3 * S (m_p m))%nat.
  Definition trace_matrix (b : bound) (q qinf : nat -> vec3 R) (qh : coeffs) (row col : nat) : R :=
    let n := normal m (b_elt b) (b_id b) in
    let H gp := open_hat (c_g c) (trace_at qh gp) (trace_aux b qh gp) n (q gp) (qinf gp) in
    lambda_lambda m (b_elt b) (b_id b) (row / 3)%nat (col / 3)%nat H (row mod 3)%nat (col mod 3)%nat.
  Definition trace_load (b : bound) (q qinf : nat -> vec3 R) (qh : coeffs) (row : nat) : R :=
    let n := normal m (b_elt b) (b_id b) in
    let r gp := open_rhs (c_g c) (trace_at qh gp) (trace_aux b qh gp) n (q gp) (qinf gp) in
    - edge_lambda m (b_elt b) (b_id b) r (row mod 3)%nat (row / 3)%nat.
  Definition trace_pass (b : bound) (q qinf : nat -> vec3 R) (qh : coeffs) : coeffs * (nat -> R) :=
    let x := solve_sle trace_size (trace_matrix b q qinf qh) (trace_load b q qinf qh) in
    (fun var dof => qh var dof + x (3 * dof + var)%nat, x).
  (** norm(rhs_global) / rhs_global.size(). *)
  Definition trace_norm (x : nat -> R) : R := sqrt (vmsum trace_size (fun i => x i * x i)) / INR trace_size.
  (** Lines 17-82: at most [fuel] = 100 passes. *)
  Fixpoint bc_trace (fuel : nat) (b : bound) (q qinf : nat -> vec3 R) (qh : coeffs) : coeffs :=
    match fuel with
    | O => qh
    | S fuel' =>
        let '(qh', x) := trace_pass b q qinf qh in
        if Rltb (trace_norm x) (1 / 10 ^ 12) then qh' else bc_trace fuel' b q qinf qh'
    end.

  (** ehdg_swe_bc_land.hpp lines 29-66; ehdg_swe_bc_tide.hpp lines 97-142,
      ehdg_swe_bc_flow.hpp lines 99-146, ehdg_swe_bc_function.hpp lines 53-104 (they
      differ in q_ex).  Dry elements are not skipped. *)
  Definition edge_boundary (t : R) (s : estate) (nb : nat * bound) : estate :=
    let (i, b) := nb in
    let n := normal m (b_elt b) (b_id b) in
    let q := es_q s (b_elt b) (b_id b) in
    match b_bc b with
    | Land =>
        EState (es_m s) (es_q s)
          (set_face (es_F s) (b_elt b) (b_id b) (ngp1 m) (fun gp => ehdg_land_flux (c_g c) n (q gp) (edge_bath_b b gp))) (es_qh s)
    | Exterior ex =>
        let qh := bc_trace 100 b q (fun gp => ex t gp n (q gp)) (es_qh s i) in
        let F gp := vadd (get_Fn (c_g c) (trace_at qh gp) (trace_aux b qh gp) n)
                         (vscale (tau_LF (c_g c) (trace_at qh gp) (trace_aux b qh gp) n) (ModelSWE.vsub (q gp) (trace_at qh gp))) in
        EState (es_m s) (es_q s) (set_face (es_F s) (b_elt b) (b_id b) (ngp1 m) F) (upd (es_qh s) i qh)
    end.
  Definition numbered_bounds : list (nat * bound) := combine (seq 0 (length (m_bounds m))) (m_bounds m).

  (** ehdg_swe_proc_serial_step.hpp lines 31-44. *)
  Definition global_step (t : R) (k : nat) (s : estate) : estate :=
    let s1 := fold_left (global_interface k) (m_intfaces m) s in
    let s2 := fold_left (global_boundary k) (m_bounds m) s1 in
    let s3 := fold_left edge_interface (m_intfaces m) s2 in
    fold_left (edge_boundary t) numbered_bounds s3.

  (** ehdg_swe_proc_volume.hpp lines 9-30: the x flux is not multiplied by sp. *)
  Definition local_volume (k : nat) (st : mstate) (e : nat) : mstate :=
    if ms_wet st e then
      let F gp := get_F (c_g c) (q_gp m st k e gp) (aux_gp m st k e gp) in
      set_rhs st e k (cadd (integration_dphi m e fst (fun gp => fst (F gp))) (integration_dphi m e snd (fun gp => snd (F gp))))
    else set_rhs st e k (fun _ _ => 0).
  (** ehdg_swe_proc_intface.hpp lines 20-34. *)
  Definition local_interface (F : nat -> nat -> nat -> vec3 R) (k : nat) (st : mstate) (f : intface) : mstate :=
    if ms_wet st (i_in f) || ms_wet st (i_ex f) then
      let st1 := set_rhs st (i_in f) k (csub (ms_rhs st (i_in f) k)
                   (integration_face m (i_in f) (i_bin f) (i_bin f) (F (i_in f) (i_bin f)))) in
      set_rhs st1 (i_ex f) k (csub (ms_rhs st1 (i_ex f) k)
        (integration_face m (i_in f) (i_bin f) (i_bex f) (F (i_ex f) (i_bex f))))
    else st.
  (** ehdg_swe_proc_bound.hpp lines 16-25. *)
  Definition local_boundary (F : nat -> nat -> nat -> vec3 R) (k : nat) (st : mstate) (b : bound) : mstate :=
    if ms_wet st (b_elt b) then
      set_rhs st (b_elt b) k (csub (ms_rhs st (b_elt b) k)
        (integration_face m (b_elt b) (b_id b) (b_id b) (F (b_elt b) (b_id b))))
    else st.
  (** ehdg_swe_proc_serial_step.hpp lines 47-55; ehdg_swe_proc_source.hpp is
      rkdg_swe_proc_source.hpp. *)
  Definition local_rhs (t : R) (k : nat) (F : nat -> nat -> nat -> vec3 R) (st : mstate) : mstate :=
    let st1 := fold_left (local_volume k) (seq 0 (m_n m)) st in
    let st2 := fold_left (source_kernel m c t k) (seq 0 (m_n m)) st1 in
    let st3 := fold_left (local_interface F k) (m_intfaces m) st2 in
    fold_left (local_boundary F k) (m_bounds m) st3.

  (** Lines 57-74: mass matrix, stage update, wetting and drying, limiting. *)
  Definition finish (st1 : mstate) (stp : stepper) : outcome mstate :=
    let k := st_stage stp in
    let st2 := fold_left (update_kernel m c (st_dt stp) (st_nstages stp) k) (seq 0 (m_n m)) st1 in
    let slot := st_stage (stepper_incr stp) in
    do st3 <- (if c_wd c then ofold (wd_kernel m c slot) (seq 0 (m_n m)) st2 else Ok st2) ;
    if c_sl c then ofold (sl_kernel m slot) (seq 0 (m_n m)) (sl_prepare m slot st3) else Ok st3.

  (** Lines 27-84. *)
  Definition ehdg_stage (x : estate * stepper) : outcome (estate * stepper) :=
    let '(s, stp) := x in
    let k := st_stage stp in
    let t := time_at_stage stp in
    let s1 := global_step t k s in
    do st <- finish (local_rhs t k (es_F s1) (es_m s1)) stp ;
    Ok (EState st (es_q s1) (es_F s1) (es_qh s1), stepper_incr stp).
  (** Lines 8-25. *)
  Definition ehdg_stages (n : nat) (x : estate * stepper) : outcome (estate * stepper) :=
    ofold (fun x _ => ehdg_stage x) (seq 0 n) x.
  Definition ehdg_step (x : estate * stepper) : outcome (estate * stepper) := ehdg_stages (st_nstages (snd x)) x.
End Kernels.

(** ehdg_swe_pre_init_global_prob.hpp lines 24 and 39: the traces start at zero.  The
    buffers are allocated without initial values. *)
Definition ehdg_start (st : mstate) (q F : nat -> nat -> nat -> vec3 R) : estate := EState st q F (fun _ _ _ => 0).

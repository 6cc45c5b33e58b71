(** The distributed explicit HDG shallow-water solver: preprocessing of the edges on
    rank boundaries and one stage,
    problem/SWE/discretization_EHDG/kernels_preprocessor/ehdg_swe_pre_init_global_prob.hpp,
    kernels_processor/ehdg_swe_proc_ompi_step.hpp lines 32-156 and the kernels for
    distributed faces.  Units, rank boundaries, delivery and what is left out are as in
    ModelPar; communication types are 1 = init_global_prob, 2 = bound_state,
    3 = baryctr_state. *)
From Coq Require Import Reals QArith NArith List Bool Arith.
From Verif Require Import Num ModelSWE Outcome ModelShape ModelBasis ModelJac ModelStepper ModelWetDry ModelSlope ModelStep ModelIHDG ModelEHDG ModelComm ModelPar.
Import ListNotations.
Open Scope R_scope.

(** The mesh of a unit: its own interfaces and boundaries. *)
Definition unit_mesh (m : mesh) (su : submesh) : mesh :=
  Mesh (m_n m) (m_p m) (m_nodes m) (m_rule2 m) (m_rule1 m) (m_aux m) (m_db m) (m_faux m) (m_src m) (m_fs m)
    (su_intfaces su) (su_bounds su) (m_bath m) (m_bath_min m) (m_sl m).

(** The face data of a unit: those of [estate], and the bathymetry of the edges on rank
    boundaries, by own element, own face and Gauss point.  The traces are by position in
    [su_bounds]. *)
Record faces := Faces {
  fc_q : nat -> nat -> nat -> vec3 R; fc_F : nat -> nat -> nat -> vec3 R; fc_qh : nat -> coeffs;
  fc_bath : nat -> nat -> nat -> R }.

Section EPar.
  Context (m : mesh) (c : config).
  Context (solve_sle : nat -> (nat -> nat -> R) -> (nat -> R) -> nat -> R).

  (** ** Preprocessing *)
  (** ehdg_swe_pre_init_global_prob.hpp lines 49-76. *)
  Definition bath_message (d : dface) : list R := map (fun gp => bath (m_faux m (df_elt d) (df_id d) gp)) (seq 0 (ngp1 m)).
  Definition send_baths (su : submesh) (u : ustate) (r : nat) : outcome (list (list R)) :=
    let rb := rank_of su r in
    send_all (offsets_of EHDG m rb) 1 (fun i => bath_message (face_of rb i)) (order_of su r) (u_send u r).
  (** Lines 79-101: bath_ex[ngp - gp - 1] = message[gp]. *)
  Definition mirrored (msg : list R) : nat -> R :=
    fold_left (fun b gp => upd b (ngp1 m - gp - 1)%nat (nth gp msg 0)) (seq 0 (ngp1 m)) (fun _ => 0).
  Definition receive_bath (su : submesh) (recv : nat -> list (list R)) (fc : faces) (x : nat * nat) : outcome faces :=
    let rb := rank_of su (fst x) in
    let d := face_of rb (snd x) in
    do msg <- receive (offsets_of EHDG m rb) 1 (snd x) (ngp1 m) (recv (fst x)) ;
    let bath_ex := mirrored msg in
    Ok (Faces (fc_q fc) (fc_F fc) (fc_qh fc)
          (set2 (fc_bath fc) (df_elt d) (df_id d) (fun gp => (bath (m_faux m (df_elt d) (df_id d) gp) + bath_ex gp) / 2))).

  (** ** One stage *)
  (** ehdg_swe_proc_dbound.hpp line 12; the message sent is [face_message] of these values. *)
  Definition global_distributed (k : nat) (su : submesh) (st : mstate) (q : nat -> nat -> nat -> vec3 R) (x : nat * nat) : nat -> nat -> nat -> vec3 R :=
    let d := face_of (rank_of su (fst x)) (snd x) in
    set_face q (df_elt d) (df_id d) (ngp1 m) (q_face m st k (df_elt d) (df_id d)).
  (** ehdg_swe_proc_ompi_step.hpp lines 46-72: the global step before the receive. *)
  Definition unit_global (t : R) (k : nat) (su : submesh) (st : mstate) (fc : faces) : faces :=
    let q := fold_left (global_distributed k su st) (su_visit su) (fc_q fc) in
    let s := global_step (unit_mesh m su) c solve_sle t k (EState st q (fc_F fc) (fc_qh fc)) in
    Faces (es_q s) (es_F s) (es_qh s) (fc_bath fc).
  (** Lines 75-86. *)
  Definition unit_local (t : R) (k : nat) (su : submesh) (F : nat -> nat -> nat -> vec3 R) (st : mstate) : mstate :=
    let st1 := fold_left (local_volume m c k) (su_elts su) st in
    let st2 := fold_left (source_kernel m c t k) (su_elts su) st1 in
    let st3 := fold_left (local_interface m F k) (su_intfaces su) st2 in
    fold_left (local_boundary m F k) (su_bounds su) st3.
  (** ehdg_swe_dbc_distributed.hpp lines 40-139; ehdg_swe_dbc_distributed_levee.hpp lines
      59-61: a levee computes nothing. *)
  Definition edge_distributed (su : submesh) (recv : nat -> list (list R)) (st : mstate) (fc : faces) (x : nat * nat) : outcome faces :=
    let rb := rank_of su (fst x) in
    let d := face_of rb (snd x) in
    match df_kind d with
    | Internal =>
        do msg <- receive (offsets_of EHDG m rb) 2 (snd x) (1 + 3 * ngp1 m) (recv (fst x)) ;
        let wet_ex := decode_wet msg in
        let q_ex := decode_q_ex (ngp1 m) msg in
        let wet_in := ms_wet st (df_elt d) in
        let n := normal m (df_elt d) (df_id d) in
        if wet_in || wet_ex then
          Ok (Faces (fc_q fc)
                (set_face (fc_F fc) (df_elt d) (df_id d) (ngp1 m) (fun gp =>
                   ehdg_distributed_point (c_g c) wet_in wet_ex (fc_q fc (df_elt d) (df_id d) gp) (q_ex gp)
                     (Aux (fc_bath fc (df_elt d) (df_id d) gp) 0 0) n))
                (fc_qh fc) (fc_bath fc))
        else Ok fc
    | Levee _ => Ok fc
    end.
  (** ehdg_swe_proc_dbound.hpp lines 31-48. *)
  Definition local_distributed (k : nat) (su : submesh) (recv : nat -> list (list R)) (F : nat -> nat -> nat -> vec3 R) (st : mstate) (x : nat * nat) : outcome mstate :=
    let rb := rank_of su (fst x) in
    let d := face_of rb (snd x) in
    do w <- receive (offsets_of EHDG m rb) 2 (snd x) 1 (recv (fst x)) ;
    if ms_wet st (df_elt d) || decode_wet w then
      Ok (set_rhs st (df_elt d) k (csub (ms_rhs st (df_elt d) k)
            (integration_face m (df_elt d) (df_id d) (df_id d) (F (df_elt d) (df_id d)))))
    else Ok st.
  (** Lines 46-122 for one unit.  CallForEachEdgeDistributed may visit the faces in
      another order than CallForEachDistributedBoundary; the faces are independent. *)
  Definition unit_stage (t dt : R) (nstages k : nat) (su : submesh) (recv : nat -> list (list R)) (st : mstate) (fc : faces) : outcome (mstate * faces) :=
    let fc1 := unit_global t k su st fc in
    let st1 := unit_local t k su (fc_F fc1) st in
    do fc2 <- ofold (edge_distributed su recv st) (su_visit su) fc1 ;
    do st2 <- ofold (local_distributed k su recv (fc_F fc2)) (su_visit su) st1 ;
    Ok (fold_left (update_kernel m c dt nstages k) (su_elts su) st2, fc2).

  Context (subs : list submesh).
  (** ehdg_swe_pre_ompi.hpp lines 33-51; the traces start at zero
      (ehdg_swe_pre_init_global_prob.hpp lines 24 and 39). *)
  Definition ehdg_init_par (us : nat -> ustate) (q F : nat -> nat -> nat -> nat -> vec3 R) (b : nat -> nat -> nat -> nat -> R) : outcome ((nat -> ustate) * (nat -> faces)) :=
    let fs i := Faces (q i) (F i) (fun _ _ _ => 0) (b i) in
    do us1 <- exchange subs send_baths us ;
    do fs1 <- for_all (length subs) (fun i => ofold (receive_bath (sub subs i) (delivered subs us1 i)) (su_visit (sub subs i)) (fs i)) fs ;
    Ok (us1, fs1).
  Definition ehdg_stage_par (x : (nat -> ustate) * (nat -> faces) * stepper) : outcome ((nat -> ustate) * (nat -> faces) * stepper) :=
    let '(us, fs, stp) := x in
    let k := st_stage stp in
    do us1 <- exchange subs (send_states_of EHDG 2 m k) us ;
    do r <- for_all (length subs) (fun i =>
              unit_stage (time_at_stage stp) (st_dt stp) (st_nstages stp) k (sub subs i) (delivered subs us1 i) (u_st (us1 i)) (fs i))
              (fun i => (u_st (us1 i), fs i)) ;
    let stp' := stepper_incr stp in
    do us2 <- finish_par m c subs EHDG 3 (st_stage stp') (fun i => UState (fst (r i)) (u_send (us1 i))) ;
    Ok (us2, fun i => snd (r i), stp').
  (** Lines 9-29. *)
  Definition ehdg_stages_par (n : nat) (x : (nat -> ustate) * (nat -> faces) * stepper) : outcome ((nat -> ustate) * (nat -> faces) * stepper) :=
    ofold (fun x _ => ehdg_stage_par x) (seq 0 n) x.
  Definition ehdg_step_par (x : (nat -> ustate) * (nat -> faces) * stepper) : outcome ((nat -> ustate) * (nat -> faces) * stepper) :=
    ehdg_stages_par (st_nstages (snd x)) x.
End EPar.

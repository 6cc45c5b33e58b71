(** One stage of the distributed RKDG shallow-water solver:
    problem/SWE/discretization_RKDG/kernels_processor/rkdg_swe_proc_ompi_step.hpp
    lines 33-133 with the kernels for distributed faces.

    Each submesh (simulation unit) has its own state and its own send buffers; it
    changes nothing else, so the order in which units and threads run inside a
    phase does not matter, and only the messages tie the phases together.  The
    receive buffer of a rank boundary equals, after WaitAllReceives, the send
    buffer of its partner for the same communication type (as in ModelComm).
    Elements keep their global number, so a unit's state is indexed by it; the
    geometry comes from the same record as in the serial model, of which only the
    entries of the unit's own elements are read.  Input, output, the NaN check and
    check_trouble are left out as in ModelStep. *)
From Coq Require Import Reals QArith NArith List Bool Arith.
From Verif Require Import Num ModelSWE Outcome ModelShape ModelBasis ModelJac ModelStepper ModelWetDry ModelSlope ModelStep ModelComm.
Import ListNotations.
Open Scope R_scope.

(** A face on a rank boundary: own element, own face number, specialisation
    (DBC::Distributed or DBC::DistributedLevee). *)
Record dface := DFace { df_elt : nat; df_id : nat; df_kind : is_kind }.
(** A rank boundary: unit and rank boundary it is connected to, and its faces in
    the order of the .dbmd file (swe_pre_create_dbound.hpp lines 30-133). *)
Record rankb := RankB { rb_unit : nat; rb_index : nat; rb_faces : list dface }.
(** A submesh: elements, interfaces, boundaries and rank boundaries;
    [su_visit] lists (rank boundary, face) in the order of
    CallForEachDistributedBoundary. *)
Record submesh := SubMesh {
  su_elts : list nat; su_intfaces : list intface; su_bounds : list bound;
  su_rankbs : list rankb; su_visit : list (nat * nat) }.

(** State of a unit: element data, and per rank boundary the send buffers of the
    communication types. *)
Record ustate := UState { u_st : mstate; u_send : nat -> list (list R) }.

(** Shared by the schemes [sch], which number their communication types differently. *)
Section Shared.
  Context (sch : scheme) (cc : nat) (m : mesh).
  Definition offsets_of (rb : rankb) : list (list N) := fst (layout sch (map (fun _ => N.of_nat (ngp1 m)) (rb_faces rb))).
  Definition no_face : dface := DFace 0 0 Internal.
  Definition face_of (rb : rankb) (i : nat) : dface := nth i (rb_faces rb) no_face.
  Definition rank_of (su : submesh) (r : nat) : rankb := nth r (su_rankbs su) (RankB 0 0 []).
  (** The faces of rank boundary [r] in the order in which they are visited. *)
  Definition order_of (su : submesh) (r : nat) : list nat := map snd (filter (fun x => Nat.eqb (fst x) r) (su_visit su)).

  (** rkdg_swe_proc_dbound.hpp lines 7-27 and ehdg_swe_proc_dbound.hpp lines 7-29;
      [cc] is the communication type bound_state. *)
  Definition face_message (k : nat) (st : mstate) (d : dface) : list R :=
    bound_message (ms_wet st (df_elt d)) (ngp1 m) (q_face m st k (df_elt d) (df_id d)).
  Definition send_states_of (k : nat) (su : submesh) (u : ustate) (r : nat) : outcome (list (list R)) :=
    let rb := rank_of su r in
    send_all (offsets_of rb) cc (fun i => face_message k (u_st u) (face_of rb i)) (order_of su r) (u_send u r).

  (** swe_CS_slope_limiter.hpp lines 48-72; [cc] is the communication type baryctr_state. *)
  Definition centre_message (slot : nat) (st : mstate) (d : dface) : list R :=
    let wet := ms_wet st (df_elt d) in
    of_bool wet ::
    (if wet then
       map (centre_of m slot st (df_elt d)) (seq 0 3) ++
       map (fun gp => ze (q_face m st slot (df_elt d) (df_id d) gp) + bath (m_faux m (df_elt d) (df_id d) gp)) (seq 0 (ngp1 m))
     else repeat 0 (3 + ngp1 m)).
  Definition send_centres_of (slot : nat) (su : submesh) (u : ustate) (r : nat) : outcome (list (list R)) :=
    let rb := rank_of su r in
    send_all (offsets_of rb) cc (fun i => centre_message slot (u_st u) (face_of rb i)) (order_of su r) (u_send u r).
  (** Lines 74-86. *)
  Definition prepare_dface_of (su : submesh) (recv : nat -> list (list R)) (s : sl_mesh) (x : nat * nat) : outcome sl_mesh :=
    let rb := rank_of su (fst x) in
    let d := face_of rb (snd x) in
    do msg <- receive (offsets_of rb) cc (snd x) (1 + 3) (recv (fst x)) ;
    Ok (SlMesh (set2 (n_wet s) (df_elt d) (df_id d) (decode_wet msg))
               (set2 (n_q s) (df_elt d) (df_id d) (fun var => nth (1 + var) msg 0))).
  (** swe_CS_sl_ompi.hpp lines 32-68 for one unit. *)
  Definition unit_limit_of (slot : nat) (su : submesh) (recv : nat -> list (list R)) (st : mstate) : outcome mstate :=
    let faces := map (fun f => Intface (i_in f) (i_bin f) (i_ex f) (i_bex f)) (su_intfaces su) ++
                 map (fun b => Bound (b_elt b) (b_id b)) (su_bounds su) in
    let s1 := prepare_faces (ms_wet st) (centre_of m slot st) (ms_slm st) faces in
    do s2 <- ofold (prepare_dface_of su recv) (su_visit su) s1 ;
    ofold (sl_kernel m slot) (su_elts su) (MState (ms_q st) (ms_rhs st) (ms_sol st) (ms_wet st) (ms_cd st) s2).

  (** Buffers after create_distributed_boundaries. *)
  Definition init_send_of (subs : list submesh) (i r : nat) : list (list R) :=
    buffers sch (map (fun _ => N.of_nat (ngp1 m)) (rb_faces (rank_of (nth i subs (SubMesh [] [] [] [] [])) r))).
End Shared.
Notation offsets := (offsets_of RKDG).
Notation send_states := (send_states_of RKDG 1).
Notation init_send := (init_send_of RKDG).

Section Par.
  Context (m : mesh) (c : config).

  (** rkdg_swe_dbc_distributed_levee.hpp lines 64-160, the loop over Gauss points. *)
  Definition dist_levee_flux (data : nat -> R * R * R) (wet_in : bool) (msg : list R)
      (q_in : nat -> vec3 R) (a : nat -> aux3 R) (n : nat -> vec2 R) (F0 : nat -> vec3 R) : nat -> vec3 R :=
    let q_ex := decode_q_ex (ngp1 m) msg in
    fold_left (fun F gp =>
      let '(H, cs, cp) := data gp in
      upd F gp (dist_levee_point (c_g c) H cs cp wet_in (q_in gp) (q_ex gp) (a gp) (n gp))) (seq 0 (ngp1 m)) F0.
  Definition dface_flux (k : nat) (st : mstate) (msg : list R) (d : dface) : nat -> vec3 R :=
    let wet := ms_wet st (df_elt d) in
    let q := q_face m st k (df_elt d) (df_id d) in
    let a := m_faux m (df_elt d) (df_id d) in
    let n := normal m (df_elt d) (df_id d) in
    match df_kind d with
    | Internal => distributed_flux (c_g c) wet (ngp1 m) msg q a (fun _ => n) (fun _ => vzero)
    | Levee data => dist_levee_flux data wet msg q a (fun _ => n) (fun _ => vzero)
    end.
  (** rkdg_swe_proc_dbound.hpp lines 30-50; communication type 1 is bound_state, [recv] are the receive buffers of the
      rank boundary.  The wet flag is read first, the whole message in
      ComputeFlux (rkdg_swe_dbc_distributed.hpp lines 38-98). *)
  Definition dbound_kernel (k : nat) (su : submesh) (recv : nat -> list (list R)) (st : mstate) (x : nat * nat) : outcome mstate :=
    let rb := rank_of su (fst x) in
    let d := face_of rb (snd x) in
    do w <- receive (offsets m rb) 1 (snd x) 1 (recv (fst x)) ;
    if ms_wet st (df_elt d) || decode_wet w then
      do msg <- receive (offsets m rb) 1 (snd x) (1 + 3 * ngp1 m) (recv (fst x)) ;
      Ok (set_rhs st (df_elt d) k (csub (ms_rhs st (df_elt d) k)
            (integration_face m (df_elt d) (df_id d) (df_id d) (dface_flux k st msg d))))
    else Ok st.

  (** Lines 62-98: the kernels of one unit up to UpdateState. *)
  Definition unit_update (t dt : R) (nstages k : nat) (su : submesh) (recv : nat -> list (list R)) (st : mstate) : outcome mstate :=
    let st1 := fold_left (volume_kernel m c k) (su_elts su) st in
    let st2 := fold_left (source_kernel m c t k) (su_elts su) st1 in
    let st3 := fold_left (interface_kernel m c k) (su_intfaces su) st2 in
    let st4 := fold_left (boundary_kernel m c t k) (su_bounds su) st3 in
    do st5 <- ofold (dbound_kernel k su recv) (su_visit su) st4 ;
    Ok (fold_left (update_kernel m c dt nstages k) (su_elts su) st5).

  (** A phase run by the units 0 .. n-1, or by the rank boundaries of a unit. *)
  Definition for_all {A : Type} (n : nat) (f : nat -> outcome A) (old : nat -> A) : outcome (nat -> A) :=
    ofold (fun acc i => do x <- f i ; Ok (upd acc i x)) (seq 0 n) old.

  Context (subs : list submesh).
  Definition sub (i : nat) : submesh := nth i subs (SubMesh [] [] [] [] []).
  (** Delivery: rank boundary [r] of unit [i] receives what its partner sent. *)
  Definition delivered (us : nat -> ustate) (i r : nat) : list (list R) :=
    let rb := rank_of (sub i) r in u_send (us (rb_unit rb)) (rb_index rb).
  Definition exchange (send : submesh -> ustate -> nat -> outcome (list (list R))) (us : nat -> ustate) : outcome (nat -> ustate) :=
    for_all (length subs) (fun i =>
      do b <- for_all (length (su_rankbs (sub i))) (send (sub i) (us i)) (u_send (us i)) ;
      Ok (UState (u_st (us i)) b)) us.
  Definition on_units (f : nat -> mstate -> outcome mstate) (us : nat -> ustate) : outcome (nat -> ustate) :=
    for_all (length subs) (fun i => do st <- f i (u_st (us i)) ; Ok (UState st (u_send (us i)))) us.

  (** rkdg_swe_proc_ompi_step.hpp lines 106-116, ehdg_swe_proc_ompi_step.hpp lines
      130-140: wetting and drying and limiting; [cc] is baryctr_state. *)
  Definition finish_par (sch : scheme) (cc slot : nat) (us2 : nat -> ustate) : outcome (nat -> ustate) :=
    do us3 <- (if c_wd c then on_units (fun i => ofold (wd_kernel m c slot) (su_elts (sub i))) us2 else Ok us2) ;
    if c_sl c then
      do us' <- exchange (send_centres_of sch cc m slot) us3 ;
      on_units (fun i => unit_limit_of sch cc m slot (sub i) (delivered us' i)) us'
    else Ok us3.

  Definition stage_par (s : (nat -> ustate) * stepper) : outcome ((nat -> ustate) * stepper) :=
    let '(us, stp) := s in
    let k := st_stage stp in
    do us1 <- exchange (send_states m k) us ;
    do us2 <- on_units (fun i => unit_update (time_at_stage stp) (st_dt stp) (st_nstages stp) k (sub i) (delivered us1 i)) us1 ;
    let stp' := stepper_incr stp in
    let slot := st_stage stp' in
    do us4 <- finish_par RKDG 2 slot us2 ;
    Ok (us4, stp').
  (** Lines 10-31. *)
  Definition stages_par (n : nat) (s : (nat -> ustate) * stepper) : outcome ((nat -> ustate) * stepper) :=
    ofold (fun s _ => stage_par s) (seq 0 n) s.
  Definition step_par (s : (nat -> ustate) * stepper) : outcome ((nat -> ustate) * stepper) := stages_par (st_nstages (snd s)) s.
End Par.

(** One stage and one step of the serial RKDG shallow-water solver on a whole mesh:
    problem/SWE/discretization_RKDG/kernels_processor/rkdg_swe_proc_serial_step.hpp
    with the kernels it calls.  Reals for double.  Straight triangles, one order
    for all elements.  Matrix products are sums in index order.  The NaN check
    (lines 59-66), input parsing (lines 16-18), output and check_trouble (whose
    result no shallow-water kernel reads; ModelTrouble, ModelGN) are left out. *)
From Coq Require Import Reals QArith List Bool Arith.
From Verif Require Import Num ModelSWE Outcome ModelShape ModelBasis ModelJac ModelStepper ModelWetDry ModelSlope.
Import ListNotations.
Open Scope R_scope.

(** Interface specialisations (rkdg_swe_is_internal.hpp, rkdg_swe_is_levee.hpp);
    levee data per Gauss point: crest, subcritical and supercritical coefficient. *)
Inductive is_kind := Internal | Levee (data : nat -> R * R * R).
Record intface := Intf { i_in : nat; i_bin : nat; i_ex : nat; i_bex : nat; i_kind : is_kind }.
(** Boundary conditions: Land, or an exterior state depending on time, Gauss
    point, normal and interior state (rkdg_swe_bc_flow.hpp, rkdg_swe_bc_tide.hpp,
    rkdg_swe_bc_function.hpp all end in LLF_flux of such a state). *)
Inductive bc_kind := Land | Exterior (ex : R -> nat -> vec2 R -> vec3 R -> vec3 R).
Record bound := Bnd { b_elt : nat; b_id : nat; b_bc : bc_kind }.

Record mesh := Mesh {
  m_n : nat;                               (* number of elements *)
  m_p : nat;                               (* polynomial order *)
  m_nodes : nat -> nodes;                  (* shape.nodal_coordinates *)
  m_rule2 : list (R * point);              (* master integration rule: weights, points *)
  m_rule1 : list (R * R);                  (* face integration rule of order 2p+1 *)
  m_aux : nat -> nat -> aux3 R;            (* internal.aux_at_gp, bath and sp *)
  m_db : nat -> nat -> vec2 R;             (* internal.db_at_gp *)
  m_faux : nat -> nat -> nat -> aux3 R;    (* boundary[b].aux_at_gp *)
  m_src : nat -> source_in;
  m_fs : option (R -> nat -> nat -> vec3 R);  (* function_source at time, element, gp *)
  m_intfaces : list intface;
  m_bounds : list bound;
  m_bath : nat -> nat -> R;                (* wet_dry_state.bath_at_vrtx *)
  m_bath_min : nat -> R;
  m_sl : nat -> sl_in }.                   (* limiter geometry; sl_neigh is not used *)

Record config := Config {
  c_g : R; c_A : list (list Q); c_B : list (list Q);
  c_wd : bool; c_h_o : R; c_thr : R;       (* PostProcessing::wetting_drying, h_o, h_o_threshold *)
  c_sl : bool }.                           (* PostProcessing::slope_limiting *)

(** Per element: state[slot].q, .rhs, .solution by row and dof; flags. *)
Definition coeffs := nat -> nat -> R.
Record mstate := MState {
  ms_q : nat -> nat -> coeffs; ms_rhs : nat -> nat -> coeffs; ms_sol : nat -> nat -> coeffs;
  ms_wet : nat -> bool; ms_cd : nat -> bool; ms_slm : sl_mesh }.

Definition set_rhs (st : mstate) (e k : nat) (M : coeffs) : mstate :=
  MState (ms_q st) (upd (ms_rhs st) e (upd (ms_rhs st e) k M)) (ms_sol st) (ms_wet st) (ms_cd st) (ms_slm st).
Definition cadd (A B : coeffs) : coeffs := fun v d => A v d + B v d.
Definition csub (A B : coeffs) : coeffs := fun v d => A v d - B v d.

Section Kernels.
  Context (m : mesh) (c : config).

  Definition ndof : nat := dubiner_ndof (m_p m).
  Definition ngp2 : nat := length (m_rule2 m).
  Definition ngp1 : nat := length (m_rule1 m).
  Definition w2 (gp : nat) : R := fst (nth gp (m_rule2 m) (0, (0, 0))).
  Definition z2 (gp : nat) : point := snd (nth gp (m_rule2 m) (0, (0, 0))).
  Definition w1 (gp : nat) : R := fst (nth gp (m_rule1 m) (0, 0)).
  Definition z1 (gp : nat) : R := snd (nth gp (m_rule1 m) (0, 0)).

  Definition vget (v : vec3 R) (var : nat) : R := match var with 0%nat => ze v | 1%nat => qx v | _ => qy v end.
  (** ComputeUgp at a master point: u * phi. *)
  Definition expand (q : coeffs) (z : point) : vec3 R :=
    let row var := vmsum ndof (fun dof => q var dof * GetPhi dof z) in V3 (row 0%nat) (row 1%nat) (row 2%nat).

  (** geometry/element.hpp lines 219-246: IntegrationDPhi in direction x and y,
      IntegrationPhi. *)
  Definition integration_dphi (e : nat) (dir : point -> R) (u : nat -> vec3 R) : coeffs := fun var dof =>
    vmsum ngp2 (fun gp => vget (u gp) var *
      (w2 gp * dir (physical_derivative (m_nodes m e) (GetDPhi dof (z2 gp))) * Rabs (GetJdet (m_nodes m e)))).
  Definition integration_phi (e : nat) (u : nat -> vec3 R) : coeffs := fun var dof =>
    vmsum ngp2 (fun gp => vget (u gp) var * (w2 gp * GetPhi dof (z2 gp) * Rabs (GetJdet (m_nodes m e)))).
  (** geometry/interface.hpp and boundary.hpp: IntegrationPhi over a face; the
      length factor is that of the element [e_len] and its face [b_len]. *)
  Definition integration_face (e_len b_len b : nat) (u : nat -> vec3 R) : coeffs := fun var dof =>
    vmsum ngp1 (fun gp => vget (u gp) var *
      (GetPhi dof (BoundaryToMasterCoordinates b (z1 gp)) * (w1 gp * GetSurfaceJ (m_nodes m e_len) b_len))).

  (** internal.q_at_gp, and aux_at_gp with the depth row refreshed. *)
  Definition q_gp (st : mstate) (k e gp : nat) : vec3 R := expand (ms_q st e k) (z2 gp).
  Definition aux_gp (st : mstate) (k e gp : nat) : aux3 R :=
    Aux (bath (m_aux m e gp)) (ze (q_gp st k e gp) + bath (m_aux m e gp)) (sp (m_aux m e gp)).

  (** rkdg_swe_proc_volume.hpp lines 9-35. *)
  Definition volume_kernel (k : nat) (st : mstate) (e : nat) : mstate :=
    if ms_wet st e then
      let F gp := get_F (c_g c) (q_gp st k e gp) (aux_gp st k e gp) in
      set_rhs st e k (cadd (integration_dphi e fst (fun gp => vscale (sp (m_aux m e gp)) (fst (F gp))))
                           (integration_dphi e snd (fun gp => snd (F gp))))
    else set_rhs st e k (fun _ _ => 0).

  (** rkdg_swe_proc_source.hpp lines 9-18. *)
  Definition source_at (t : R) (k : nat) (st : mstate) (e : nat) : nat -> vec3 R :=
    get_source (c_g c) (m_src m e) (option_map (fun f => f t e) (m_fs m)) ngp2 (q_gp st k e) (aux_gp st k e) (m_db m e).
  Definition source_kernel (t : R) (k : nat) (st : mstate) (e : nat) : mstate :=
    if ms_wet st e then set_rhs st e k (cadd (ms_rhs st e k) (integration_phi e (source_at t k st e))) else st.

  (** Normals of a face: interface.hpp and boundary.hpp constructors. *)
  Definition normal (e b : nat) : vec2 R := let nm := GetSurfaceNormal (m_nodes m e) b in V2 (fst nm) (snd nm).
  Definition opp (n : vec2 R) : vec2 R := V2 (- nx n) (- ny n).
  Definition q_face (st : mstate) (k e b gp : nat) : vec3 R := expand (ms_q st e k) (BoundaryToMasterCoordinates b (z1 gp)).

  (** rkdg_swe_is_levee.hpp lines 79-172, the loop over Gauss points. *)
  Definition levee_flux (data : nat -> R * R * R) (wet_in wet_ex : bool) (q_in q_ex : nat -> vec3 R)
      (a_in a_ex : nat -> aux3 R) (n_in n_ex : nat -> vec2 R) (F0 : (nat -> vec3 R) * (nat -> vec3 R)) :=
    fold_left (fun F gp =>
      let gp_ex := (ngp1 - gp - 1)%nat in
      let '(H, cs, cp) := data gp in
      let P := levee_point (c_g c) H cs cp wet_in wet_ex (q_in gp) (q_ex gp_ex) (a_in gp) (a_ex gp_ex) (n_in gp) (n_ex gp_ex) in
      (upd (fst F) gp (fst P), upd (snd F) gp_ex (snd P))) (seq 0 ngp1) F0.

  (** F_hat_at_gp of both sides. *)
  Definition interface_flux (k : nat) (st : mstate) (f : intface) : (nat -> vec3 R) * (nat -> vec3 R) :=
    let F0 := (fun _ => vzero, fun _ => vzero) in
    let n_in := normal (i_in f) (i_bin f) in
    let q_in := q_face st k (i_in f) (i_bin f) in
    let q_ex := q_face st k (i_ex f) (i_bex f) in
    let a_in := m_faux m (i_in f) (i_bin f) in
    let a_ex := m_faux m (i_ex f) (i_bex f) in
    match i_kind f with
    | Internal => internal_flux (c_g c) (ms_wet st (i_in f)) (ms_wet st (i_ex f)) ngp1 q_in q_ex a_in a_ex
                    (fun _ => n_in) (fun _ => opp n_in) F0
    | Levee data => levee_flux data (ms_wet st (i_in f)) (ms_wet st (i_ex f)) q_in q_ex a_in a_ex
                    (fun _ => n_in) (fun _ => opp n_in) F0
    end.

  (** rkdg_swe_proc_intface.hpp lines 7-25. *)
  Definition interface_kernel (k : nat) (st : mstate) (f : intface) : mstate :=
    if ms_wet st (i_in f) || ms_wet st (i_ex f) then
      let F := interface_flux k st f in
      let st1 := set_rhs st (i_in f) k (csub (ms_rhs st (i_in f) k) (integration_face (i_in f) (i_bin f) (i_bin f) (fst F))) in
      set_rhs st1 (i_ex f) k (csub (ms_rhs st1 (i_ex f) k) (integration_face (i_in f) (i_bin f) (i_bex f) (snd F)))
    else st.

  Definition boundary_flux (t : R) (k : nat) (st : mstate) (b : bound) (gp : nat) : vec3 R :=
    let n := normal (b_elt b) (b_id b) in
    let q := q_face st k (b_elt b) (b_id b) gp in
    let a := m_faux m (b_elt b) (b_id b) gp in
    match b_bc b with
    | Land => land_flux (c_g c) n q a
    | Exterior ex => LLF_flux (c_g c) q (ex t gp n q) a n
    end.
  (** rkdg_swe_proc_bound.hpp lines 7-19. *)
  Definition boundary_kernel (t : R) (k : nat) (st : mstate) (b : bound) : mstate :=
    if ms_wet st (b_elt b) then
      set_rhs st (b_elt b) k (csub (ms_rhs st (b_elt b) k)
        (integration_face (b_elt b) (b_id b) (b_id b) (boundary_flux t k st b)))
    else st.

  (** rkdg_swe_proc_serial_step.hpp lines 32-39. *)
  Definition rhs_kernels (t : R) (k : nat) (st : mstate) : mstate :=
    let st1 := fold_left (volume_kernel k) (seq 0 (m_n m)) st in
    let st2 := fold_left (source_kernel t k) (seq 0 (m_n m)) st1 in
    let st3 := fold_left (interface_kernel k) (m_intfaces m) st2 in
    fold_left (boundary_kernel t k) (m_bounds m) st3.

  (** element.hpp ApplyMinv, with m_inv of line 262. *)
  Definition apply_minv (e : nat) (rhs : coeffs) : coeffs := fun var dof =>
    vmsum ndof (fun i => rhs var i * element_minv (m_nodes m e) (GetMinv i dof)).

  (** Lines 41-47 with UpdateState (explicit_ssp_rk_stepper.hpp lines 67-80). *)
  Definition update_kernel (dt : R) (nstages k : nat) (st : mstate) (e : nat) : mstate :=
    let sol := upd (ms_sol st e) k (apply_minv e (ms_rhs st e k)) in
    let flat (f : nat -> coeffs) := fun s (i : nat * nat) => f s (fst i) (snd i) in
    let next := next_state (c_A c) (c_B c) dt k (flat (ms_q st e)) (flat sol) in
    let q := upd (ms_q st e) (k + 1) (fun var dof => next (var, dof)) in
    let q' := if Nat.eqb (k + 1) nstages then upd (upd q 0 (q nstages)) nstages (q 0%nat) else q in
    MState (upd (ms_q st) e q') (ms_rhs st) (upd (ms_sol st) e sol) (ms_wet st) (ms_cd st) (ms_slm st).

  (** Line 52: the wetting and drying kernel on state[slot]. *)
  Definition wd_kernel (slot : nat) (st : mstate) (e : nat) : outcome mstate :=
    do r <- wetting_drying_kernel (m_p m) (c_h_o c) (c_thr c) (m_bath m e) (m_bath_min m e)
              (EltWD (ms_q st e slot) (ms_rhs st e slot) (ms_wet st e) (ms_cd st e)) ;
    Ok (MState (upd (ms_q st) e (upd (ms_q st e) slot (e_q r))) (upd (ms_rhs st) e (upd (ms_rhs st e) slot (e_rhs r)))
          (ms_sol st) (upd (ms_wet st) e (e_wet r)) (upd (ms_cd st) e (e_completely_dry r)) (ms_slm st)).

  (** Line 56, swe_CS_sl_serial.hpp lines 10-23: centre values, exchange over the
      faces, limiting.  Centre values of dry elements are not read. *)
  Definition centre_of (slot : nat) (st : mstate) (e : nat) : vec := fun var =>
    match ProjectBasisToLinear (m_p m) (ms_q st e slot var) with Ok l => u_baryctr l | _ => 0 end.
  Definition sl_faces : list sl_face :=
    map (fun f => Intface (i_in f) (i_bin f) (i_ex f) (i_bex f)) (m_intfaces m) ++
    map (fun b => Bound (b_elt b) (b_id b)) (m_bounds m).
  Definition sl_prepare (slot : nat) (st : mstate) : mstate :=
    MState (ms_q st) (ms_rhs st) (ms_sol st) (ms_wet st) (ms_cd st)
      (prepare_faces (ms_wet st) (centre_of slot st) (ms_slm st) sl_faces).
  Definition sl_kernel (slot : nat) (st : mstate) (e : nat) : outcome mstate :=
    let s := m_sl m e in
    let s' := SlIn (sl_g s) (sl_M s) (sl_nu s) (sl_med s) (sl_al s) (sl_rs s) (sl_bath s) (n_q (ms_slm st) e) in
    do q <- slope_limiting_kernel (m_p m) s' (ms_wet st e) (map (n_wet (ms_slm st) e) (seq 0 3)) (ms_q st e slot) ;
    Ok (MState (upd (ms_q st) e (upd (ms_q st e) slot q)) (ms_rhs st) (ms_sol st) (ms_wet st) (ms_cd st) (ms_slm st)).

  (** Lines 29-67. *)
  Definition stage_serial (s : mstate * stepper) : outcome (mstate * stepper) :=
    let '(st, stp) := s in
    let k := st_stage stp in
    let st1 := rhs_kernels (time_at_stage stp) k st in
    let st2 := fold_left (update_kernel (st_dt stp) (st_nstages stp) k) (seq 0 (m_n m)) st1 in
    let stp' := stepper_incr stp in
    let slot := st_stage stp' in
    do st3 <- (if c_wd c then ofold (wd_kernel slot) (seq 0 (m_n m)) st2 else Ok st2) ;
    do st4 <- (if c_sl c then ofold (sl_kernel slot) (seq 0 (m_n m)) (sl_prepare slot st3) else Ok st3) ;
    Ok (st4, stp').

  (** Lines 10-21: the first [n] stages of a step. *)
  Definition stages (n : nat) (s : mstate * stepper) : outcome (mstate * stepper) :=
    ofold (fun s _ => stage_serial s) (seq 0 n) s.
  Definition step_serial (s : mstate * stepper) : outcome (mstate * stepper) := stages (st_nstages (snd s)) s.
End Kernels.

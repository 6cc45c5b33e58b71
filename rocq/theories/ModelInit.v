(** Initial data of the shallow-water problem, serial case:
    problem/SWE/problem_preprocessor/swe_pre_init_data.hpp, initialize_data_serial,
    for constant initial conditions.  Reals for double.  Node coordinates are those
    of the shape (after the constructor), so bathymetry follows the same order.
    Function initial conditions (line 62) are in ModelExamples.  The Manning file (lines 168-195)
    and the Coriolis parameter (lines 198-210, not read by get_source) are in ModelGeo. *)
From Coq Require Import Reals List Bool Arith.
From Verif Require Import Num ModelPi ModelSWE Outcome ModelShape ModelBasis ModelJac ModelStepper ModelWetDry ModelSlope ModelStep.
Import ListNotations.
Open Scope R_scope.

Record input := Input {
  in_n : nat;                             (* number of elements *)
  in_p : nat;
  in_nodes : nat -> nodes;                (* x and y of shape.nodal_coordinates *)
  in_z : nat -> nat -> R;                 (* z of shape.nodal_coordinates *)
  in_rule2 : list (R * point);            (* integration.GetRule(2p) *)
  in_rule1 : list (R * R);                (* integration.GetRule(2p+1) *)
  in_src : nat -> source_in;
  in_fs : option (R -> nat -> nat -> vec3 R);
  in_intfaces : list intface;
  in_bounds : list bound;
  in_sph : option (R * R);                (* spherical projection: R, latitude_o in degrees *)
  in_ic : vec3 R;                         (* ze_initial, qx_initial, qy_initial *)
  in_g : R; in_M : R; in_nu : R }.        (* Global::g, limiter parameters *)

Section Init.
  Context (i : input).

  Definition gp2 (gp : nat) : R * point := nth gp (in_rule2 i) (0, (0, 0)).
  Definition gp1 (gp : nat) : R * R := nth gp (in_rule1 i) (0, 0).
  Definition dofs : nat := dubiner_ndof (in_p i).

  (** geometry/element.hpp lines 315-321, L2ProjectionNode:
      nodal_values * psi_gp * int_phi_fact * m_inv. *)
  Definition l2_node (e : nat) (vals : nat -> R) (dof : nat) : R :=
    vmsum dofs (fun d =>
      vmsum (length (in_rule2 i)) (fun gp => vmsum 3 (fun v => vals v * GetPsi (snd (gp2 gp)) v) *
        (GetPhi d (snd (gp2 gp)) * fst (gp2 gp) * Rabs (GetJdet (in_nodes i e)))) *
      element_minv (in_nodes i e) (GetMinv d dof)).
  (** ComputeUgp and ComputeDUgp (element.hpp lines 362-375) of a row of coefficients. *)
  Definition value_at (u : nat -> R) (z : point) : R := vmsum dofs (fun dof => u dof * GetPhi dof z).
  Definition slope_at (e : nat) (u : nat -> R) (dir : point -> R) (z : point) : R :=
    vmsum dofs (fun dof => u dof * dir (physical_derivative (in_nodes i e) (GetDPhi dof z))).

  (** Lines 20-25. *)
  Definition bath_dofs (e : nat) : nat -> R := l2_node e (in_z i e).
  (** Lines 33-48, 76-101, 114-134: y from the node values (ComputeNodalUgp), then sp. *)
  Definition y_at (e : nat) (z : point) : R := vmsum 3 (fun v => snd (in_nodes i e v) * GetPsi z v).
  Definition sp_at (y : R) : R :=
    match in_sph i with None => 1 | Some (Rad, lat) => cos (lat * code_pi / 180) / cos (y / Rad) end.
  (** Lines 26-31.  The depth row is set later, by every kernel that reads it. *)
  Definition init_aux (e gp : nat) : aux3 R :=
    let z := snd (gp2 gp) in Aux (value_at (bath_dofs e) z) 0 (sp_at (y_at e z)).
  Definition init_db (e gp : nat) : vec2 R :=
    let z := snd (gp2 gp) in V2 (slope_at e (bath_dofs e) fst z) (slope_at e (bath_dofs e) snd z).

  (** aux_at_gp of all faces: element, face, Gauss point. *)
  Definition face_table := nat -> nat -> nat -> aux3 R.
  Definition set_face (t : face_table) (e b gp : nat) (a : aux3 R) : face_table :=
    fun e' b' gp' => if Nat.eqb e' e && Nat.eqb b' b && Nat.eqb gp' gp then a else t e' b' gp'.
  Definition face_point (b gp : nat) : point := BoundaryToMasterCoordinates b (snd (gp1 gp)).
  Definition face_bath (e b gp : nat) : R := value_at (bath_dofs e) (face_point b gp).
  (** Lines 68-103: both sides of an interface get sp from the y of the first side. *)
  Definition init_intface (t : face_table) (f : intface) : face_table :=
    let ngp := length (in_rule1 i) in
    fold_left (fun t gp =>
      let gp_ex := (ngp - gp - 1)%nat in
      let s := sp_at (y_at (i_in f) (face_point (i_bin f) gp)) in
      set_face (set_face t (i_in f) (i_bin f) gp (Aux (face_bath (i_in f) (i_bin f) gp) 0 s))
               (i_ex f) (i_bex f) gp_ex (Aux (face_bath (i_ex f) (i_bex f) gp_ex) 0 s)) (seq 0 ngp) t.
  (** Lines 105-134. *)
  Definition init_bound (t : face_table) (b : bound) : face_table :=
    fold_left (fun t gp =>
      set_face t (b_elt b) (b_id b) gp (Aux (face_bath (b_elt b) (b_id b) gp) 0 (sp_at (y_at (b_elt b) (face_point (b_id b) gp)))))
      (seq 0 (length (in_rule1 i))) t.
  Definition init_faux : face_table :=
    fold_left init_bound (in_bounds i) (fold_left init_intface (in_intfaces i) (fun _ _ _ => Aux 0 0 0)).

  (** Lines 280-295: barycentres across the faces. *)
  Definition init_neigh : nat -> nat -> point :=
    fold_left (fun t b => set2 t (b_elt b) (b_id b) (mirror_baryctr (in_nodes i (b_elt b)) (b_id b))) (in_bounds i)
      (fold_left (fun t f => set2 (set2 t (i_in f) (i_bin f) (GetBarycentricCoordinates (in_nodes i (i_ex f))))
                                  (i_ex f) (i_bex f) (GetBarycentricCoordinates (in_nodes i (i_in f)))) (in_intfaces i) (fun _ _ => (0, 0))).
  (** Lines 251-277 and 297-323. *)
  Definition init_sl (e : nat) : sl_in :=
    let n := in_nodes i e in
    SlIn (in_g i) (in_M i) (in_nu i) (sl_median n) (sl_alpha n (init_neigh e)) (sl_r_sq n) (u_baryctr (in_z i e)) (fun _ _ => 0).

  Definition init_mesh : mesh :=
    Mesh (in_n i) (in_p i) (in_nodes i) (in_rule2 i) (in_rule1 i) init_aux init_db init_faux (in_src i) (in_fs i)
      (in_intfaces i) (in_bounds i) (in_z i) (fun e => init_bath_min (in_z i e)) init_sl.

  (** Lines 50-60: constant nodal values, projected. *)
  Definition init_q (e : nat) : coeffs := fun var => l2_node e (fun _ => vget (in_ic i) var).
  (** Lines 213-249 and rkdg_swe_pre_serial.hpp line 15 (further slots: arbitrary
      contents [junk]); the wet flag starts as true (swe_data_wet_dry.hpp line 15). *)
  Definition init_state (c : config) (junk : nat -> nat -> coeffs) : outcome mstate :=
    let st := MState (fun e => upd (junk e) 0 (init_q e)) (fun _ _ _ _ => 0) (fun _ _ _ _ => 0) (fun _ => true) (fun _ => false)
                (SlMesh (fun _ _ => false) (fun _ _ _ => 0)) in
    if c_wd c then
      ofold (fun st e =>
        do r <- init_wet_dry (in_p i) (c_h_o c) (c_thr c) (in_z i e) (EltWD (ms_q st e 0%nat) (ms_rhs st e 0%nat) (ms_wet st e) (ms_cd st e)) ;
        Ok (MState (upd (ms_q st) e (upd (ms_q st e) 0 (e_q r))) (upd (ms_rhs st) e (upd (ms_rhs st e) 0 (e_rhs r)))
              (ms_sol st) (upd (ms_wet st) e (e_wet r)) (upd (ms_cd st) e (e_completely_dry r)) (ms_slm st))) (seq 0 (in_n i)) st
    else Ok st.
End Init.

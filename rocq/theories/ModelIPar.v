(** The distributed implicit HDG shallow-water solver: preprocessing of the edges on
    rank boundaries and one Newton pass of a simulation unit,
    problem/SWE/discretization_IHDG/kernels_preprocessor/ihdg_swe_pre_init_global_prob.hpp
    lines 106-320, kernels_processor/ihdg_swe_proc_ompi_step.hpp lines 34-91 and the
    kernels for distributed faces.

    Elements and edges keep the numbers they have on the undivided mesh, by which the
    data of a unit are indexed; the geometry is read from the same record as in the
    serial model, of which only the entries of the unit's own elements are read.  Each
    unit has its own element states, traces and trace bathymetry, also of the edges it
    shares.  Distributed levees are left out: their kernels are empty in the code.
    The numbering of the global unknowns is in ModelDofs, the assembly and the solution
    of the global system in ModelCond, the message buffers in ModelComm. *)
From Coq Require Import Reals List Bool Arith.
From Verif Require Import Num ModelSWE Outcome ModelShape ModelBasis ModelJac ModelStep ModelIHDG.
Import ListNotations.
Open Scope R_scope.

(** An edge on a rank boundary as one unit has it: number of the edge, own element and
    face, and the direction of the trace basis ([true]: counterclockwise around the own
    element). *)
Record dedge := DEdge { de_edge : nat; de_elt : nat; de_face : nat; de_ccw : bool }.
(** A unit: elements, interfaces and boundaries (as edge numbers) and distributed edges. *)
Record iunit := IUnit { un_elts : list nat; un_ints : list nat; un_bnds : list nat; un_dist : list dedge }.

(** problem_preprocessor/swe_pre_create_edge_dbound.hpp lines 20-36: [here] and [there]
    are (locality, submesh) of the two sides.  If they are equal the flag is read
    uninitialised. *)
Definition first_side (here there : nat * nat) : bool :=
  (fst here <? fst there)%nat || ((fst here =? fst there)%nat && (snd here <? snd there)%nat).
Definition create_edge_distributed (here there : nat * nat) (ed e b : nat) : outcome dedge :=
  if first_side here there then Ok (DEdge ed e b true)
  else if first_side there here then Ok (DEdge ed e b false)
  else UB.

Section IPar.
  Context (m : mesh).

  (** geometry/edge_boundary.hpp lines 60-70: the Gauss points are exchanged end for end
      if the basis runs clockwise. *)
  Definition basis_gp (d : dedge) (gp : nat) : nat := if de_ccw d then gp else mirror m gp.
  Definition lam (d : dedge) (j gp : nat) : R := legendre_phi j (z1 m (basis_gp d gp)).
  (** Lines 79-85, int_lambda_fact. *)
  Definition lam_fact (d : dedge) (gp j : nat) : R :=
    lam d j gp * (w1 m gp * GetSurfaceJ (m_nodes m (de_elt d)) (de_face d)).
  (** Lines 87-110 and 119-162: ComputeUgp, IntegrationLambda, IntegrationLambdaLambda,
      IntegrationPhiLambda and L2Projection. *)
  Definition u_dist (qh : nat -> coeffs) (d : dedge) (gp : nat) : vec3 R :=
    let row var := vmsum (nedof m) (fun j => qh (de_edge d) var j * lam d j gp) in
    V3 (row 0%nat) (row 1%nat) (row 2%nat).
  Definition int_lam (d : dedge) (u : nat -> vec3 R) : coeffs := fun var j =>
    vmsum (ngp1 m) (fun gp => vget (u gp) var * lam_fact d gp j).
  Definition lam_lam (d : dedge) (i j : nat) (u : nat -> mat3) (x y : nat) : R :=
    vmsum (ngp1 m) (fun gp => mget (u gp) x y * (lam d i gp * lam_fact d gp j)).
  Definition phi_lam (d : dedge) (i j : nat) (u : nat -> mat3) (x y : nat) : R :=
    vmsum (ngp1 m) (fun gp => mget (u gp) x y *
      (GetPhi i (BoundaryToMasterCoordinates (de_face d) (z1 m gp)) * lam_fact d gp j)).
  Definition dist_projection (d : dedge) (u : nat -> vec3 R) : coeffs := fun var j =>
    vmsum (nedof m) (fun i => int_lam d u var i * (legendre_minv i j / GetSurfaceJ (m_nodes m (de_elt d)) (de_face d))).

  (** ** Preprocessing *)
  (** ihdg_swe_pre_init_global_prob.hpp lines 195-230: states and bathymetry at the Gauss
      points; the unit whose basis is the reference adds its first global number. *)
  Definition init_message (q : nat -> coeffs) (first : R) (d : dedge) : list R :=
    flat_map (fun gp => let u := u_face m q (de_elt d) (de_face d) gp in [ze u; qx u; qy u]) (seq 0 (ngp1 m)) ++
    map (fun gp => bath (m_faux m (de_elt d) (de_face d) gp)) (seq 0 (ngp1 m)) ++
    (if de_ccw d then [first] else []).
  (** Lines 275-286: entries arrive in the opposite order of Gauss points. *)
  Definition reversed {A : Type} (z : A) (f : nat -> A) : nat -> A :=
    fold_left (fun b gp => upd b (ngp1 m - gp - 1)%nat (f gp)) (seq 0 (ngp1 m)) (fun _ => z).
  Definition q_received (w : list R) : nat -> vec3 R :=
    reversed vzero (fun gp => V3 (nth (3 * gp) w 0) (nth (3 * gp + 1) w 0) (nth (3 * gp + 2) w 0)).
  Definition bath_received (w : list R) : nat -> R := reversed 0 (fun gp => nth (3 * ngp1 m + gp) w 0).
  (** Line 301, message.back(). *)
  Definition first_received (w : list R) : R := nth (length w - 1) w 0.
  (** Lines 288-289; the other rows of aux_hat_at_gp are not set here. *)
  Definition init_aux (w : list R) (d : dedge) (gp : nat) : aux3 R :=
    Aux ((bath (m_faux m (de_elt d) (de_face d) gp) + bath_received w gp) / 2) 0 0.
  (** ihdg_swe_dbc_distributed.hpp lines 31-44, ComputeInitTrace. *)
  Definition init_trace (q : nat -> coeffs) (w : list R) (d : dedge) : coeffs :=
    dist_projection d (fun gp => vscale (/ 2) (vadd (u_face m q (de_elt d) (de_face d) gp) (q_received w gp))).
  (** The same for an interface: ihdg_swe_pre_init_global_prob.hpp lines 19-35 and
      ihdg_swe_is_internal.hpp lines 22-48 with edge_interface.hpp L2Projection. *)
  Definition int_aux (ed gp : nat) : aux3 R :=
    let f := the_int m ed in
    Aux ((bath (m_faux m (i_in f) (i_bin f) gp) + bath (m_faux m (i_ex f) (i_bex f) (mirror m gp))) / 2) 0 0.
  Definition int_trace (q : nat -> coeffs) (ed : nat) : coeffs := fun var j =>
    let f := the_int m ed in
    let u gp := vscale (/ 2) (vadd (u_face m q (i_in f) (i_bin f) gp) (u_face m q (i_ex f) (i_bex f) (mirror m gp))) in
    vmsum (nedof m) (fun i => edge_lambda m (i_in f) (i_bin f) u var i *
      (legendre_minv i j / GetSurfaceJ (m_nodes m (i_in f)) (i_bin f))).

  (** ** One pass *)
  Context (eaux : nat -> nat -> aux3 R) (g dt theta : R).
  (** ihdg_swe_proc_edge_dbound.hpp lines 59-90 at one Gauss point: F_hat, dF_hat_dq and
      dF_hat_dq_hat; [qs] is the state of the own element. *)
  Definition a_dist (qh : nat -> coeffs) (d : dedge) (gp : nat) : aux3 R := with_depth (eaux (de_edge d) gp) (u_dist qh d gp).
  Definition n_dist (d : dedge) : vec2 R := normal m (de_elt d) (de_face d).
  Definition tau_dist (qh : nat -> coeffs) (d : dedge) (gp : nat) : R := tau_LF g (u_dist qh d gp) (a_dist qh d gp) (n_dist d).
  Definition tau_mat_dist (qh : nat -> coeffs) (d : dedge) (gp : nat) : mat3 :=
    let t := tau_dist qh d gp in mdiag t t t.
  Definition F_dist (qh : nat -> coeffs) (d : dedge) (gp : nat) (qs : vec3 R) : vec3 R :=
    vadd (get_Fn g (u_dist qh d gp) (a_dist qh d gp) (n_dist d))
         (vscale (tau_dist qh d gp) (ModelSWE.vsub qs (u_dist qh d gp))).
  Definition dF_dist (qh : nat -> coeffs) (d : dedge) (gp : nat) (qs : vec3 R) : mat3 :=
    let u := u_dist qh d gp in let a := a_dist qh d gp in let n := n_dist d in
    let del := ModelSWE.vsub qs u in
    madd (get_dFn_dq g u a n)
         (msub (columns (vscale (dtau_dze_LF g u a n) del) (vscale (dtau_dqx_LF u a n) del) (vscale (dtau_dqy_LF u a n) del))
               (tau_mat_dist qh d gp)).
  Definition q_dist (q : nat -> coeffs) (d : dedge) (gp : nat) : vec3 R := u_face m q (de_elt d) (de_face d) gp.

  (** Lines 92-119 (local_distributed_boundary_kernel, ihdg_swe_proc_dbound.hpp lines
      18-26, supplies q_at_gp). *)
  Definition local_edge_distributed (q qh : nat -> coeffs) (s : newton) (d : dedge) : newton :=
    let e := de_elt d in let b := de_face d in
    let D : block := fun i a j c => (1 - theta) * face_phi_phi m e b b j i (tau_mat_dist qh d) a c in
    let r : coeffs := fun a i => - (1 - theta) * integration_face m e b b (fun gp => F_dist qh d gp (q_dist q d gp)) a i in
    let H : block := fun i a j c => (1 - theta) * phi_lam d i j (fun gp => dF_dist qh d gp (q_dist q d gp)) a c in
    Newton (upd (nw_delta s) e (badd (nw_delta s e) D)) (upd (nw_rhs s) e (cadd (nw_rhs s e) r))
      (upd (nw_hat s) e (upd (nw_hat s e) b H)) (nw_glob s) (nw_hglob s) (nw_grhs s).
  (** Lines 122-156 with ihdg_swe_dbc_distributed.hpp lines 46-55. *)
  Definition global_edge_distributed (q qh : nat -> coeffs) (s : newton) (d : dedge) : newton :=
    let e := de_elt d in let b := de_face d in
    let G : block := fun i a j c => phi_lam d j i (tau_mat_dist qh d) a c in
    let K : block := fun i a j c => lam_lam d j i (fun gp => dF_dist qh d gp (q_dist q d gp)) a c in
    let r : coeffs := fun a i => - int_lam d (fun gp => F_dist qh d gp (q_dist q d gp)) a i in
    Newton (nw_delta s) (nw_rhs s) (nw_hat s) (upd (nw_glob s) e (upd (nw_glob s e) b G))
      (upd (nw_hglob s) (de_edge d) K) (upd (nw_grhs s) (de_edge d) r).

  (** ihdg_swe_proc_ompi_step.hpp lines 48-83 for one unit. *)
  Definition unit_system (un : iunit) (t : R) (qp rp q qh : nat -> coeffs) (s0 : newton) : newton :=
    let s1 := fold_left (fun s e => local_source m g theta t q (local_volume m g dt theta q qp rp s e) e) (un_elts un) s0 in
    let s2 := fold_left (local_edge_interface m eaux g theta q qh) (un_ints un) s1 in
    let s3 := fold_left (local_edge_boundary m eaux g theta q qh) (un_bnds un) s2 in
    let s4 := fold_left (local_edge_distributed q qh) (un_dist un) s3 in
    let s5 := fold_left (global_edge_interface m eaux g q qh) (un_ints un) s4 in
    let s6 := fold_left (global_edge_boundary m eaux g t q qh) (un_bnds un) s5 in
    fold_left (global_edge_distributed q qh) (un_dist un) s6.

  (** ihdg_swe_proc_init_iter.hpp lines 6-28 for one unit: rhs_prev as in ModelIHDG, and
      ihdg_swe_proc_edge_dbound.hpp lines 8-45. *)
  Definition init_edge_distributed (qp qh : nat -> coeffs) (rp : nat -> coeffs) (d : dedge) : nat -> coeffs :=
    upd rp (de_elt d) (csub (rp (de_elt d))
      (integration_face m (de_elt d) (de_face d) (de_face d) (fun gp => F_dist qh d gp (q_dist qp d gp)))).
  Definition unit_rhs_prev (un : iunit) (order2 : bool) (t : R) (qp qh : nat -> coeffs) : nat -> coeffs :=
    if order2 then
      let r1 := fold_left (init_volume m g qp) (un_elts un) (fun _ _ _ => 0) in
      let r2 := fold_left (init_source m g t qp) (un_elts un) r1 in
      let r3 := fold_left (init_edge_interface m eaux g qp qh) (un_ints un) r2 in
      let r4 := fold_left (init_edge_boundary m eaux g qp qh) (un_bnds un) r3 in
      fold_left (init_edge_distributed qp qh) (un_dist un) r4
    else fun _ _ _ => 0.
End IPar.

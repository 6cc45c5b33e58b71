(** The Newton system of the implicit HDG shallow-water solver, serial:
    problem/SWE/discretization_IHDG/kernels_processor/ihdg_swe_proc_serial_step.hpp
    lines 30-70 with the kernels it calls.  Reals for double, straight triangles,
    one order for all elements, matrix products as sums in index order.  Values at
    Gauss points that a kernel stores for the same edge's next kernel are
    recomputed instead.  Edges are numbered interfaces first, then boundaries.
    The Levee specialisation (its kernels are empty) and the distributed edges
    are left out. *)
From Coq Require Import Reals List Bool Arith.
From Verif Require Import Num ModelSWE ModelShape ModelBasis ModelJac ModelStep.
Import ListNotations.
Open Scope R_scope.

(** A block of the system: row dof, row variable, column dof, column variable;
    the solver stores entry (3 dof_i + var_i, 3 dof_j + var_j). *)
Definition block := nat -> nat -> nat -> nat -> R.
Record newton := Newton {
  nw_delta : nat -> block;         (* internal.delta_local *)
  nw_rhs : nat -> coeffs;          (* internal.rhs_local *)
  nw_hat : nat -> nat -> block;    (* boundary[b].delta_hat_local *)
  nw_glob : nat -> nat -> block;   (* boundary[b].delta_global *)
  nw_hglob : nat -> block;         (* edge_internal.delta_hat_global *)
  nw_grhs : nat -> coeffs }.       (* edge_internal.rhs_global *)

Definition mget (M : mat3) (a b : nat) : R :=
  match a, b with
  | 0%nat, 0%nat => m00 M | 0%nat, 1%nat => m01 M | 0%nat, _ => m02 M
  | 1%nat, 0%nat => m10 M | 1%nat, 1%nat => m11 M | 1%nat, _ => m12 M
  | _, 0%nat => m20 M | _, 1%nat => m21 M | _, _ => m22 M
  end.
Definition mvec (A : mat3) (v : vec3 R) : vec3 R :=
  V3 (m00 A * ze v + m01 A * qx v + m02 A * qy v)
     (m10 A * ze v + m11 A * qx v + m12 A * qy v)
     (m20 A * ze v + m21 A * qx v + m22 A * qy v).
Definition columns (a b c : vec3 R) : mat3 :=
  M3 (ze a) (ze b) (ze c) (qx a) (qx b) (qx c) (qy a) (qy b) (qy c).
Definition badd (A B : block) : block := fun i a j b => A i a j b + B i a j b.
Definition bsub (A B : block) : block := fun i a j b => A i a j b - B i a j b.

(** ihdg_swe_proc_source.hpp lines 34-71: dsource_dq of the friction term at one
    Gauss point.  [Cf] and [dCf] are carried from point to point in the code, but
    with manning off they never change and with manning on they are overwritten. *)
Definition friction_cf (p : source_in) (h : R) : R * R :=
  if s_manning p then
    let Cf := s_g_manning_n_sq p / cube_root h in
    let dCf := - s_g_manning_n_sq p / Rpower h (4 / 3) / 3 in
    if Rltb Cf (s_Cf p) then (s_Cf p, 0) else (Cf, dCf)
  else (s_Cf p, 0).
Definition dsource_dq (p : source_in) (q : vec3 R) (a : aux3 R) : mat3 :=
  if s_bottom_friction p then
    let h := hh a in
    let u := qx q / h in
    let v := qy q / h in
    let Cf := fst (friction_cf p h) in
    let dCf := snd (friction_cf p h) in
    let stress := Cf * hypot u v / h in
    let C := Cf / (hypot u v * h) in
    M3 0 0 0
       (0 - (-2 * stress * u + dCf * stress / Cf * qx q)) (0 - (stress + C * u * u)) (0 - C * u * v)
       (0 - (-2 * stress * v + dCf * stress / Cf * qy q)) (0 - C * u * v) (0 - (stress + C * v * v))
  else M3 0 0 0 0 0 0 0 0 0.
(** The divisors of [dsource_dq]; if one is zero the code computes a NaN. *)
Definition dsource_defined (p : source_in) (q : vec3 R) (a : aux3 R) : bool :=
  negb (s_bottom_friction p) ||
  (Rltb 0 (hypot (qx q / hh a) (qy q / hh a)) && (if Req_EM_T (fst (friction_cf p (hh a))) 0 then false else true)).

Section Kernels.
  Context (m : mesh) (eaux : nat -> nat -> aux3 R) (g dt theta : R).

  Definition nedof : nat := S (m_p m).
  Definition nint : nat := length (m_intfaces m).
  Definition nedges : nat := (nint + length (m_bounds m))%nat.

  (** ComputeUgp of elements, faces and edges; aux_at_gp with the depth refreshed. *)
  Definition u_elt (q : nat -> coeffs) (e gp : nat) : vec3 R := expand m (q e) (z2 m gp).
  Definition u_face (q : nat -> coeffs) (e b gp : nat) : vec3 R :=
    expand m (q e) (BoundaryToMasterCoordinates b (z1 m gp)).
  Definition u_edge (qh : nat -> coeffs) (ed gp : nat) : vec3 R :=
    let row var := vmsum nedof (fun j => qh ed var j * legendre_phi j (z1 m gp)) in
    V3 (row 0%nat) (row 1%nat) (row 2%nat).
  Definition with_depth (a : aux3 R) (q : vec3 R) : aux3 R := Aux (bath a) (ze q + bath a) (sp a).
  Definition a_elt (q : nat -> coeffs) (e gp : nat) : aux3 R := with_depth (m_aux m e gp) (u_elt q e gp).
  Definition a_edge (qh : nat -> coeffs) (ed gp : nat) : aux3 R := with_depth (eaux ed gp) (u_edge qh ed gp).

  (** geometry/element.hpp lines 244-262, IntegrationPhiPhi and IntegrationPhiDPhi. *)
  Definition phi_phi (e i j : nat) (u : nat -> mat3) (a b : nat) : R :=
    vmsum (ngp2 m) (fun gp => mget (u gp) a b *
      (GetPhi i (z2 m gp) * (w2 m gp * GetPhi j (z2 m gp) * Rabs (GetJdet (m_nodes m e))))).
  Definition phi_dphi (e i : nat) (dir : point -> R) (j : nat) (u : nat -> mat3) (a b : nat) : R :=
    vmsum (ngp2 m) (fun gp => mget (u gp) a b *
      (GetPhi i (z2 m gp) * (w2 m gp * dir (physical_derivative (m_nodes m e) (GetDPhi j (z2 m gp))) *
        Rabs (GetJdet (m_nodes m e))))).
  (** interface.hpp lines 184-204 and boundary.hpp: IntegrationPhiPhi of a face. *)
  Definition face_phi_phi (e_len b_len b i j : nat) (u : nat -> mat3) (x y : nat) : R :=
    vmsum (ngp1 m) (fun gp => mget (u gp) x y *
      (GetPhi i (BoundaryToMasterCoordinates b (z1 m gp)) *
        (GetPhi j (BoundaryToMasterCoordinates b (z1 m gp)) * (w1 m gp * GetSurfaceJ (m_nodes m e_len) b_len)))).
  (** geometry/edge_interface.hpp lines 86-127 and edge_boundary.hpp:
      int_lambda_fact and the integrals with it; the exterior side reads
      int_lambda_fact at the mirrored point. *)
  Definition lambda_fact (e_len b_len gp dof : nat) : R :=
    legendre_phi dof (z1 m gp) * (w1 m gp * GetSurfaceJ (m_nodes m e_len) b_len).
  Definition edge_lambda (e_len b_len : nat) (u : nat -> vec3 R) : coeffs := fun var dof =>
    vmsum (ngp1 m) (fun gp => vget (u gp) var * lambda_fact e_len b_len gp dof).
  Definition lambda_lambda (e_len b_len i j : nat) (u : nat -> mat3) (x y : nat) : R :=
    vmsum (ngp1 m) (fun gp => mget (u gp) x y * (legendre_phi i (z1 m gp) * lambda_fact e_len b_len gp j)).
  Definition mirror (gp : nat) : nat := (ngp1 m - gp - 1)%nat.
  Definition phi_lambda_in (e_len b_len b i j : nat) (u : nat -> mat3) (x y : nat) : R :=
    vmsum (ngp1 m) (fun gp => mget (u gp) x y *
      (GetPhi i (BoundaryToMasterCoordinates b (z1 m gp)) * lambda_fact e_len b_len gp j)).
  Definition phi_lambda_ex (e_len b_len b i j : nat) (u : nat -> mat3) (x y : nat) : R :=
    vmsum (ngp1 m) (fun gp => mget (u gp) x y *
      (GetPhi i (BoundaryToMasterCoordinates b (z1 m gp)) * lambda_fact e_len b_len (mirror gp) j)).

  (** ihdg_swe_proc_volume.hpp lines 38-84; [qp] is state_prev.q (q_prev_at_gp is
      its value at the Gauss points, line 22), [rp] is rhs_prev. *)
  Definition local_volume (q qp rp : nat -> coeffs) (s : newton) (e : nat) : newton :=
    let F gp := get_F g (u_elt q e gp) (a_elt q e gp) in
    let dF gp := get_dF_dq g (u_elt q e gp) (a_elt q e gp) in
    let del gp := vscale (/ dt) (ModelSWE.vsub (u_elt q e gp) (u_elt qp e gp)) in
    let kron gp := mdiag (1 / dt) (1 / dt) (1 / dt) in
    let D : block := fun i a j b =>
      phi_phi e j i kron a b - (1 - theta) * phi_dphi e j fst i (fun gp => fst (dF gp)) a b
        - (1 - theta) * phi_dphi e j snd i (fun gp => snd (dF gp)) a b in
    let r : coeffs := fun a i =>
      - integration_phi m e del a i + (1 - theta) * integration_dphi m e fst (fun gp => fst (F gp)) a i
        + (1 - theta) * integration_dphi m e snd (fun gp => snd (F gp)) a i + theta * rp e a i in
    Newton (upd (nw_delta s) e D) (upd (nw_rhs s) e r) (nw_hat s) (nw_glob s) (nw_hglob s) (nw_grhs s).

  (** swe_source.hpp get_source at time [t]. *)
  Definition source_gp (t : R) (q : nat -> coeffs) (e : nat) : nat -> vec3 R :=
    get_source g (m_src m e) (option_map (fun f => f t e) (m_fs m)) (ngp2 m) (u_elt q e) (a_elt q e) (m_db m e).
  (** ihdg_swe_proc_source.hpp lines 26-95. *)
  Definition local_source (t : R) (q : nat -> coeffs) (s : newton) (e : nat) : newton :=
    let dS gp := dsource_dq (m_src m e) (u_elt q e gp) (a_elt q e gp) in
    let D : block := fun i a j b => (1 - theta) * phi_phi e j i dS a b in
    let r : coeffs := fun a i => (1 - theta) * integration_phi m e (source_gp t q e) a i in
    Newton (upd (nw_delta s) e (bsub (nw_delta s e) D)) (upd (nw_rhs s) e (cadd (nw_rhs s e) r))
      (nw_hat s) (nw_glob s) (nw_hglob s) (nw_grhs s).

  (** F_hat, dF_hat_dq and dF_hat_dq_hat at Gauss point [gp] of an edge, for the
      inner side (ihdg_swe_proc_edge_intface.hpp lines 71-113, edge_bound.hpp lines
      58-98); [n] is the edge's normal, [qs] the state of the side. *)
  Definition dtau_delq (qh : nat -> coeffs) (ed gp : nat) (n : vec2 R) (qs : vec3 R) : mat3 :=
    let q := u_edge qh ed gp in let a := a_edge qh ed gp in
    let del := ModelSWE.vsub qs q in
    columns (vscale (dtau_dze_LF g q a n) del) (vscale (dtau_dqx_LF q a n) del) (vscale (dtau_dqy_LF q a n) del).
  Definition tau_at (qh : nat -> coeffs) (ed gp : nat) (n : vec2 R) : R := tau_LF g (u_edge qh ed gp) (a_edge qh ed gp) n.
  Definition tau_mat (qh : nat -> coeffs) (ed gp : nat) (n : vec2 R) : mat3 :=
    let t := tau_at qh ed gp n in mdiag t t t.
  Definition F_in (qh : nat -> coeffs) (ed gp : nat) (n : vec2 R) (qs : vec3 R) : vec3 R :=
    vadd (get_Fn g (u_edge qh ed gp) (a_edge qh ed gp) n) (vscale (tau_at qh ed gp n) (ModelSWE.vsub qs (u_edge qh ed gp))).
  Definition F_ex (qh : nat -> coeffs) (ed gp : nat) (n : vec2 R) (qs : vec3 R) : vec3 R :=
    vadd (vscale (-1) (get_Fn g (u_edge qh ed gp) (a_edge qh ed gp) n))
         (vscale (tau_at qh ed gp n) (ModelSWE.vsub qs (u_edge qh ed gp))).
  Definition dF_in (qh : nat -> coeffs) (ed gp : nat) (n : vec2 R) (qs : vec3 R) : mat3 :=
    madd (get_dFn_dq g (u_edge qh ed gp) (a_edge qh ed gp) n) (msub (dtau_delq qh ed gp n qs) (tau_mat qh ed gp n)).
  Definition dF_ex (qh : nat -> coeffs) (ed gp : nat) (n : vec2 R) (qs : vec3 R) : mat3 :=
    madd (mscale (-1) (get_dFn_dq g (u_edge qh ed gp) (a_edge qh ed gp) n))
         (msub (dtau_delq qh ed gp n qs) (tau_mat qh ed gp n)).

  Definition the_int (ed : nat) : intface := nth ed (m_intfaces m) (Intf 0 0 0 0 Internal).
  Definition the_bnd (ed : nat) : bound := nth (ed - nint) (m_bounds m) (Bnd 0 0 Land).

  (** ihdg_swe_proc_edge_intface.hpp lines 49-167, with local_interface_kernel
      (ihdg_swe_proc_intface.hpp lines 24-36) supplying q_at_gp. *)
  Definition local_edge_interface (q qh : nat -> coeffs) (s : newton) (ed : nat) : newton :=
    let f := the_int ed in
    let (e1, b1) := (i_in f, i_bin f) in let (e2, b2) := (i_ex f, i_bex f) in
    let n := normal m e1 b1 in
    let Fi gp := F_in qh ed gp n (u_face q e1 b1 gp) in
    let Fe gp := F_ex qh ed (mirror gp) n (u_face q e2 b2 gp) in
    let dFi gp := dF_in qh ed gp n (u_face q e1 b1 gp) in
    let dFe gp := dF_ex qh ed (mirror gp) n (u_face q e2 b2 gp) in
    let D1 : block := fun i a j b => (1 - theta) * face_phi_phi e1 b1 b1 i j (fun gp => tau_mat qh ed gp n) a b in
    let D2 : block := fun i a j b => (1 - theta) * face_phi_phi e1 b1 b2 i j (fun gp => tau_mat qh ed (mirror gp) n) a b in
    let r1 : coeffs := fun a i => - (1 - theta) * integration_face m e1 b1 b1 Fi a i in
    let r2 : coeffs := fun a i => - (1 - theta) * integration_face m e1 b1 b2 Fe a i in
    let H1 : block := fun i a j b => (1 - theta) * phi_lambda_in e1 b1 b1 i j dFi a b in
    let H2 : block := fun i a j b => (1 - theta) * phi_lambda_ex e1 b1 b2 i j dFe a b in
    let delta1 := upd (nw_delta s) e1 (badd (nw_delta s e1) D1) in
    let rhs1 := upd (nw_rhs s) e1 (cadd (nw_rhs s e1) r1) in
    let hat1 := upd (nw_hat s) e1 (upd (nw_hat s e1) b1 H1) in
    Newton (upd delta1 e2 (badd (delta1 e2) D2)) (upd rhs1 e2 (cadd (rhs1 e2) r2))
      (upd hat1 e2 (upd (hat1 e2) b2 H2)) (nw_glob s) (nw_hglob s) (nw_grhs s).

  (** ihdg_swe_proc_edge_bound.hpp lines 43-131. *)
  Definition local_edge_boundary (q qh : nat -> coeffs) (s : newton) (ed : nat) : newton :=
    let e := b_elt (the_bnd ed) in let b := b_id (the_bnd ed) in
    let n := normal m e b in
    let Fi gp := F_in qh ed gp n (u_face q e b gp) in
    let dFi gp := dF_in qh ed gp n (u_face q e b gp) in
    let D : block := fun i a j c => (1 - theta) * face_phi_phi e b b j i (fun gp => tau_mat qh ed gp n) a c in
    let r : coeffs := fun a i => - (1 - theta) * integration_face m e b b Fi a i in
    let H : block := fun i a j c => (1 - theta) * phi_lambda_in e b b i j dFi a c in
    Newton (upd (nw_delta s) e (badd (nw_delta s e) D)) (upd (nw_rhs s) e (cadd (nw_rhs s e) r))
      (upd (nw_hat s) e (upd (nw_hat s e) b H)) (nw_glob s) (nw_hglob s) (nw_grhs s).

  (** ihdg_swe_proc_edge_intface.hpp lines 169-215 with
      ihdg_swe_is_internal.hpp lines 53-76. *)
  Definition global_edge_interface (q qh : nat -> coeffs) (s : newton) (ed : nat) : newton :=
    let f := the_int ed in
    let (e1, b1) := (i_in f, i_bin f) in let (e2, b2) := (i_ex f, i_bex f) in
    let n := normal m e1 b1 in
    let q1 gp := u_face q e1 b1 gp in
    let q2 gp := u_face q e2 b2 (mirror gp) in
    let G1 : block := fun i a j b => phi_lambda_in e1 b1 b1 j i (fun gp => tau_mat qh ed gp n) a b in
    let G2 : block := fun i a j b => phi_lambda_ex e1 b1 b2 j i (fun gp => tau_mat qh ed (mirror gp) n) a b in
    let K : block := fun i a j b =>
      lambda_lambda e1 b1 i j (fun gp => madd (dF_in qh ed gp n (q1 gp)) (dF_ex qh ed gp n (q2 gp))) a b in
    let r : coeffs := fun a i =>
      - edge_lambda e1 b1 (fun gp => vadd (F_in qh ed gp n (q1 gp)) (F_ex qh ed gp n (q2 gp))) a i in
    let glob1 := upd (nw_glob s) e1 (upd (nw_glob s e1) b1 G1) in
    Newton (nw_delta s) (nw_rhs s) (nw_hat s) (upd glob1 e2 (upd (glob1 e2) b2 G2))
      (upd (nw_hglob s) ed K) (upd (nw_grhs s) ed r).

  (** ihdg_swe_bc_land.hpp lines 59-96 and ihdg_swe_bc_function.hpp lines 104-164
      (flow and tide differ only in q_inf): delta_global_kernel,
      delta_hat_global_kernel and rhs_global_kernel at one Gauss point. *)
  Definition land_delta (n : vec2 R) : mat3 :=
    M3 (-1) 0 0 0 (-1 + nx n * nx n) (nx n * ny n) 0 (nx n * ny n) (-1 + ny n * ny n).
  Definition land_rhs (n : vec2 R) (q qh : vec3 R) : vec3 R :=
    let qn := qx q * nx n + qy q * ny n in
    V3 (ze qh - ze q) (qx qh - qx q + qn * nx n) (qy qh - qy q + qn * ny n).
  Definition open_hat (qh : vec3 R) (a : aux3 R) (n : vec2 R) (q qinf : vec3 R) : mat3 :=
    let d1 := ModelSWE.vsub q qh in let d2 := ModelSWE.vsub qinf qh in
    let col (Ap Am : mat3) := ModelSWE.vsub (mvec Ap d1) (mvec Am d2) in
    madd (msub (get_Aminus g qh a n) (get_Aplus g qh a n))
         (columns (col (get_dAplus_dze g qh a n) (get_dAminus_dze g qh a n))
                  (col (get_dAplus_dqx g qh a n) (get_dAminus_dqx g qh a n))
                  (col (get_dAplus_dqy g qh a n) (get_dAminus_dqy g qh a n))).
  Definition open_rhs (qh : vec3 R) (a : aux3 R) (n : vec2 R) (q qinf : vec3 R) : vec3 R :=
    ModelSWE.vsub (mvec (get_Aplus g qh a n) (ModelSWE.vsub q qh)) (mvec (get_Aminus g qh a n) (ModelSWE.vsub qinf qh)).
  Definition bc_kernels (t : R) (bc : bc_kind) (n : vec2 R) (gp : nat) (q qh : vec3 R) (a : aux3 R) :
      mat3 * mat3 * vec3 R :=
    match bc with
    | Land => (land_delta n, mdiag 1 1 1, land_rhs n q qh)
    | Exterior ex =>
        let qinf := ex t gp n q in (get_Aplus g qh a n, open_hat qh a n q qinf, open_rhs qh a n q qinf)
    end.

  (** ihdg_swe_proc_edge_bound.hpp lines 133-170. *)
  Definition global_edge_boundary (t : R) (q qh : nat -> coeffs) (s : newton) (ed : nat) : newton :=
    let e := b_elt (the_bnd ed) in let b := b_id (the_bnd ed) in
    let n := normal m e b in
    let K gp := bc_kernels t (b_bc (the_bnd ed)) n gp (u_face q e b gp) (u_edge qh ed gp) (a_edge qh ed gp) in
    let G : block := fun i a j c => phi_lambda_in e b b j i (fun gp => fst (fst (K gp))) a c in
    let H : block := fun i a j c => lambda_lambda e b j i (fun gp => snd (fst (K gp))) a c in
    let r : coeffs := fun a i => - edge_lambda e b (fun gp => snd (K gp)) a i in
    Newton (nw_delta s) (nw_rhs s) (nw_hat s) (upd (nw_glob s) e (upd (nw_glob s e) b G))
      (upd (nw_hglob s) ed H) (upd (nw_grhs s) ed r).

  (** ihdg_swe_proc_serial_step.hpp lines 42-67, one pass; [t] is
      GetTimeAtNextStage, [s0] the contents left by the previous pass. *)
  Definition newton_system (t : R) (qp rp q qh : nat -> coeffs) (s0 : newton) : newton :=
    let s1 := fold_left (fun s e => local_source t q (local_volume q qp rp s e) e) (seq 0 (m_n m)) s0 in
    let s2 := fold_left (local_edge_interface q qh) (seq 0 nint) s1 in
    let s3 := fold_left (local_edge_boundary q qh) (seq nint (length (m_bounds m))) s2 in
    let s4 := fold_left (global_edge_interface q qh) (seq 0 nint) s3 in
    fold_left (global_edge_boundary t q qh) (seq nint (length (m_bounds m))) s4.

  (** rhs_prev: zero for order 1 (ihdg_swe_proc_volume.hpp lines 24-35); for order 2
      the init kernels (volume lines 26-35, source lines 8-21, edge_intface lines
      8-46, edge_bound lines 8-41) at the previous state [qp], the current trace
      and time [t]. *)
  Definition init_volume (qp : nat -> coeffs) (rp : nat -> coeffs) (e : nat) : nat -> coeffs :=
    let F gp := get_F g (u_elt qp e gp) (a_elt qp e gp) in
    upd rp e (cadd (integration_dphi m e fst (fun gp => fst (F gp))) (integration_dphi m e snd (fun gp => snd (F gp)))).
  Definition init_source (t : R) (qp : nat -> coeffs) (rp : nat -> coeffs) (e : nat) : nat -> coeffs :=
    upd rp e (cadd (rp e) (integration_phi m e (source_gp t qp e))).
  Definition init_edge_interface (qp qh : nat -> coeffs) (rp : nat -> coeffs) (ed : nat) : nat -> coeffs :=
    let f := the_int ed in
    let n := normal m (i_in f) (i_bin f) in
    let Fi gp := F_in qh ed gp n (u_face qp (i_in f) (i_bin f) gp) in
    let Fe gp := F_ex qh ed (mirror gp) n (u_face qp (i_ex f) (i_bex f) gp) in
    let rp1 := upd rp (i_in f) (csub (rp (i_in f)) (integration_face m (i_in f) (i_bin f) (i_bin f) Fi)) in
    upd rp1 (i_ex f) (csub (rp1 (i_ex f)) (integration_face m (i_in f) (i_bin f) (i_bex f) Fe)).
  Definition init_edge_boundary (qp qh : nat -> coeffs) (rp : nat -> coeffs) (ed : nat) : nat -> coeffs :=
    let e := b_elt (the_bnd ed) in let b := b_id (the_bnd ed) in
    let n := normal m e b in
    upd rp e (csub (rp e) (integration_face m e b b (fun gp => F_in qh ed gp n (u_face qp e b gp)))).
  Definition init_rhs_prev (order2 : bool) (t : R) (qp qh : nat -> coeffs) : nat -> coeffs :=
    if order2 then
      let r1 := fold_left (init_volume qp) (seq 0 (m_n m)) (fun _ _ _ => 0) in
      let r2 := fold_left (init_source t qp) (seq 0 (m_n m)) r1 in
      let r3 := fold_left (init_edge_interface qp qh) (seq 0 nint) r2 in
      fold_left (init_edge_boundary qp qh) (seq nint (length (m_bounds m))) r3
    else fun _ _ _ => 0.

  (** Every division and root in [newton_system] is defined: depths positive and
      friction divisors nonzero at all Gauss points.  Otherwise the code may
      compute NaN entries, on which the solver aborts. *)
  Definition well_defined (q qh : nat -> coeffs) : bool :=
    forallb (fun e => forallb (fun gp => Rltb 0 (hh (a_elt q e gp)) &&
      dsource_defined (m_src m e) (u_elt q e gp) (a_elt q e gp)) (seq 0 (ngp2 m))) (seq 0 (m_n m)) &&
    forallb (fun ed => forallb (fun gp => Rltb 0 (hh (a_edge qh ed gp))) (seq 0 (ngp1 m))) (seq 0 nedges).
End Kernels.

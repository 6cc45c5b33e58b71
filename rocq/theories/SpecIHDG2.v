(** Specifications for one pass of the implicit solver: the linear system of a pass,
    totals over the mesh, the land condition. *)
From Coq Require Import Reals List Bool Arith.
From Verif Require Import Num ModelSWE ModelShape ModelBasis ModelJac SpecShape SpecStepper SpecStep ModelStep ModelIHDG SpecIHDG.
Import ListNotations.
Open Scope R_scope.

(** Row (i, a) of a block times a coefficient vector with [n] dofs. *)
Definition applied (n : nat) (B : block) (x : coeffs) (a i : nat) : R :=
  rsum n (fun j => rsum 3 (fun b => B i a j b * x b j)).
(** The increments [dq], [dqh] solve the linear system of a pass: element rows, then
    trace rows. *)
Definition solves (m : mesh) (s : newton) (dq dqh : nat -> coeffs) : Prop :=
  (forall e a i, (e < m_n m)%nat -> (a < 3)%nat -> (i < ndof m)%nat ->
    applied (ndof m) (nw_delta s e) (dq e) a i +
    rsum (nedges m) (fun ed => lsum (sides m ed) (fun ef =>
      if (fst ef =? e)%nat then applied (nedof m) (nw_hat s e (snd ef)) (dqh ed) a i else 0)) = nw_rhs s e a i) /\
  (forall ed a i, (ed < nedges m)%nat -> (a < 3)%nat -> (i < nedof m)%nat ->
    lsum (sides m ed) (fun ef => applied (ndof m) (nw_glob s (fst ef) (snd ef)) (dq (fst ef)) a i) +
    applied (nedof m) (nw_hglob s ed) (dqh ed) a i = nw_grhs s ed a i).
Definition plus (q dq : nat -> coeffs) : nat -> coeffs := fun e => cadd (q e) (dq e).
(** The element numbers on edges are in range. *)
Definition in_range (m : mesh) : Prop := forall ed e f, (ed < nedges m)%nat -> In (e, f) (sides m ed) -> (e < m_n m)%nat /\ (f < 3)%nat.

(** Quadrature of a vector function over the mesh, of the state, and of a vector
    function over one edge. *)
Definition volume_int (m : mesh) (f : nat -> nat -> vec3 R) (a : nat) : R :=
  rsum (m_n m) (fun e => tri_area (m_nodes m e) / 2 *
    rsum (length (m_rule2 m)) (fun gp => fst (nth gp (m_rule2 m) (0, (0, 0))) * vget (f e gp) a)).
Definition total (m : mesh) (q : nat -> coeffs) (a : nat) : R := volume_int m (u_elt m q) a.
Definition edge_int (m : mesh) (ed : nat) (f : nat -> vec3 R) (a : nat) : R :=
  let s := nth 0 (sides m ed) (0%nat, 0%nat) in
  half_side (m_nodes m (fst s)) (snd s) * rsum (length (m_rule1 m)) (fun gp => fst (nth gp (m_rule1 m) (0, 0)) * vget (f gp) a).
(** Sum over the boundary edges. *)
Definition bsum_edges (m : mesh) (f : nat -> R) : R := rsum (length (m_bounds m)) (fun k => f (length (m_intfaces m) + k)%nat).

Section Flux.
  Context (m : mesh) (eaux : nat -> nat -> aux3 R) (g : R).
  (** The numerical flux through an edge seen from its first side, and its
      linearisation in the increments. *)
  Definition trace_flux (q qh : nat -> coeffs) (ed gp : nat) : vec3 R :=
    let s := nth 0 (sides m ed) (0%nat, 0%nat) in F_in m eaux g qh ed gp (edge_normal m ed) (u_face m q (fst s) (snd s) gp).
  Definition linear_flux (q qh dq dqh : nat -> coeffs) (ed gp : nat) : vec3 R :=
    let s := nth 0 (sides m ed) (0%nat, 0%nat) in let n := edge_normal m ed in
    vadd (trace_flux q qh ed gp)
      (vadd (mvec (tau_mat m eaux g qh ed gp n) (u_face m dq (fst s) (snd s) gp))
            (mvec (dF_in m eaux g qh ed gp n (u_face m q (fst s) (snd s) gp)) (u_edge m dqh ed gp))).
  (** The source and its (partial) linearisation. *)
  Definition linear_source (t : R) (q dq : nat -> coeffs) (e gp : nat) : vec3 R :=
    vadd (source_gp m g t q e gp) (mvec (dsource_dq (m_src m e) (u_elt m q e gp) (a_elt m q e gp)) (u_elt m dq e gp)).
End Flux.

(** The trace of a land edge is the state of the element with its normal discharge
    removed, at every Gauss point. *)
Definition land_met (m : mesh) (q qh : nat -> coeffs) (ed : nat) : Prop := forall gp, (gp < length (m_rule1 m))%nat ->
  let s := nth 0 (sides m ed) (0%nat, 0%nat) in let n := edge_normal m ed in
  let u := u_face m q (fst s) (snd s) gp in let uh := u_edge m qh ed gp in
  let qn := qx u * nx n + qy u * ny n in
  ze uh = ze u /\ qx uh = qx u - qn * nx n /\ qy uh = qy u - qn * ny n.
(** The trace of an edge has the surface elevation of its first element. *)
Definition level_met (m : mesh) (q qh : nat -> coeffs) (ed : nat) : Prop := forall gp, (gp < length (m_rule1 m))%nat ->
  let s := nth 0 (sides m ed) (0%nat, 0%nat) in ze (u_edge m qh ed gp) = ze (u_face m q (fst s) (snd s) gp).
Definition is_boundary (m : mesh) (ed : nat) : Prop := (length (m_intfaces m) <= ed < length (m_intfaces m) + length (m_bounds m))%nat.
(** A basin without open boundaries and without rain. *)
Definition closed_basin (m : mesh) : Prop := m_fs m = None /\ (forall b, In b (m_bounds m) -> b_bc b = Land).
(** Proper triangles, a supported degree, positive face weights. *)
Definition regular (m : mesh) : Prop :=
  (forall e, (e < m_n m)%nat -> orient (m_nodes m e 0%nat) (m_nodes m e 1%nat) (m_nodes m e 2%nat) <> 0) /\ (m_p m <= 298)%nat /\
  (forall gp, (gp < length (m_rule1 m))%nat -> 0 < fst (nth gp (m_rule1 m) (0, 0))).
(** Passes of the Newton loop from a start state: every pass assembles the system at
    the current state and adds increments that solve it. *)
Inductive passes (m : mesh) (eaux : nat -> nat -> aux3 R) (g dt theta t : R) (qp rp q0 qh0 : nat -> coeffs) :
    nat -> (nat -> coeffs) -> (nat -> coeffs) -> Prop :=
| passes_0 : passes m eaux g dt theta t qp rp q0 qh0 0 q0 qh0
| passes_S : forall k q qh s0 dq dqh, passes m eaux g dt theta t qp rp q0 qh0 k q qh ->
    solves m (newton_system m eaux g dt theta t qp rp q qh s0) dq dqh ->
    passes m eaux g dt theta t qp rp q0 qh0 (S k) (plus q dq) (plus qh dqh).
(** The residual of the trace equations of an interface: the two numerical fluxes
    should cancel. *)
Definition jump (m : mesh) (eaux : nat -> nat -> aux3 R) (g : R) (q qh : nat -> coeffs) (ed gp : nat) : vec3 R :=
  let s := nth 1 (sides m ed) (0%nat, 0%nat) in
  vadd (trace_flux m eaux g q qh ed gp)
    (F_ex m eaux g qh ed gp (edge_normal m ed) (u_face m q (fst s) (snd s) (length (m_rule1 m) - gp - 1))).

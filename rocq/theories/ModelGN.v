(** Dispersive correction of the Green-Naghdi solver, serial:
    problem/Green-Naghdi/discretization_EHDG/kernels_processor/ehdg_gn_proc_serial_step.hpp
    with the kernels it calls, for the default gradient method (D_PROJECTION,
    B_PROJECTION) and the default shallow-water solver SWE_SIM = SWE::RKDG
    (ModelStep).  Reals for double, straight triangles, one order for all elements,
    matrix products as sums in index order.  An interface is an edge with two
    sides, a boundary an edge with one; edges are numbered interfaces first, then
    boundaries.  Values at Gauss points are recomputed instead of stored.
    [inverse], the dense [solve_sle] (Eigen's fullPivLu) and the sparse solver are
    library code: parameters.  Input parsing and output are left out. *)
From Coq Require Import Reals List Bool Arith.
From Verif Require Import Num Outcome ModelSWE ModelShape ModelBasis ModelJac ModelStepper ModelStep ModelIHDG ModelCond.
Import ListNotations.
Open Scope R_scope.

(** gn_definitions.hpp line 24, and the stabilisation parameter of the edge kernels. *)
Definition alpha : R := 1159 / 1000.
Definition tau : R := -20.
Definition comp (n : vec2 R) (a : nat) : R := match a with 0%nat => nx n | _ => ny n end.
Definition pcomp (a : nat) (z : point) : R := match a with 0%nat => fst z | _ => snd z end.
Definition delta (a b : nat) : R := if Nat.eqb a b then 1 else 0.

(** A side of an edge: element, bound_id, whether it is the exterior side, normal. *)
Record gside := GSide { s_e : nat; s_b : nat; s_ex : bool; s_n : vec2 R }.
Inductive gkind := KInternal | KLevee | KLand | KOpen.
(** [ge_len] is the side the length of the edge is taken from (interface.hpp). *)
Record gedge := GEdge { ge_kind : gkind; ge_len : nat * nat; ge_sides : list gside }.

(** ** The source term at a point, ehdg_gn_proc_source.hpp lines 17-94: depth, slopes of
    the bed (upward) b_a, b_ac, b_acd, of the surface z_a, velocity u_i, u_ia, u_iac. *)
Definition source_point (g h : R) (b : nat -> R) (b2 : nat -> nat -> R) (b3 : nat -> nat -> nat -> R) (z : nat -> R)
    (u : nat -> R) (u1 : nat -> nat -> R) (u2 : nat -> nat -> nat -> R) (a : nat) : R :=
  let u_ := u 0%nat in let v_ := u 1%nat in
  let ux := u1 0%nat 0%nat in let uy := u1 0%nat 1%nat in let vx := u1 1%nat 0%nat in let vy := u1 1%nat 1%nat in
  let h_a := z a + b a in
  let c1 := vx * uy + ux * ux + ux * vy + vy * vy in
  let c23 := uy * u2 1%nat 0%nat a + vx * u2 0%nat 1%nat a + 2 * (ux * u2 0%nat 0%nat a) +
             vy * u2 0%nat 0%nat a + ux * u2 1%nat 1%nat a + 2 * (vy * u2 1%nat 1%nat a) in
  let c4 := u_ * u_ * b2 0%nat 0%nat + u_ * v_ * b2 0%nat 1%nat + u_ * v_ * b2 1%nat 0%nat + v_ * v_ * b2 1%nat 1%nat in
  let c56 := 2 * (u_ * u1 0%nat a * b2 0%nat 0%nat) + u_ * u_ * b3 0%nat 0%nat a +
             u1 0%nat a * v_ * b2 0%nat 1%nat + u_ * u1 1%nat a * b2 0%nat 1%nat + u_ * v_ * b3 0%nat 1%nat a +
             u1 0%nat a * v_ * b2 1%nat 0%nat + u_ * u1 1%nat a * b2 1%nat 0%nat + u_ * v_ * b3 1%nat 0%nat a +
             2 * (v_ * u1 1%nat a * b2 1%nat 1%nat) + v_ * v_ * b3 1%nat 1%nat a in
  2 * (h * h * c1 * h_a) + 2 / 3 * (h * h * h * c23) + h * c4 * h_a + 1 / 2 * (h * h * c56) +
  h * h * c1 * b a + h * c4 * b a + g / alpha * (z a * h).

Section GN.
  Context (m : mesh).

  Definition gedges : list gedge :=
    map (fun f => let n := normal m (i_in f) (i_bin f) in
           GEdge (match i_kind f with Internal => KInternal | Levee _ => KLevee end) (i_in f, i_bin f)
             [GSide (i_in f) (i_bin f) false n; GSide (i_ex f) (i_bex f) true (opp n)]) (m_intfaces m) ++
    map (fun b => GEdge (match b_bc b with Land => KLand | Exterior _ => KOpen end) (b_elt b, b_id b)
                    [GSide (b_elt b) (b_id b) false (normal m (b_elt b) (b_id b))]) (m_bounds m).

  (** ** Integrals of scalars: geometry/element.hpp, interface.hpp, boundary.hpp and the
      edge types; ComputeUgp of one row. *)
  Definition jac (e : nat) : R := Rabs (GetJdet (m_nodes m e)).
  Definition len (ed : gedge) : R := GetSurfaceJ (m_nodes m (fst (ge_len ed))) (snd (ge_len ed)).
  Definition dphi (e a dof gp : nat) : R := pcomp a (physical_derivative (m_nodes m e) (GetDPhi dof (z2 m gp))).
  Definition fphi (b dof gp : nat) : R := GetPhi dof (BoundaryToMasterCoordinates b (z1 m gp)).
  Definition sexp (c : nat -> R) (z : point) : R := vmsum (ndof m) (fun dof => c dof * GetPhi dof z).
  Definition at_gp (c : nat -> nat -> R) (e gp : nat) : R := sexp (c e) (z2 m gp).
  Definition at_fgp (c : nat -> nat -> R) (e b gp : nat) : R := sexp (c e) (BoundaryToMasterCoordinates b (z1 m gp)).
  Definition s_phi (e : nat) (u : nat -> R) (dof : nat) : R :=
    vmsum (ngp2 m) (fun gp => u gp * (w2 m gp * GetPhi dof (z2 m gp) * jac e)).
  Definition s_dphi (e a : nat) (u : nat -> R) (dof : nat) : R :=
    vmsum (ngp2 m) (fun gp => u gp * (w2 m gp * dphi e a dof gp * jac e)).
  Definition s_pp (e i j : nat) (u : nat -> R) : R :=
    vmsum (ngp2 m) (fun gp => u gp * (GetPhi i (z2 m gp) * (w2 m gp * GetPhi j (z2 m gp) * jac e))).
  Definition s_pdp (e i a j : nat) (u : nat -> R) : R :=
    vmsum (ngp2 m) (fun gp => u gp * (GetPhi i (z2 m gp) * (w2 m gp * dphi e a j gp * jac e))).
  Definition s_fphi (ed : gedge) (b : nat) (u : nat -> R) (dof : nat) : R :=
    vmsum (ngp1 m) (fun gp => u gp * (fphi b dof gp * (w1 m gp * len ed))).
  Definition s_fpp (ed : gedge) (b i j : nat) (u : nat -> R) : R :=
    vmsum (ngp1 m) (fun gp => u gp * (fphi b i gp * (fphi b j gp * (w1 m gp * len ed)))).
  (** edge_interface.hpp lines 86-127: the exterior side reads the edge functions mirrored. *)
  Definition gp_hat (s : gside) (gp : nat) : nat := if s_ex s then mirror m gp else gp.
  Definition s_pl (ed : gedge) (s : gside) (i j : nat) (u : nat -> R) : R :=
    vmsum (ngp1 m) (fun gp => u gp * (fphi (s_b s) i gp *
      (legendre_phi j (z1 m (gp_hat s gp)) * (w1 m (gp_hat s gp) * len ed)))).
  Definition s_ll (ed : gedge) (i j : nat) (u : nat -> R) : R :=
    vmsum (ngp1 m) (fun gp => u gp * (legendre_phi i (z1 m gp) * (legendre_phi j (z1 m gp) * (w1 m gp * len ed)))).

  (** Single valued traces: the mean of both sides, the inner value on a boundary, by
      Gauss point of the first side (projection_derivatives_serial.hpp lines 71-84, 97-100). *)
  Definition hat (v : nat -> nat -> nat -> R) (ed : gedge) (gp : nat) : R :=
    match ge_sides ed with
    | [s] => v (s_e s) (s_b s) gp
    | [s; t] => (v (s_e s) (s_b s) gp + v (s_e t) (s_b t) (mirror m gp)) / 2
    | _ => 0
    end.

  (** ** Projected derivatives, projection_derivatives_serial.hpp (lines 41-255; all rows
      follow one pattern) and projection_dbath_serial.hpp: right-hand side by elements,
      then sides, then ApplyMinv.  [v] at element Gauss points, [vf] at face Gauss points. *)
  Definition proj_side (vf : nat -> nat -> nat -> R) (a : nat) (ed : gedge) (D : nat -> nat -> R) (s : gside) : nat -> nat -> R :=
    upd D (s_e s) (fun dof => D (s_e s) dof + s_fphi ed (s_b s) (fun gp => hat vf ed (gp_hat s gp) * comp (s_n s) a) dof).
  Definition proj_rhs (v : nat -> nat -> R) (vf : nat -> nat -> nat -> R) (a : nat) : nat -> nat -> R :=
    fold_left (fun D ed => fold_left (proj_side vf a ed) (ge_sides ed) D) gedges (fun e dof => - s_dphi e a (v e) dof).
  Definition project (v : nat -> nat -> R) (vf : nat -> nat -> nat -> R) (a : nat) : nat -> nat -> R := fun e dof =>
    vmsum (ndof m) (fun i => proj_rhs v vf a e i * element_minv (m_nodes m e) (GetMinv i dof)).

  (** Bathymetry derivatives of the preprocessor, and dbath_hat_at_gp. *)
  Definition dbath (a : nat) : nat -> nat -> R :=
    project (fun e gp => bath (m_aux m e gp)) (fun e b gp => bath (m_faux m e b gp)) a.
  Definition ddbath (a c : nat) : nat -> nat -> R := project (at_gp (dbath a)) (at_fgp (dbath a)) c.
  Definition dddbath (a c d : nat) : nat -> nat -> R := project (at_gp (ddbath a c)) (at_fgp (ddbath a c)) d.
  (** bx, by and their derivatives with the sign of the Green-Naghdi convention. *)
  Definition b1 (e gp a : nat) : R := - at_gp (dbath a) e gp.
  Definition b2 (e gp a c : nat) : R := - at_gp (ddbath a c) e gp.
  Definition b3 (e gp a c d : nat) : R := - at_gp (dddbath a c d) e gp.
  Definition b_hat_at (ed : gedge) (gp a : nat) : R := - hat (at_fgp (dbath a)) ed gp.

  (** ** One correction stage on the coefficients [q] of state[stage]. *)
  Section Stage.
    Context (g : R) (q : nat -> coeffs) (wet : nat -> bool).

    Definition q_elt (e gp : nat) : vec3 R := expand m (q e) (z2 m gp).
    Definition q_fc (e b gp : nat) : vec3 R := expand m (q e) (BoundaryToMasterCoordinates b (z1 m gp)).
    Definition h_elt (e gp : nat) : R := ze (q_elt e gp) + bath (m_aux m e gp).
    Definition h_fc (e b gp : nat) : R := ze (q_fc e b gp) + bath (m_faux m e b gp).
    Definition dze (a : nat) : nat -> nat -> R := project (fun e gp => ze (q_elt e gp)) (fun e b gp => ze (q_fc e b gp)) a.
    Definition u_at (i e gp : nat) : R := vget (q_elt e gp) (S i) / h_elt e gp.
    Definition uf_at (i e b gp : nat) : R := vget (q_fc e b gp) (S i) / h_fc e b gp.
    Definition du (i a : nat) : nat -> nat -> R := project (u_at i) (uf_at i) a.
    Definition ddu (i a c : nat) : nat -> nat -> R := project (at_gp (du i a)) (at_fgp (du i a)) c.

    Definition source_at_gp (e a gp : nat) : R :=
      source_point g (h_elt e gp) (b1 e gp) (b2 e gp) (b3 e gp) (fun c => at_gp (dze c) e gp) (fun i => u_at i e gp)
        (fun i c => at_gp (du i c) e gp) (fun i c d => at_gp (ddu i c d) e gp) a.

    (** Matrices by flat index: row or column 2 dof + component. *)
    Definition flat11 (F : nat -> nat -> nat -> nat -> R) : nat -> nat -> R := fun r c => F (r / 2)%nat (r mod 2) (c / 2)%nat (c mod 2).
    Definition flat12 (F : nat -> nat -> nat -> R) : nat -> nat -> R := fun r c => F (r / 2)%nat (r mod 2) c.
    Definition flat21 (F : nat -> nat -> nat -> R) : nat -> nat -> R := fun r c => F r (c / 2)%nat (c mod 2).

    (** internal.w1_w1, w1_w2, w2_w1, w2_w2, w1_rhs; boundary[b].w1_w1_hat, w2_w1_hat,
        w1_hat_w1, w1_hat_w2; edge_internal.w1_hat_w1_hat. *)
    Record dcsys := DC { d_11 : nat -> nat -> nat -> R; d_12 : nat -> nat -> nat -> R; d_21 : nat -> nat -> nat -> R;
      d_22 : nat -> nat -> nat -> R; d_r : nat -> nat -> R; d_1h : nat -> nat -> nat -> nat -> R; d_2h : nat -> nat -> nat -> nat -> R;
      d_h1 : nat -> nat -> nat -> nat -> R; d_h2 : nat -> nat -> nat -> nat -> R; d_hh : nat -> nat -> nat -> R }.

    (** ehdg_gn_proc_volume.hpp lines 6-86 and ehdg_gn_proc_source.hpp lines 96-99; blocks of
        dry elements are not used. *)
    Definition vol_11 (e : nat) : nat -> nat -> R := flat11 (fun i a j c =>
      s_pp e i j (fun gp => delta a c + alpha * (b1 e gp a * b1 e gp c)) +
      s_pdp e j a i (fun gp => - alpha / 2 * (h_elt e gp * b1 e gp c))).
    Definition vol_12 (e : nat) : nat -> nat -> R := flat12 (fun i a j =>
      s_pdp e i a j (fun _ => - alpha / 3) + s_pp e i j (fun gp => - alpha / 2 * (b1 e gp a / h_elt e gp))).
    Definition vol_21 (e : nat) : nat -> nat -> R := flat21 (fun i j c => s_pdp e j c i (fun gp => / h_elt e gp)).
    Definition vol_22 (e : nat) : nat -> nat -> R := fun i j => s_pp e i j (fun gp => / (h_elt e gp * h_elt e gp * h_elt e gp)).
    Definition vol_r (e : nat) : nat -> R := fun r => s_phi e (source_at_gp e (r mod 2)) (r / 2)%nat.

    (** ehdg_gn_proc_edge_intface.hpp lines 6-141, ehdg_gn_proc_edge_bound.hpp lines 6-70:
        contributions of one wet side; h_hat is the mean depth. *)
    Definition loc_11 (ed : gedge) (s : gside) : nat -> nat -> R := flat11 (fun i a j c =>
      s_fpp ed (s_b s) i j (fun _ => - alpha / 3 * tau * delta a c)).
    Definition loc_1h (ed : gedge) (s : gside) : nat -> nat -> R := flat11 (fun i a j c =>
      s_pl ed s i j (fun gp => alpha / 3 * tau * delta a c +
        alpha / 2 * (b_hat_at ed (gp_hat s gp) c * comp (s_n s) a * hat h_fc ed (gp_hat s gp)))).
    Definition loc_2h (ed : gedge) (s : gside) : nat -> nat -> R := flat21 (fun i j c =>
      s_pl ed s i j (fun gp => - (comp (s_n s) c / hat h_fc ed (gp_hat s gp)))).

    Definition wet_sides (ed : gedge) : list gside := filter (fun s => wet (s_e s)) (ge_sides ed).
    Definition wet_edge (ed : gedge) : bool := existsb (fun s => wet (s_e s)) (ge_sides ed).
    Definition upd2 {A : Type} (F : nat -> nat -> A) (e b : nat) (x : A) : nat -> nat -> A := upd F e (upd (F e) b x).
    Definition plus2 (A B : nat -> nat -> R) : nat -> nat -> R := fun r c => A r c + B r c.
    Definition minus2 (A B : nat -> nat -> R) : nat -> nat -> R := fun r c => A r c - B r c.
    Definition local_side (ed : gedge) (d : dcsys) (s : gside) : dcsys :=
      DC (upd (d_11 d) (s_e s) (plus2 (d_11 d (s_e s)) (loc_11 ed s))) (d_12 d) (d_21 d) (d_22 d) (d_r d)
         (upd2 (d_1h d) (s_e s) (s_b s) (loc_1h ed s)) (upd2 (d_2h d) (s_e s) (s_b s) (loc_2h ed s)) (d_h1 d) (d_h2 d) (d_hh d).
    Definition local_edge (d : dcsys) (ed : gedge) : dcsys := fold_left (local_side ed) (wet_sides ed) d.

    (** ComputeGlobalKernelsDC: ehdg_gn_is_internal.hpp lines 14-91, ehdg_gn_bc_land.hpp lines
        14-34, ehdg_gn_bc_tide.hpp, _flow.hpp, _function.hpp (alike).  Kernels of w1_hat_w1_hat
        (a, c), of w1_hat_w1 (side, a, c) and of w1_hat_w2 (side, a).  The levee
        specialisation sets none of them: the kernels read next are indeterminate. *)
    Definition wall_kernels : (nat -> nat -> R) * (gside -> nat -> nat -> R) * (gside -> nat -> R) :=
      (fun a c => - delta a c, fun s a c => delta a c - comp (s_n s) a * comp (s_n s) c, fun _ _ => 0).
    Definition flow_kernels (k : R) : (nat -> nat -> R) * (gside -> nat -> nat -> R) * (gside -> nat -> R) :=
      (fun a c => - k * tau * delta a c, fun _ a c => tau * delta a c, fun s a => comp (s_n s) a).
    Definition edge_kernels (ed : gedge) : outcome ((nat -> nat -> R) * (gside -> nat -> nat -> R) * (gside -> nat -> R)) :=
      match ge_kind ed with
      | KInternal => if forallb (fun s => wet (s_e s)) (ge_sides ed) then Ok (flow_kernels 2) else Ok wall_kernels
      | KLevee => UB
      | KLand => Ok wall_kernels
      | KOpen => Ok (flow_kernels 1)
      end.
    (** ehdg_gn_proc_edge_intface.hpp lines 143-205, ehdg_gn_proc_edge_bound.hpp lines 72-110. *)
    Definition global_side (ed : gedge) (K1 : gside -> nat -> nat -> R) (K2 : gside -> nat -> R) (d : dcsys) (s : gside) : dcsys :=
      DC (d_11 d) (d_12 d) (d_21 d) (d_22 d) (d_r d) (d_1h d) (d_2h d)
         (upd2 (d_h1 d) (s_e s) (s_b s) (flat11 (fun i a j c => s_pl ed s j i (fun _ => K1 s a c))))
         (upd2 (d_h2 d) (s_e s) (s_b s) (flat12 (fun i a j => s_pl ed s j i (fun _ => K2 s a)))) (d_hh d).
    Definition global_edge (d : dcsys) (x : nat * gedge) : outcome dcsys :=
      let ed := snd x in
      if wet_edge ed then
        do K <- edge_kernels ed ;
        let '(Kh, K1, K2) := K in
        let d1 := DC (d_11 d) (d_12 d) (d_21 d) (d_22 d) (d_r d) (d_1h d) (d_2h d) (d_h1 d) (d_h2 d)
                     (upd (d_hh d) (fst x) (flat11 (fun i a j c => s_ll ed i j (fun _ => Kh a c)))) in
        Ok (fold_left (global_side ed K1 K2) (wet_sides ed) d1)
      else Ok d.
    Definition numbered_edges : list (nat * gedge) := combine (seq 0 (length gedges)) gedges.
    (** ehdg_gn_proc_serial_step.hpp lines 54-69. *)
    Definition dc_blocks : outcome dcsys :=
      let none := fun _ _ _ => 0 in
      let d0 := DC vol_11 vol_12 vol_21 vol_22 vol_r (fun _ => none) (fun _ => none) (fun _ => none) (fun _ => none) none in
      ofold global_edge numbered_edges (fold_left local_edge gedges d0).
  End Stage.

  (** ** Edge numbering, ehdg_gn_proc_serial_sol_glob_prob.hpp lines 9-44: dc_global_dof_indx
      by edge and by face, and the number of blocks of the global matrix.  Without wetting
      and drying the numbering of the preprocessor stays. *)
  Record numbering := Numb { n_edge : nat -> nat; n_face : nat -> nat -> nat; n_count : nat }.
  Definition number_edge (wet : nat -> bool) (nb : numbering) (x : nat * gedge) : numbering :=
    let '(i, ed) := x in
    if wet_edge wet ed then
      Numb (upd (n_edge nb) i (n_count nb)) (fold_left (fun F s => upd2 F (s_e s) (s_b s) (n_count nb)) (ge_sides ed) (n_face nb)) (S (n_count nb))
    else nb.
  Definition renumber (wd : bool) (wet : nat -> bool) (nb : numbering) : numbering :=
    if wd then fold_left (number_edge wet) numbered_edges (Numb (n_edge nb) (n_face nb) 0) else nb.
  (** ehdg_gn_pre_serial.hpp: every edge gets a number. *)
  Definition first_numbering : numbering :=
    fold_left (number_edge (fun _ => true)) numbered_edges (Numb (fun _ => 0%nat) (fun _ _ => 0%nat) 0).

  (** ** The global solve, ehdg_gn_proc_serial_sol_glob_prob.hpp lines 46-218. *)
  Section Solve.
    Context (inverse : nat -> (nat -> nat -> R) -> nat -> nat -> R)
            (solve_dense : nat -> (nat -> nat -> R) -> (nat -> R) -> nat -> R)
            (solve_sparse : nat -> (nat -> nat -> R) -> (nat -> R) -> nat -> R).
    Context (wet : nat -> bool) (nb : numbering) (d : dcsys).
    Let n1 : nat := (2 * ndof m)%nat.
    Let n2 : nat := ndof m.
    Definition nhat : nat := (2 * S (m_p m))%nat.

    (** Lines 52-64, for wet elements. *)
    Definition inv22 (e : nat) : nat -> nat -> R := inverse n2 (d_22 d e).
    Definition cond_11 (e : nat) : nat -> nat -> R := minus2 (d_11 d e) (mm n2 (mm n2 (d_12 d e) (inv22 e)) (d_21 d e)).
    Definition cond_1h (e b : nat) : nat -> nat -> R :=
      let M := minus2 (d_1h d e b) (mm n2 (mm n2 (d_12 d e) (inv22 e)) (d_2h d e b)) in
      fun i j => solve_dense n1 (cond_11 e) (fun l => M l j) i.
    Definition cond_r (e : nat) : nat -> R := solve_dense n1 (cond_11 e) (d_r d e).

    (** Lines 79, 87-88, 100-119, 150-152: w1_hat_w1 and products with the faces of the element. *)
    Definition cond_h1 (e b : nat) : nat -> nat -> R := minus2 (d_h1 d e b) (mm n2 (mm n2 (d_h2 d e b) (inv22 e)) (d_21 d e)).
    Definition couple (e b b' : nat) : nat -> nat -> R :=
      plus2 (mm n2 (mm n2 (d_h2 d e b) (inv22 e)) (d_2h d e b')) (mm n1 (cond_h1 e b) (cond_1h e b')).
    Definition dofs (i : nat) : list nat := seq (i * nhat) nhat.
    Definition own_block (x : nat * gedge) : nat -> nat -> R :=
      fold_left (fun H s => minus2 H (couple (s_e s) (s_b s) (s_b s))) (wet_sides wet (snd x)) (d_hh d (fst x)).
    Definition side_triplets (i : nat) (s : gside) : list (nat * nat * R) :=
      flat_map (fun b => if Nat.eqb b (s_b s) then []
                         else ModelCond.block (dofs i) (dofs (n_face nb (s_e s) b)) (fun r c => - couple (s_e s) (s_b s) b r c)) (seq 0 3).
    Definition edge_triplets (x : nat * gedge) : list (nat * nat * R) :=
      let i := n_edge nb (fst x) in
      ModelCond.block (dofs i) (dofs i) (own_block x) ++ flat_map (side_triplets i) (wet_sides wet (snd x)).
    (** subvector(w1_hat_rhs, ...), lines 82, 91 (interfaces: -=) and 155 (boundaries: =). *)
    Definition sub_at (w : nat -> R) (i : nat) (v : nat -> R) : outcome (nat -> R) :=
      set_sub (nhat * n_count nb) w (dofs i) v.
    Definition add_side (x : nat * gedge) (w : nat -> R) (s : gside) : outcome (nat -> R) :=
      let i := n_edge nb (fst x) in
      let v := mv n1 (cond_h1 (s_e s) (s_b s)) (cond_r (s_e s)) in
      match ge_kind (snd x) with
      | KInternal | KLevee => sub_at w i (fun r => w (i * nhat + r)%nat - v r)
      | _ => sub_at w i (fun r => - v r)
      end.
    Definition assemble_edge (a : (nat -> R) * list (nat * nat * R)) (x : nat * gedge) : outcome ((nat -> R) * list (nat * nat * R)) :=
      do w <- ofold (add_side x) (wet_sides wet (snd x)) (fst a) ;
      Ok (w, snd a ++ (if wet_edge wet (snd x) then edge_triplets x else [])).

    (** Lines 187-211: the subvector is formed for dry edges too, with whatever number they
        were given last. *)
    Definition back_edge (sol : nat -> R) (r : nat -> nat -> R) (x : nat * gedge) : outcome (nat -> nat -> R) :=
      let i := n_edge nb (fst x) in
      if Nat.leb (i * nhat + nhat) (nhat * n_count nb) then
        Ok (fold_left (fun r s => upd r (s_e s) (fun l => r (s_e s) l - mv nhat (cond_1h (s_e s) (s_b s)) (fun j => sol (i * nhat + j)%nat) l))
              (wet_sides wet (snd x)) r)
      else UB.
    (** state.w1 by element, component and dof; only wet elements are written. *)
    Definition solve_dc : outcome (nat -> nat -> nat -> R) :=
      do a <- ofold assemble_edge numbered_edges (fun _ => 0, []) ;
      let '(rhs, ts) := a in
      if in_range (nhat * n_count nb) ts then
        let sol := solve_sparse (nhat * n_count nb)%nat (entry ts) rhs in
        do r <- ofold (back_edge sol) numbered_edges cond_r ;
        Ok (fun e a dof => r e (2 * dof + a)%nat)
      else UB.
  End Solve.

  (** ** The correction stage and the step. *)
  Section Step.
    Context (c : config) (disp : nat -> bool).
    Context (inverse : nat -> (nat -> nat -> R) -> nat -> nat -> R)
            (solve_dense : nat -> (nat -> nat -> R) -> (nat -> R) -> nat -> R)
            (solve_sparse : nat -> (nat -> nat -> R) -> (nat -> R) -> nat -> R).

    (** ehdg_gn_proc_volume.hpp lines 88-106; [disp] is source.dispersive_correction (false
        in the elements listed in the buffer file), [troubled] slope_limit_state.troubled as
        the last limiter call left it (ModelTrouble; false without slope limiting). *)
    Definition correction_rhs (troubled : nat -> bool) (q : nat -> coeffs) (wet : nat -> bool) (w1 : nat -> nat -> nat -> R) (e : nat) : coeffs :=
      fun var dof =>
        if wet e && disp e && negb (troubled e) then
          match var with
          | 0%nat => 0
          | S a => s_phi e (fun gp => c_g c / alpha * (at_gp (dze q a) e gp * h_elt q e gp) - sexp (w1 e a) (z2 m gp)) dof
          end
        else 0.

    Definition gstate : Type := mstate * numbering.
    (** ehdg_gn_proc_serial_step.hpp lines 48-82. *)
    Definition correction_stage (troubled : nat -> bool) (s : gstate * stepper) : outcome (gstate * stepper) :=
      let '((st, nb), stp) := s in
      let k := st_stage stp in
      let q := fun e => ms_q st e k in
      do d <- dc_blocks (c_g c) q (ms_wet st) ;
      let nb' := renumber (c_wd c) (ms_wet st) nb in
      do w1 <- solve_dc inverse solve_dense solve_sparse (ms_wet st) nb' d ;
      let st1 := fold_left (fun s e => update_kernel m c (st_dt stp) (st_nstages stp) k
                   (set_rhs s e k (correction_rhs troubled q (ms_wet st) w1 e)) e) (seq 0 (m_n m)) st in
      Ok ((st1, nb'), stepper_incr stp).
    Definition correction (troubled : nat -> bool) (s : gstate * stepper) : outcome (gstate * stepper) :=
      ofold (fun s _ => correction_stage troubled s) (seq 0 (st_nstages (snd s))) s.

    (** Lines 11-46 with second_strang_stepper.hpp: half a shallow-water step with the first
        stepper, the correction with the second, half a step with the first. *)
    Definition step_gn (troubled : nat -> bool) (s : gstate * stepper * stepper) : outcome (gstate * stepper * stepper) :=
      let '((st, nb), first, second) := s in
      do a <- step_serial m c (st, first) ;
      do b <- correction troubled ((fst a, nb), second) ;
      do e <- step_serial m c (fst (fst b), snd a) ;
      Ok ((fst e, snd (fst b)), snd e, snd b).
  End Step.
End GN.

(** second_strang_stepper.hpp lines 16-19: both steppers from one input, SetDT on the first. *)
Definition set_dt (stp : stepper) (dt : R) : stepper :=
  Stepper (st_nstages stp) (st_order stp) dt (st_step stp) (st_stage stp) (st_timestamp stp) (st_t stp)
    (st_has_ramp stp) (st_ramp_duration stp) (st_ramp stp).
Definition strang_steppers (nstages order : nat) (dt : R) (has_ramp : bool) (rd : R) : stepper * stepper :=
  let s := stepper_init nstages order dt has_ramp rd in (set_dt s (st_dt s / 2), s).

(** ** LU factors left in the matrix.  use_blaze.hpp lines 217-232: solve_sle leaves in A what
    gesv left in it; gesv for two rows with a[1][0] <= a[0][0], so without exchange: the unit
    lower factor below the diagonal and the upper factor.  ehdg_gn_proc_serial_sol_glob_prob.hpp
    lines 57-62 solve four times with internal.w1_w1.  (use_eigen.hpp leaves A alone, and
    so does [solve_dense] above.) *)
Definition gesv2 (A : nat -> nat -> R) (b : nat -> R) : (nat -> nat -> R) * (nat -> R) :=
  let l := A 1%nat 0%nat / A 0%nat 0%nat in
  let u := A 1%nat 1%nat - l * A 0%nat 1%nat in
  let y := (b 1%nat - l * b 0%nat) / u in
  (fun i j => match i, j with 1%nat, 0%nat => l | 1%nat, 1%nat => u | _, _ => A i j end,
   fun i => match i with 0%nat => (b 0%nat - A 0%nat 1%nat * y) / A 0%nat 0%nat | _ => y end).

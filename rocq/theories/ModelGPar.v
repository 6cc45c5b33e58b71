(** The distributed Green-Naghdi correction: derivatives and the blocks of the linear
    system of a simulation unit,
    problem/Green-Naghdi/discretization_EHDG/kernels_processor/ehdg_gn_proc_ompi_step.hpp
    lines 66-104 with the kernels for distributed edges, for the default gradient method
    (D_PROJECTION, B_PROJECTION).

    As in ModelIPar elements and edges keep the numbers they have on the undivided mesh,
    and the geometry is read from the same record as in the serial model, of which only
    the entries of the unit's own elements are read.  A distributed edge is a boundary
    with one side; its trace basis is that of ModelIPar.  Condensation inside a unit is
    that of the serial solver (ModelGN); the parallel assembly and solution of the
    condensed system (PETSc) are left out, and so are distributed levees. *)
From Coq Require Import Reals List Bool Arith.
From Verif Require Import Num Outcome ModelSWE ModelShape ModelBasis ModelJac ModelStep ModelIHDG ModelGN ModelIPar.
Import ListNotations.
Open Scope R_scope.

(** Entries of the messages a unit received, by distributed edge: those of
    projection_dbath_ompi.hpp (three exchanges) and projection_derivatives_ompi.hpp (two). *)
Record mailbox := Mail { in_bath : dedge -> list R; in_dbath : dedge -> list R; in_ddbath : dedge -> list R;
  in_first : dedge -> list R; in_du : dedge -> list R }.

Section GPar.
  Context (m : mesh).
  Definition the_gedge (k : nat) : gedge := nth k (gedges m) (GEdge KLand (0, 0)%nat []).
  Definition d_side (d : dedge) : gside := GSide (de_elt d) (de_face d) false (normal m (de_elt d) (de_face d)).
  Definition d_edge (d : dedge) : gedge := GEdge KOpen (de_elt d, de_face d) [d_side d].

  (** Loops that fill and read the messages: entry k gp + c is value [c] at Gauss point
      [gp] of the sender; the mean with the value of the Gauss point opposite. *)
  Definition packed (k : nat) (f : nat -> nat -> R) : list R :=
    flat_map (fun gp => map (fun c => f c gp) (seq 0 k)) (seq 0 (ngp1 m)).
  Definition averaged (k c : nat) (own : nat -> R) (w : list R) (gp : nat) : R :=
    (own gp + nth (k * (ngp1 m - gp - 1) + c) w 0) / 2.

  (** Projected derivative in a unit: elements, interfaces and boundaries as in the serial
      code, then the distributed edges with the means [hd]
      (e.g. projection_dbath_ompi.hpp lines 36-63). *)
  Definition d_proj (hd : dedge -> nat -> R) (a : nat) (D : nat -> nat -> R) (d : dedge) : nat -> nat -> R :=
    upd D (de_elt d) (fun dof => D (de_elt d) dof + s_fphi m (d_edge d) (de_face d) (fun gp => hd d gp * comp (s_n (d_side d)) a) dof).
  Definition unit_edges (un : iunit) : list gedge := map the_gedge (un_ints un ++ un_bnds un).
  Definition unit_proj_rhs (un : iunit) (v : nat -> nat -> R) (vf : nat -> nat -> nat -> R) (hd : dedge -> nat -> R) (a : nat) : nat -> nat -> R :=
    fold_left (d_proj hd a) (un_dist un)
      (fold_left (fun D ed => fold_left (proj_side m vf a ed) (ge_sides ed) D) (unit_edges un) (fun e dof => - s_dphi m e a (v e) dof)).
  Definition unit_project (un : iunit) (v : nat -> nat -> R) (vf : nat -> nat -> nat -> R) (hd : dedge -> nat -> R) (a : nat) : nat -> nat -> R :=
    fun e dof => vmsum (ndof m) (fun i => unit_proj_rhs un v vf hd a e i * element_minv (m_nodes m e) (GetMinv i dof)).

  Section Unit.
    Context (un : iunit) (box : mailbox).
    Definition d_val (c : nat -> nat -> R) (d : dedge) (gp : nat) : R := at_fgp m c (de_elt d) (de_face d) gp.

    (** ** Bathymetry, projection_dbath_ompi.hpp lines 10-67, 69-133 and 135-201. *)
    Definition d_bath (d : dedge) (gp : nat) : R := bath (m_faux m (de_elt d) (de_face d) gp).
    Definition bath_message (d : dedge) : list R := packed 1 (fun _ => d_bath d).
    Definition bath_hat (d : dedge) : nat -> R := averaged 1 0 (d_bath d) (in_bath box d).
    Definition u_dbath (a : nat) : nat -> nat -> R :=
      unit_project un (fun e gp => bath (m_aux m e gp)) (fun e b gp => bath (m_faux m e b gp)) bath_hat a.
    Definition dbath_message (d : dedge) : list R := packed 2 (fun a => d_val (u_dbath a) d).
    Definition dbath_hat (a : nat) (d : dedge) : nat -> R := averaged 2 a (d_val (u_dbath a) d) (in_dbath box d).
    Definition u_ddbath (a c : nat) : nat -> nat -> R :=
      unit_project un (at_gp m (u_dbath a)) (at_fgp m (u_dbath a)) (dbath_hat a) c.
    Definition ddbath_message (d : dedge) : list R := packed 4 (fun k => d_val (u_ddbath (k / 2) (k mod 2)) d).
    Definition ddbath_hat (a c : nat) (d : dedge) : nat -> R := averaged 4 (2 * a + c) (d_val (u_ddbath a c) d) (in_ddbath box d).
    Definition u_dddbath (a c l : nat) : nat -> nat -> R :=
      unit_project un (at_gp m (u_ddbath a c)) (at_fgp m (u_ddbath a c)) (ddbath_hat a c) l.

    Section Stage.
      Context (g : R) (q : nat -> coeffs) (wet : nat -> bool).
      (** ** Surface and velocity, projection_derivatives_ompi.hpp.  Lines 14-45: surface,
          velocity and depth of the own side, and its wet flag. *)
      Definition first_value (c : nat) (d : dedge) (gp : nat) : R :=
        match c with
        | 0%nat => ze (q_fc m q (de_elt d) (de_face d) gp)
        | 1%nat => uf_at m q 0 (de_elt d) (de_face d) gp
        | 2%nat => uf_at m q 1 (de_elt d) (de_face d) gp
        | _ => h_fc m q (de_elt d) (de_face d) gp
        end.
      Definition first_message (d : dedge) : list R :=
        packed 4 (fun c => first_value c d) ++ [if wet (de_elt d) then 1 else 0].
      (** Lines 61-82. *)
      Definition first_hat (c : nat) (d : dedge) : nat -> R := averaged 4 c (first_value c d) (in_first box d).
      Definition wet_neighbor (d : dedge) : bool := if Req_EM_T (nth (4 * ngp1 m) (in_first box d) 0) 0 then false else true.
      Definition u_dze (a : nat) : nat -> nat -> R :=
        unit_project un (fun e gp => ze (q_elt m q e gp)) (fun e b gp => ze (q_fc m q e b gp)) (first_hat 0) a.
      Definition u_du (i a : nat) : nat -> nat -> R := unit_project un (u_at m q i) (uf_at m q i) (first_hat (S i)) a.
      (** Lines 109-171. *)
      Definition du_message (d : dedge) : list R := packed 4 (fun k => d_val (u_du (k / 2) (k mod 2)) d).
      Definition du_hat (i a : nat) (d : dedge) : nat -> R := averaged 4 (2 * i + a) (d_val (u_du i a) d) (in_du box d).
      Definition u_ddu (i a c : nat) : nat -> nat -> R :=
        unit_project un (at_gp m (u_du i a)) (at_fgp m (u_du i a)) (du_hat i a) c.

      (** ** Blocks.  Volume and source as in ModelGN (vol_11, vol_12, vol_r), with the
          derivatives of the unit. *)
      Definition ub1 (e gp a : nat) : R := - at_gp m (u_dbath a) e gp.
      Definition ub2 (e gp a c : nat) : R := - at_gp m (u_ddbath a c) e gp.
      Definition ub3 (e gp a c l : nat) : R := - at_gp m (u_dddbath a c l) e gp.
      Definition u_source_at_gp (e a gp : nat) : R :=
        source_point g (h_elt m q e gp) (ub1 e gp) (ub2 e gp) (ub3 e gp) (fun c => at_gp m (u_dze c) e gp) (fun i => u_at m q i e gp)
          (fun i c => at_gp m (u_du i c) e gp) (fun i c l => at_gp m (u_ddu i c l) e gp) a.
      Definition u_vol_11 (e : nat) : nat -> nat -> R := flat11 (fun i a j c =>
        s_pp m e i j (fun gp => delta a c + alpha * (ub1 e gp a * ub1 e gp c)) +
        s_pdp m e j a i (fun gp => - alpha / 2 * (h_elt m q e gp * ub1 e gp c))).
      Definition u_vol_12 (e : nat) : nat -> nat -> R := flat12 (fun i a j =>
        s_pdp m e i a j (fun _ => - alpha / 3) + s_pp m e i j (fun gp => - alpha / 2 * (ub1 e gp a / h_elt m q e gp))).
      Definition u_vol_r (e : nat) : nat -> R := fun r => s_phi m e (u_source_at_gp e (r mod 2)) (r / 2)%nat.

      (** Interfaces and boundaries (loc_1h with the derivatives of the unit). *)
      Definition u_loc_1h (ed : gedge) (s : gside) : nat -> nat -> R := flat11 (fun i a j c =>
        s_pl m ed s i j (fun gp => alpha / 3 * tau * delta a c +
          alpha / 2 * (- hat m (at_fgp m (u_dbath c)) ed (gp_hat m s gp) * comp (s_n s) a * hat m (h_fc m q) ed (gp_hat m s gp)))).
      Definition put_local (e b : nat) (A F G : nat -> nat -> R) (x : dcsys) : dcsys :=
        DC (upd (d_11 x) e (plus2 (d_11 x e) A)) (d_12 x) (d_21 x) (d_22 x) (d_r x)
           (upd2 (d_1h x) e b F) (upd2 (d_2h x) e b G) (d_h1 x) (d_h2 x) (d_hh x).
      Definition u_local_edge (x : dcsys) (ed : gedge) : dcsys :=
        fold_left (fun x s => put_local (s_e s) (s_b s) (loc_11 m ed s) (u_loc_1h ed s) (loc_2h m q ed s) x) (wet_sides wet ed) x.

      (** Distributed edges, ehdg_gn_proc_edge_dbound.hpp lines 6-71: h_hat and dbath_hat are
          the means of the exchanges. *)
      Definition d_pl (d : dedge) (i j : nat) (u : nat -> R) : R :=
        vmsum (ngp1 m) (fun gp => u gp * (fphi m (de_face d) i gp * lam_fact m d gp j)).
      Definition d_ll (d : dedge) (i j : nat) (u : nat -> R) : R :=
        vmsum (ngp1 m) (fun gp => u gp * (lam m d i gp * lam_fact m d gp j)).
      Definition d_loc_1h (d : dedge) : nat -> nat -> R := flat11 (fun i a j c =>
        d_pl d i j (fun gp => alpha / 3 * tau * delta a c +
          alpha / 2 * (- dbath_hat c d gp * comp (s_n (d_side d)) a * first_hat 3 d gp))).
      Definition d_loc_2h (d : dedge) : nat -> nat -> R := flat21 (fun i j c =>
        d_pl d i j (fun gp => - (comp (s_n (d_side d)) c / first_hat 3 d gp))).
      Definition d_local (x : dcsys) (d : dedge) : dcsys :=
        if wet (de_elt d) then put_local (de_elt d) (de_face d) (loc_11 m (d_edge d) (d_side d)) (d_loc_1h d) (d_loc_2h d) x else x.
      (** Lines 74-110 with ehdg_gn_dbc_distributed.hpp lines 19-54. *)
      Definition d_kernels (d : dedge) : (nat -> nat -> R) * (gside -> nat -> nat -> R) * (gside -> nat -> R) :=
        if wet_neighbor d then flow_kernels 1 else wall_kernels.
      Definition d_global (x : dcsys) (d : dedge) : dcsys :=
        if wet (de_elt d) then
          let '(Kh, K1, K2) := d_kernels d in
          DC (d_11 x) (d_12 x) (d_21 x) (d_22 x) (d_r x) (d_1h x) (d_2h x)
             (upd2 (d_h1 x) (de_elt d) (de_face d) (flat11 (fun i a j c => d_pl d j i (fun _ => K1 (d_side d) a c))))
             (upd2 (d_h2 x) (de_elt d) (de_face d) (flat12 (fun i a j => d_pl d j i (fun _ => K2 (d_side d) a))))
             (upd (d_hh x) (de_edge d) (flat11 (fun i a j c => d_ll d i j (fun _ => Kh a c))))
        else x.
      (** ehdg_gn_proc_ompi_step.hpp lines 80-104. *)
      Definition unit_blocks : outcome dcsys :=
        let none := fun _ _ _ => 0 in
        let x0 := DC u_vol_11 u_vol_12 (vol_21 m q) (vol_22 m q) u_vol_r (fun _ => none) (fun _ => none) (fun _ => none) (fun _ => none) none in
        let x1 := fold_left d_local (un_dist un) (fold_left u_local_edge (unit_edges un) x0) in
        do x2 <- ofold (global_edge m wet) (map (fun k => (k, the_gedge k)) (un_ints un ++ un_bnds un)) x1 ;
        Ok (fold_left d_global (un_dist un) x2).
    End Stage.
  End Unit.
End GPar.

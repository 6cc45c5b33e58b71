(** Land edges, closed basins, the second order scheme. *)
From Coq Require Import Reals List Bool Arith Lra Lia.
From Coquelicot Require Import Coquelicot.
From Verif Require Import Num ModelSWE ModelShape ModelBasis SpecBasis ModelJac SpecJac SpecShape SpecSWE SpecStepper SpecStep LemmasShape LemmasSWE LemmasRK LemmasBasis4 LemmasStep
  ModelStep ModelIHDG SpecIHDG SpecIHDG2 LemmasIHDG1 LemmasIHDG2 LemmasIHDG3 LemmasIHDG4 LemmasIHDG5 LemmasIHDG6 LemmasIHDG7 LemmasIHDG9 LemmasIHDG10 LemmasIHDG11.
Import ListNotations.
Open Scope R_scope.

Lemma land_linear : forall n u uh du duh a, (a < 3)%nat ->
  vget (mvec (land_delta n) du) a + vget (mvec (mdiag 1 1 1) duh) a + vget (land_rhs n u uh) a = vget (land_rhs n (vadd u du) (vadd uh duh)) a.
Proof.
  intros n u uh du duh a Ha. destruct a as [|[|[|a]]]; try lia; unfold land_rhs, land_delta, mdiag, mvec, vadd; num_R; cbn; ring.
Qed.

Section System.
  Context (m : mesh) (eaux : nat -> nat -> aux3 R) (g dt theta t : R) (qp rp : nat -> coeffs) (s0 : newton).
  Notation sys := (fun q qh => newton_system m eaux g dt theta t qp rp q qh s0).
  Notation ni := (length (m_intfaces m)).
  Notation nb := (length (m_bounds m)).

  Lemma u_face_span : forall (q : nat -> coeffs) e b a, (m_p m <= 298)%nat -> span (m_p m) (fun z => vget (expand m (q e) (BoundaryToMasterCoordinates b z)) a).
  Proof.
    intros q e b a Hp.
    assert (R : forall v, span (m_p m) (fun z => vmsum (ndof m) (fun dof => q e v dof * GetPhi dof (BoundaryToMasterCoordinates b z)))).
    { intros v. change (vmsum (ndof m)) with (rsum (ndof m)). apply (span_sum (ndof m) (m_p m) (fun dof z => q e v dof * GetPhi dof (BoundaryToMasterCoordinates b z))).
      intros dof Hd. apply span_scal, face_span; [exact Hp|exact Hd]. }
    destruct a as [|[|a]]; cbn [vget expand ze qx qy]; apply R.
  Qed.
  Lemma u_edge_span : forall (qh : nat -> coeffs) ed, (forall v, span (m_p m) (fun z => vmsum (nedof m) (fun j => qh ed v j * legendre_phi j z))).
  Proof. intros qh ed v. exists (fun j => qh ed v j). intros z. apply vmsum_rsum. Qed.

  Lemma land_rhs_span : forall q qh ed e b n a, (m_p m <= 298)%nat -> exists c, forall gp,
    vget (land_rhs n (u_face m q e b gp) (u_edge m qh ed gp)) a = rsum (nedof m) (fun i => c i * legendre_phi i (z1 m gp)).
  Proof.
    intros q qh ed e b n a Hp.
    set (U := fun z => expand m (q e) (BoundaryToMasterCoordinates b z)).
    set (H := fun v z => vmsum (nedof m) (fun j => qh ed v j * legendre_phi j z)).
    assert (S : span (m_p m) (fun z => vget (land_rhs n (U z) (V3 (H 0%nat z) (H 1%nat z) (H 2%nat z))) a)).
    { pose proof (u_face_span q e b 0 Hp) as U0. pose proof (u_face_span q e b 1 Hp) as U1. pose proof (u_face_span q e b 2 Hp) as U2.
      pose proof (u_edge_span qh ed 0) as H0. pose proof (u_edge_span qh ed 1) as H1. pose proof (u_edge_span qh ed 2) as H2.
      destruct a as [|[|a]]; cbn [vget land_rhs ze qx qy].
      - apply (span_ext _ (fun z => H 0%nat z + (-1) * ze (U z))); [intros; ring|]. apply span_plus; [exact H0|]. apply span_scal. exact U0.
      - apply (span_ext _ (fun z => H 1%nat z + ((-1) * qx (U z) + ((nx n * nx n) * qx (U z) + (ny n * nx n) * qy (U z))))); [intros; ring|].
        apply span_plus; [exact H1|]. apply span_plus; [apply span_scal; exact U1|]. apply span_plus; apply span_scal; [exact U1|exact U2].
      - apply (span_ext _ (fun z => H 2%nat z + ((-1) * qy (U z) + ((nx n * ny n) * qx (U z) + (ny n * ny n) * qy (U z))))); [intros; ring|].
        apply span_plus; [exact H2|]. apply span_plus; [apply span_scal; exact U2|]. apply span_plus; apply span_scal; [exact U1|exact U2]. }
    destruct S as [c E]. exists c. intros gp. exact (E (z1 m gp)).
  Qed.

  (** A row of a land edge: the residual of the land condition after the pass. *)
  Definition land_res (q qh dq dqh : nat -> coeffs) (ed a gp : nat) : R :=
    let b := the_bnd m ed in vget (land_rhs (normal m (b_elt b) (b_id b)) (u_face m (plus q dq) (b_elt b) (b_id b) gp) (u_edge m (plus qh dqh) ed gp)) a.
  Lemma land_row : forall q qh dq dqh ed a i, conforming m -> (ni <= ed < ni + nb)%nat -> b_bc (the_bnd m ed) = Land -> (a < 3)%nat -> (i < nedof m)%nat ->
    lsum (sides m ed) (fun ef => applied (ndof m) (nw_glob (sys q qh) (fst ef) (snd ef)) (dq (fst ef)) a i) +
    applied (nedof m) (nw_hglob (sys q qh) ed) (dqh ed) a i - nw_grhs (sys q qh) ed a i =
    rsum (ngp1 m) (fun gp => land_res q qh dq dqh ed a gp * (legendre_phi i (z1 m gp) * (w1 m gp * GetSurfaceJ (m_nodes m (b_elt (the_bnd m ed))) (b_id (the_bnd m ed))))).
  Proof.
    intros q qh dq dqh ed a i C He Hl Ha Hi. set (b := the_bnd m ed). set (n := normal m (b_elt b) (b_id b)).
    set (r := land_res q qh dq dqh ed).
    match goal with |- ?X = _ => remember X as XX eqn:E end.
    rewrite side_bnd in E by lia. unfold lsum in E. cbn [map fold_right fst snd] in E. fold b in E.
        rewrite (applied_quad (ndof m) (ngp1 m) (fun _ => land_delta n) (fun j gp => GetPhi j (BoundaryToMasterCoordinates (b_id b) (z1 m gp)))
          (fun gp => legendre_phi i (z1 m gp) * (w1 m gp * GetSurfaceJ (m_nodes m (b_elt b)) (b_id b))) (dq (b_elt b)) a i _ Ha) in E.
        2:{ intros j c' _ _. unfold b. rewrite glob_bnd by assumption. unfold bd_glob, bd_kern. cbv zeta. rewrite Hl. unfold bc_kernels. cbn [fst snd].
            unfold phi_lambda_in, lambda_fact. apply vmsum_rsum. }
        rewrite (applied_quad (nedof m) (ngp1 m) (fun _ => mdiag 1 1 1) (fun j gp => legendre_phi j (z1 m gp))
          (fun gp => legendre_phi i (z1 m gp) * (w1 m gp * GetSurfaceJ (m_nodes m (b_elt b)) (b_id b))) (dqh ed) a i _ Ha) in E.
        2:{ intros j c' _ _. rewrite hglob_bnd by assumption. unfold bd_kern. cbv zeta. rewrite Hl. unfold bc_kernels. cbn [fst snd].
            unfold lambda_lambda, lambda_fact. apply vmsum_rsum. }
        rewrite grhs_bnd in E by assumption. unfold bd_kern in E. cbv zeta in E. rewrite Hl in E. unfold bc_kernels in E. cbn [fst snd] in E. fold b in E. fold n in E.
        unfold edge_lambda, lambda_fact in E. change (vmsum (ngp1 m)) with (rsum (ngp1 m)) in E.
        rewrite (rsum_ext (ngp1 m) (fun gp => r a gp * _) (fun gp =>
          legendre_phi i (z1 m gp) * (w1 m gp * GetSurfaceJ (m_nodes m (b_elt b)) (b_id b)) * vget (mvec (land_delta n) (expand m (dq (b_elt b)) (BoundaryToMasterCoordinates (b_id b) (z1 m gp)))) a +
          legendre_phi i (z1 m gp) * (w1 m gp * GetSurfaceJ (m_nodes m (b_elt b)) (b_id b)) * vget (mvec (mdiag 1 1 1) (u_edge m dqh ed gp)) a +
          vget (land_rhs n (u_face m q (b_elt b) (b_id b) gp) (u_edge m qh ed gp)) a * (legendre_phi i (z1 m gp) * (w1 m gp * GetSurfaceJ (m_nodes m (b_elt b)) (b_id b))))).
        + rewrite !rsum_plus.
          rewrite (rsum_ext (ngp1 m) (fun gp => _ * vget (mvec (land_delta n) (V3 _ _ _)) a) (fun gp => legendre_phi i (z1 m gp) * (w1 m gp * GetSurfaceJ (m_nodes m (b_elt b)) (b_id b)) * vget (mvec (land_delta n) (expand m (dq (b_elt b)) (BoundaryToMasterCoordinates (b_id b) (z1 m gp)))) a)) in E by (intros; rewrite rsum_V3; reflexivity).
          rewrite (rsum_ext (ngp1 m) (fun gp => _ * vget (mvec (mdiag 1 1 1) (V3 _ _ _)) a) (fun gp => legendre_phi i (z1 m gp) * (w1 m gp * GetSurfaceJ (m_nodes m (b_elt b)) (b_id b)) * vget (mvec (mdiag 1 1 1) (u_edge m dqh ed gp)) a)) in E by (intros; rewrite rsum_V3e; reflexivity).
          lra.
        + intros gp' _. unfold r, land_res. cbv zeta. fold b. fold n. rewrite face_add, edge_add, <- land_linear by exact Ha. unfold u_face. ring.
  Qed.
  Lemma land_after : forall q qh dq dqh ed, conforming m -> in_range m -> regular m -> solves m (sys q qh) dq dqh ->
    (ni <= ed < ni + nb)%nat -> b_bc (the_bnd m ed) = Land -> land_met m (plus q dq) (plus qh dqh) ed.
  Proof.
    intros q qh dq dqh ed C Rg [Hor [Hp Hw]] [_ S2] He Hl gp Hgp. set (b := the_bnd m ed). set (n := normal m (b_elt b) (b_id b)).
    assert (L : (ed < nedges m)%nat) by (unfold nedges, nint; lia).
    destruct (Rg ed (b_elt b) (b_id b) L ltac:(rewrite side_bnd by lia; left; reflexivity)) as [R1 R3].
    set (r := fun a gp => vget (land_rhs n (u_face m (plus q dq) (b_elt b) (b_id b) gp) (u_edge m (plus qh dqh) ed gp)) a).
    assert (J : 0 < GetSurfaceJ (m_nodes m (b_elt b)) (b_id b)).
    { rewrite surface_j. assert (D : 0 < dist (m_nodes m (b_elt b) ((b_id b + 1) mod 3)%nat) (m_nodes m (b_elt b) ((b_id b + 2) mod 3)%nat)); [|lra].
      apply dist_pos_orient with (c := m_nodes m (b_elt b) (b_id b)). intros E. apply (Hor (b_elt b) R1). rewrite <- (orient_cyc (m_nodes m (b_elt b)) (b_id b) R3).
      revert E. unfold orient. intros E. lra. }
    assert (Z : forall a, (a < 3)%nat -> forall gp, (gp < ngp1 m)%nat -> r a gp = 0).
    { intros a Ha. destruct (land_rhs_span (plus q dq) (plus qh dqh) ed (b_elt b) (b_id b) n a Hp) as [c Ec].
      apply (moments_zero (ngp1 m) (nedof m) (fun gp => w1 m gp * GetSurfaceJ (m_nodes m (b_elt b)) (b_id b)) (z1 m) (r a)).
      - intros gp' H'. apply Rmult_lt_0_compat; [apply Hw; exact H'|exact J].
      - exists c. intros gp' _. apply Ec.
      - intros i Hi. refine (eq_trans (eq_sym (land_row q qh dq dqh ed a i C He Hl Ha Hi)) _). rewrite (S2 ed a i L Ha Hi). ring. }
    unfold edge_normal. rewrite side_bnd by lia. cbn [nth fst snd]. cbv zeta. fold b. fold n.
    pose proof (Z 0%nat ltac:(lia) gp Hgp) as Z0. pose proof (Z 1%nat ltac:(lia) gp Hgp) as Z1. pose proof (Z 2%nat ltac:(lia) gp Hgp) as Z2.
    unfold r, land_rhs in Z0, Z1, Z2. cbn [vget ze qx qy] in Z0, Z1, Z2. cbv zeta in Z0, Z1, Z2. cbn [vget ze qx qy] in Z0, Z1, Z2. repeat split; lra.
  Qed.

  (** No mass through a land edge whose condition holds before and after. *)
  Lemma land_no_flux : forall q qh dq dqh ed gp, in_range m -> regular m -> (ni <= ed < ni + nb)%nat -> (gp < ngp1 m)%nat ->
    level_met m q qh ed -> land_met m (plus q dq) (plus qh dqh) ed -> vget (linear_flux m eaux g q qh dq dqh ed gp) 0 = 0.
  Proof.
    intros q qh dq dqh ed gp Rg [Hor _] He Hgp M1 M2. specialize (M1 gp Hgp). specialize (M2 gp Hgp).
    unfold linear_flux, trace_flux, edge_normal in *. unfold level_met in M1. rewrite side_bnd in * by lia. cbn [nth fst snd] in *. cbv zeta in *.
    set (b := the_bnd m ed) in *. set (n := normal m (b_elt b) (b_id b)) in *.
    destruct (Rg ed (b_elt b) (b_id b) ltac:(unfold nedges, nint; lia) ltac:(rewrite side_bnd by lia; left; reflexivity)) as [R1 R3].
    destruct (normal_unit m (b_elt b) (b_id b) (Hor _ R1) R3) as [U _]. fold n in U. unfold unit2 in U.
    rewrite edge_add, face_add in M2. unfold F_in, dF_in, tau_mat, dtau_delq, get_Fn, get_dFn_dq, columns.
    set (u := u_face m q (b_elt b) (b_id b) gp) in *. set (du := u_face m dq (b_elt b) (b_id b) gp) in *.
    set (uh := u_edge m qh ed gp) in *. set (duh := u_edge m dqh ed gp) in *.
    unfold vadd, vscale, ModelSWE.vsub, mvec, madd, msub, mdiag in *. num_R. cbn [vget ze qx qy m00 m01 m02 m10 m11 m12 m20 m21 m22] in *.
    destruct M2 as (B0 & B1 & B2).
    assert (D0 : ze u - ze uh = 0) by lra. assert (D1 : ze du - ze duh = 0) by lra.
    assert (Q : (qx uh + qx duh) * nx n + (qy uh + qy duh) * ny n = 0).
    { rewrite B1, B2. set (a := qx u + qx du). set (c := qy u + qy du).
      replace ((a - (a * nx n + c * ny n) * nx n) * nx n + (c - (a * nx n + c * ny n) * ny n) * ny n) with
        ((a * nx n + c * ny n) * (1 - (nx n * nx n + ny n * ny n))) by ring. rewrite U. ring. }
    unfold madd, mscale. cbn [m00 m01 m02]. rewrite D0.
    match goal with |- ?G = 0 => replace G with (((qx uh + qx duh) * nx n + (qy uh + qy duh) * ny n) + tau_at m eaux g qh ed gp n * (ze du - ze duh)) by ring end.
    rewrite Q, D1. ring.
  Qed.
End System.

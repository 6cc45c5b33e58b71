(** Proofs: Green-Gauss slopes. *)
From Coq Require Import Reals List Arith Bool Lia Lra.
From Coquelicot Require Import Hierarchy Derive AutoDerive.
From Verif Require Import Num Outcome ModelSWE LemmasSWE ModelShape ModelBasis ModelJac ModelStep ModelIHDG ModelCond SpecShape SpecBasis SpecStepper SpecStep SpecStage
  LemmasRK LemmasShape LemmasBasis LemmasBasis2 LemmasBasis3 LemmasBasis4 LemmasStep LemmasStage3 LemmasStage4 LemmasCond ModelGN SpecGN LemmasGN1 LemmasGN2 LemmasGN3 LemmasGN4
  ModelInit SpecRest LemmasRest1 LemmasRest2 LemmasRest3 LemmasEHDG5 LemmasGN8 LemmasGN9 ModelGrad SpecGrad LemmasGrad4.
Import ListNotations.
Open Scope R_scope.

Section Sums.
  Context (m : mesh).
  Definition side_part (vf : nat -> nat -> nat -> R) (a : nat) (ed : gedge) (s : gside) : R :=
    1 / GetArea (m_nodes m (s_e s)) * vmsum (ngp1 m) (fun gp => vf (s_e s) (s_b s) gp * comp (s_n s) a * (w1 m gp * len m ed)).
  Lemma gg_sides : forall vf a ed l D e,
    fold_left (gg_side m vf a ed) l D e = D e + lsum l (fun s => if Nat.eqb (s_e s) e then side_part vf a ed s else 0).
  Proof.
    intros vf a ed. induction l as [|s l IH]; intros D e; cbn [fold_left]; [unfold lsum; cbn; ring|]. rewrite IH, lsum_cons. unfold gg_side, upd, side_part.
    rewrite (Nat.eqb_sym e). destruct (Nat.eqb_spec (s_e s) e) as [E|E]; [subst|]; ring.
  Qed.
  Lemma gg_edges : forall vf a l D e,
    fold_left (fun D ed => fold_left (gg_side m vf a ed) (ge_sides ed) D) l D e =
    D e + lsum l (fun ed => lsum (ge_sides ed) (fun s => if Nat.eqb (s_e s) e then side_part vf a ed s else 0)).
  Proof.
    intros vf a. induction l as [|ed l IH]; intros D e; cbn [fold_left]; [unfold lsum; cbn; ring|]. rewrite IH, gg_sides, lsum_cons. ring.
  Qed.
End Sums.

Section GG.
  Context (i : input) (C : conforming i).
  Notation m := (init_mesh i).
  Lemma area_tri : forall e, (e < m_n m)%nat -> GetArea (m_nodes m e) = tri_area (m_nodes m e) /\ 0 < GetArea (m_nodes m e).
  Proof.
    intros e He. pose proof (cf_triangles i C e He) as T. cbn [m_nodes init_mesh]. unfold tri_area. rewrite (Rabs_pos_eq _ (Rlt_le _ _ T)).
    assert (E : GetArea (in_nodes i e) = orient (in_nodes i e 0%nat) (in_nodes i e 1%nat) (in_nodes i e 2%nat) / 2) by (unfold GetArea, orient; field). rewrite E. split; [reflexivity|lra].
  Qed.
  Lemma slope_faces : forall vf a e, (e < m_n m)%nat -> (a < 2)%nat ->
    slope_gg m vf a e = / tri_area (m_nodes m e) * rsum 3 (fun b => ncomp i e b a * rsum (ngp1 m) (fun gp => wgt m gp * vf e b gp)).
  Proof.
    intros vf a e He Ha. unfold slope_gg. rewrite gg_edges, Rplus_0_l. rewrite <- rsum_scal.
    rewrite <- (sides_sum m e (fun b => / tri_area (m_nodes m e) * (ncomp i e b a * rsum (ngp1 m) (fun gp => wgt m gp * vf e b gp))) (once i C) He).
    rewrite <- (numbered_snd m), !lsum_map. apply lsum_ext. intros x Hx. apply lsum_ext. intros s Hs.
    destruct (Nat.eqb_spec (s_e s) e) as [E|E]; [|reflexivity]. pose proof (proj1 (numbered_nth m x) Hx) as Nx.
    unfold side_part. rewrite E, (proj1 (area_tri e He)), vmsum_rsum. unfold Rdiv. rewrite Rmult_1_l. f_equal.
    rewrite <- E, <- (side_len i C (fst x) (snd x) s a Nx Hs Ha), <- (spec_normal m (fst x) (snd x) s a Nx Hs), <- (spec_len m (fst x) (snd x) Nx), <- rsum_scal.
    apply rsum_ext. intros gp _. unfold wgt, w1. ring.
  Qed.
  Lemma tri_pos : forall e, (e < m_n m)%nat -> 0 < tri_area (m_nodes m e).
  Proof. intros e He. destruct (area_tri e He) as [<- H]. exact H. Qed.
  Theorem slope_poly : forall vf F D a e, (e < m_n m)%nat -> (a < 2)%nat -> poly_on (2 * in_p i + 1) F D ->
    (forall b gp, (b < 3)%nat -> (gp < ngp1 m)%nat -> vf e b gp = F (at_face b (pos m gp))) ->
    slope_gg m vf a e = / tri_area (m_nodes m e) * vol_int m e (fun _ z => grad m a e (D z)).
  Proof.
    intros vf F D a e He Ha P V. rewrite (slope_faces vf a e He Ha), (green i C e a F D He Ha P). f_equal. apply rsum_ext. intros b Hb. f_equal. unfold face_sum. apply rsum_ext. intros gp Hg. rewrite V by assumption. reflexivity.
  Qed.
  Theorem slope_own : forall u a e, (e < m_n m)%nat -> (a < 2)%nat ->
    slope_gg m (at_fgp m u) a e = / tri_area (m_nodes m e) * vol_int m e (fun _ z => dval m a e (u e) z).
  Proof.
    intros u a e He Ha. pose proof (cf_order i C) as Ho.
    rewrite (slope_poly (at_fgp m u) (val m (u e)) (fun z => (rsum (ndof m) (fun j => u e j * fst (GetDPhi j z)), rsum (ndof m) (fun j => u e j * snd (GetDPhi j z)))) a e He Ha).
    - f_equal. apply vol_int_ext. intros. symmetry. apply dval_lin.
    - apply (po_le (m_p m)); [cbn [m_p init_mesh]; lia|]. apply po_val. cbn [m_p init_mesh]. lia.
    - intros b gp Hb Hg. unfold at_fgp, sexp, val. rewrite vmsum_rsum. rewrite on_face_model by exact Hb. reflexivity.
  Qed.
  Lemma minv00 : / GetMinv 0 0 = 2.
  Proof. destruct pq_values as [E0 _]. assert (P0 := f_equal fst E0). assert (Q0 := f_equal snd E0). cbn [fst snd] in P0, Q0. unfold GetMinv. rewrite P0, Q0. cbn [Nat.eqb]. change (uint ((2 * Z.of_nat 0 + 1) * (Z.of_nat 0 + Z.of_nat 0 + 1))) with (IZR 1). field. Qed.
  Lemma vol_const : forall e x, (e < m_n m)%nat -> vol_int m e (fun _ _ => x) = tri_area (m_nodes m e) * x.
  Proof.
    intros e x He. pose proof (ndof_ge3 (in_p i) (proj1 (cf_order i C))) as N. change (dubiner_ndof (in_p i)) with (ndof m) in N.
    rewrite (vol_int_ok i C e _ (fun _ z => x * (GetPhi 0 z * GetPhi 0 z))).
    - rewrite vol_int_scal, (mass_int i C e 0 0 He ltac:(lia) ltac:(lia)). cbn [Nat.eqb]. rewrite minv00. cbn [m_nodes init_mesh]. field.
    - intros gp z _ _ O. destruct (first_three z O) as [-> _]. ring.
  Qed.
  (** Elementwise constants have no slope. *)
  Lemma slope_const : forall vf w a e, (e < m_n m)%nat -> (a < 2)%nat -> (forall b gp, (b < 3)%nat -> (gp < ngp1 m)%nat -> vf e b gp = w) -> slope_gg m vf a e = 0.
  Proof.
    intros vf w a e He Ha V. rewrite (slope_poly vf (fun _ => w) (fun _ => (0, 0)) a e He Ha).
    - rewrite (vol_int_ext m e _ (fun _ _ => 0)) by (intros; rewrite grad_lin; cbn [fst snd]; ring). rewrite vol_const by exact He. ring.
    - apply (po_le 0); [lia|]. apply po_const.
    - exact V.
  Qed.
  (** Affine fields have their slope. *)
  Lemma po_affine : forall d p q r, (1 <= d)%nat -> poly_on d (fun z => p + q * fst z + r * snd z) (fun _ => (q, r)).
  Proof.
    intros d p q r Hd. apply (po_le 1); [exact Hd|]. exists (fun x y => p + q * x + r * y). split.
    - refine (pd_add 1 _ _ (pd_add 1 _ _ (pd_le 0 1 _ (Nat.le_0_l 1) (pd_const p)) (pd_scal q 1 _ pd_x)) (pd_scal r 1 _ pd_y)).
    - intros x y _. cbn [fst snd]. split; [reflexivity|]. split.
      + auto_derive; [exact I|ring].
      + auto_derive; [exact I|ring].
  Qed.
  Lemma slope_affine : forall u k g a e, affine_field m k g u -> (e < m_n m)%nat -> (a < 2)%nat -> slope_gg m (at_fgp m u) a e = pcomp a g.
  Proof.
    intros u k g a e A He Ha. destruct (A e He) as [Z V]. pose proof (cf_order i C) as Ho. pose proof (ndof_ge3 (in_p i) (proj1 Ho)) as N.
    set (w := fun v => affine k g (m_nodes m e v)).
    assert (VV : forall z, ok_point z -> val m (u e) z = u e 0%nat * GetPhi 0 z + u e 1%nat * GetPhi 1 z + u e 2%nat * GetPhi 2 z).
    { intros z O. unfold val. rewrite <- vmsum_rsum. apply vmsum_3; [exact N|]. intros j Hj. rewrite Z by exact Hj. ring. }
    assert (K : forall v, ok_point (corner v)) by (intros [|[|v]]; [left; cbn; lra|left; cbn; lra|right; reflexivity]).
    assert (WV : forall v, (v < 3)%nat -> w v = u e 0%nat * GetPhi 0 (corner v) + u e 1%nat * GetPhi 1 (corner v) + u e 2%nat * GetPhi 2 (corner v)).
    { intros v Hv. unfold w. rewrite <- (V v Hv). exact (VV (corner v) (K v)). }
    pose proof (WV 0%nat ltac:(lia)) as W0. pose proof (WV 1%nat ltac:(lia)) as W1. pose proof (WV 2%nat ltac:(lia)) as W2.
    destruct (first_three _ (K 0%nat)) as (A0 & A1 & A2). destruct (first_three _ (K 1%nat)) as (B0 & B1 & B2). destruct (first_three _ (K 2%nat)) as (C0 & C1 & C2).
    rewrite A0, A1, A2 in W0. rewrite B0, B1, B2 in W1. rewrite C0, C1, C2 in W2. cbn [corner fst snd] in W0, W1, W2. clear A0 A1 A2 B0 B1 B2 C0 C1 C2.
    rewrite (slope_poly (at_fgp m u) (fun z => (w 1%nat + w 2%nat) / 2 + (w 1%nat - w 0%nat) / 2 * fst z + (w 2%nat - w 0%nat) / 2 * snd z) (fun _ => ((w 1%nat - w 0%nat) / 2, (w 2%nat - w 0%nat) / 2)) a e He Ha).
    - rewrite (vol_int_ext m e _ (fun _ _ => pcomp a g)).
      + rewrite vol_const by exact He. pose proof (tri_pos e He). field. lra.
      + intros _ _. unfold w. pose proof (cf_triangles i C e He) as T. cbn [m_nodes init_mesh]. destruct a as [|[|a]]; [| |lia]; unfold grad, grad_x, grad_y, affine, vdot, pcomp; cbn [m_nodes init_mesh fst snd]; unfold orient in *; field; lra.
    - apply po_affine. lia.
    - intros b gp Hb Hg. unfold at_fgp, sexp. rewrite vmsum_rsum. change (rsum (ndof m) (fun dof => u e dof * GetPhi dof (BoundaryToMasterCoordinates b (z1 m gp)))) with (val m (u e) (BoundaryToMasterCoordinates b (z1 m gp))).
      pose proof (face_ok b (z1 m gp)) as O. rewrite (VV _ O). destruct (first_three _ O) as (-> & -> & ->). rewrite on_face_model by exact Hb. change (z1 m gp) with (pos m gp). rewrite W0, W1, W2. field.
  Qed.

  (** ** Slopes of affine fields, reconstructed *)
  Context (solve : mat2 -> point -> point).
  Lemma to_basis : forall x lin, constant_at m x lin -> exists u, all_elements m (fun e => ProjectLinearToBasis (m_p m) (lin e)) = Ok u /\ affine_field m x (0, 0) u.
  Proof.
    intros x lin K. pose proof (cf_order i C) as [Ho _].
    destruct (all_ok m (fun e => ProjectLinearToBasis (m_p m) (lin e))) as (u & E & U).
    { intros e He. destruct (l2b (m_p m) (lin e) Ho) as (w & W & _). exists w. exact W. }
    exists u. split; [exact E|]. intros e He. destruct (l2b (m_p m) (lin e) Ho) as (w & W & W0 & W1 & W2 & WZ). pose proof (U e He) as Ue. rewrite W in Ue. injection Ue as Ue. rewrite <- Ue.
    split; [intros j Hj; apply WZ; lia|]. intros v Hv. rewrite <- vmsum_rsum. rewrite vmsum_3.
    - rewrite W0, W1, W2, !(K e) by (exact He || lia).
      assert (O : ok_point (corner v)) by (destruct v as [|[|v]]; [left; cbn; lra|left; cbn; lra|right; reflexivity]). destruct (first_three _ O) as (-> & _ & _). unfold affine, vdot. cbn [fst snd]. field.
    - exact (ndof_ge3 (m_p m) Ho).
    - intros j Hj. rewrite WZ by lia. ring.
  Qed.
  Lemma derive_gg_affine : forall r jn k g u a, affine_field m k g u -> paired m solve r -> (a < 2)%nat ->
    exists du, derive_gg m solve r jn (at_fgp m u) a = Ok du /\ affine_field m (pcomp a g) (0, 0) du.
  Proof.
    intros r jn k g u a A P Ha. unfold derive_gg.
    destruct (recon_all_const m solve (once i C) r (slope_gg m (at_fgp m u) a) jn (pcomp a g) P) as (F & -> & K); [intros e He; apply (slope_affine u k g a e A He Ha)|].
    cbn [bind]. exact (to_basis (pcomp a g) F K).
  Qed.
  Lemma derive2_gg_affine : forall r jn k g u a c, affine_field m k g u -> paired m solve r -> (a < 2)%nat -> (c < 2)%nat ->
    exists ddu, derive2_gg m solve r jn (at_fgp m u) a c = Ok ddu /\ affine_field m 0 (0, 0) ddu.
  Proof.
    intros r jn k g u a c A P Ha Hc. unfold derive2_gg. destruct (derive_gg_affine r jn k g u a A P Ha) as (du & -> & D). cbn [bind].
    destruct (derive_gg_affine r jn _ _ du c D P Hc) as (d2 & -> & D2). exists d2. split; [reflexivity|]. replace (pcomp c (0, 0)) with 0 in D2 by (destruct c; reflexivity). exact D2.
  Qed.
  Lemma l2_own : forall v u e j, (e < m_n m)%nat -> (j < ndof m)%nat -> (forall gp, (gp < ngp2 m)%nat -> v e gp = val m (u e) (z2 m gp)) -> l2 m v e j = u e j.
  Proof.
    intros v u e j He Hj V. unfold l2. rewrite vmsum_rsum, (rsum_one (ndof m) _ j Hj).
    - assert (E : s_phi m e (v e) j = vol_int m e (fun _ z => GetPhi j z * val m (u e) z)).
      { unfold s_phi. rewrite vmsum_rsum, vol_int_eq. apply rsum_ext. intros gp Hg. rewrite V by exact Hg. ring. }
      rewrite E, (mass_row i C e (u e) j He Hj). unfold element_minv. change (Rabs (GetJdet (m_nodes m e))) with (jac m e). rewrite jac_area. pose proof (area_pos i C e He) as A. pose proof (minv_pos i C j Hj) as B. cbn [m_nodes init_mesh]. field. split; lra.
    - intros l Hl D. unfold GetMinv. destruct (Nat.eqb_spec l j); [congruence|]. unfold element_minv, Rdiv. ring.
  Qed.
End GG.

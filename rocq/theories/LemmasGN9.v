(** Proofs: derivatives of single valued piecewise polynomials are projected exactly. *)
From Coq Require Import Reals List Arith Bool Lia Lra.
From Coquelicot Require Import Hierarchy Derive.
From Verif Require Import Num Outcome ModelSWE LemmasSWE ModelShape ModelBasis ModelJac ModelStep ModelIHDG ModelCond SpecShape SpecBasis SpecStepper SpecStep SpecStage
  LemmasRK LemmasShape LemmasBasis LemmasBasis2 LemmasBasis3 LemmasBasis4 LemmasStep LemmasStage3 LemmasStage4 LemmasCond ModelGN SpecGN LemmasGN1 LemmasGN2 LemmasGN3 LemmasGN4
  ModelInit SpecRest LemmasRest1 LemmasRest2 LemmasRest3 LemmasEHDG5 LemmasGN8.
Import ListNotations.
Open Scope R_scope.

Section Exact.
  Context (i : input) (C : conforming i).
  Notation m := (init_mesh i).
  Lemma order_298 : (m_p m <= 298)%nat.
  Proof. cbn [m_p init_mesh]. pose proof (cf_order i C). lia. Qed.

  Lemma side_edge : forall k s, In s (edge_sides m k) -> (k < n_edges m)%nat ->
    exists ed s', nth_error (gedges m) k = Some ed /\ In s' (ge_sides ed) /\ s = tri3 s'.
  Proof.
    intros k s H Hk. rewrite <- gedges_length in Hk. destruct (nth_error (gedges m) k) as [ed|] eqn:E; [|apply nth_error_None in E; lia].
    rewrite (spec_sides m k ed E) in H. apply in_map_iff in H. destruct H as (s' & E' & H'). exists ed, s'. auto.
  Qed.
  Lemma mean_one : forall vf k s gp, one_valued m vf -> (k < n_edges m)%nat -> In s (edge_sides m k) -> (gp < ngp1 m)%nat ->
    mean m vf k (own m s gp) = vf (fst (fst s)) (snd (fst s)) gp.
  Proof.
    intros vf k s gp O Hk Hs Hg. unfold mean.
    assert (G : (own m s gp < ngp1 m)%nat) by (unfold own, ngp1 in *; destruct (snd s); lia).
    rewrite (lsum_ext _ _ _ (fun _ => vf (fst (fst s)) (snd (fst s)) gp)).
    - assert (L : forall l : list (nat * nat * bool), lsum l (fun _ => vf (fst (fst s)) (snd (fst s)) gp) = INR (length l) * vf (fst (fst s)) (snd (fst s)) gp).
      { induction l as [|x l IH]; [unfold lsum; cbn; ring|]. rewrite lsum_cons, IH. cbn [length]. rewrite S_INR. ring. }
      rewrite L. field. apply not_0_INR. destruct (edge_sides m k); [destruct Hs|discriminate].
    - intros t Ht. rewrite <- (O k s t (own m s gp) Hk Hs Ht G). rewrite own_own by exact Hg. reflexivity.
  Qed.

  Lemma face_sum_ext : forall b F G, (forall gp, (gp < ngp1 m)%nat -> F (at_face b (pos m gp)) = G (at_face b (pos m gp))) -> face_sum i b F = face_sum i b G.
  Proof. intros b F G H. unfold face_sum. apply rsum_ext. intros gp Hg. rewrite H by exact Hg. reflexivity. Qed.
  Lemma po_piece : forall d P D v vf e, piecewise m d P D v vf -> (e < m_n m)%nat -> poly_on d (P e) (D e).
  Proof. intros d P D v vf e H He. destruct (H e He) as (A & B & _). exists (fun x y => P e (x, y)). split; [exact A|]. intros x y _. split; [reflexivity|apply B]. Qed.

  Theorem weak_exact : forall P D v vf a e j, piecewise m (S (m_p m)) P D v vf -> one_valued m vf -> (e < m_n m)%nat -> (a < 2)%nat -> (j < ndof m)%nat ->
    weak_derivative m v vf a e j = vol_int m e (fun _ z => GetPhi j z * grad m a e (D e z)).
  Proof.
    intros P D v vf a e j HP HO He Ha Hj. pose proof (po_piece _ _ _ _ _ e HP He) as PO. pose proof (po_phi (m_p m) j order_298 Hj) as PJ.
    assert (PM : poly_on (2 * in_p i + 1) (fun z => GetPhi j z * P e z) (fun z => (fst (GetDPhi j z) * P e z + GetPhi j z * fst (D e z), snd (GetDPhi j z) * P e z + GetPhi j z * snd (D e z)))).
    { apply (po_le (m_p m + S (m_p m))); [cbn [m_p init_mesh]; lia|]. apply po_mul; assumption. }
    pose proof (green i C e a _ _ He Ha PM) as G.
    rewrite (vol_int_ok i C e _ (fun _ z => P e z * grad m a e (GetDPhi j z) + GetPhi j z * grad m a e (D e z))) in G by (intros; rewrite !grad_lin; cbn [fst snd]; ring).
    rewrite vol_int_plus in G. unfold weak_derivative.
    rewrite (vol_int_ok i C e _ (fun _ z => P e z * grad m a e (GetDPhi j z))).
    2:{ intros gp z Hg -> _. destruct (HP e He) as (_ & _ & V & _). rewrite (V gp Hg). reflexivity. }
    rewrite (at_faces i C e _ (fun b => ncomp i e b a * face_sum i b (fun z => GetPhi j z * P e z)) He); [lra|].
    intros k ed s Hk Hs Es Hb. rewrite <- Es, <- (side_len i C k ed s a Hk Hs Ha), Rmult_assoc, Es. unfold face_sum. f_equal. rewrite <- rsum_scal. apply rsum_ext. intros gp Hg.
    assert (Hs' : In (tri3 s) (edge_sides m k)) by (rewrite (spec_sides m k ed Hk); apply in_map; exact Hs).
    assert (Hn : (k < n_edges m)%nat) by (rewrite <- gedges_length; apply nth_error_Some; rewrite Hk; discriminate).
    rewrite (mean_one vf k (tri3 s) gp HO Hn Hs' Hg). cbn [tri3 fst snd]. rewrite Es. destruct (HP e He) as (_ & _ & _ & V). rewrite (V (s_b s) gp Hb Hg). ring.
  Qed.

  (** ** The mass matrix by quadrature *)
  Lemma mass_int : forall e j l, (e < m_n m)%nat -> (j < ndof m)%nat -> (l < ndof m)%nat ->
    vol_int m e (fun _ z => GetPhi j z * GetPhi l z) = if Nat.eqb j l then tri_area (in_nodes i e) / 2 * / GetMinv j j else 0.
  Proof.
    intros e j l He Hj Hl. pose proof (ndof_mono (m_p m) 298 order_298) as N. change (dubiner_ndof (m_p m)) with (ndof m) in N.
    assert (A : vol_int m e (fun _ z => GetPhi j z * GetPhi l z) = tri_area (in_nodes i e) / 2 * quad2 (in_rule2 i) (fun x y => GetPhi j (x, y) * GetPhi l (x, y))).
    { rewrite vol_int_eq. unfold quad2. rewrite <- rsum_scal. apply rsum_ext. intros gp _. rewrite jac_area. unfold w2, z2. cbn [m_rule2 m_nodes init_mesh].
      destruct (nth gp (in_rule2 i) (0, (0, 0))) as [w [x y]]. cbn [fst snd]. ring. }
    rewrite A, (pair_int (in_rule2 i) (2 * in_p i) j l (cf_rule2 i C) (cf_off i C)); [|pose proof (dof_degree j (in_p i) Hj); pose proof (dof_degree l (in_p i) Hl); lia|lia|lia].
    destruct (Nat.eqb j l); ring.
  Qed.
  Lemma area_pos : forall e, (e < m_n m)%nat -> 0 < tri_area (in_nodes i e) / 2.
  Proof. intros e He. pose proof (jac_area m e) as J. cbn [m_nodes init_mesh] in J. rewrite <- J. unfold jac. apply Rabs_pos_lt. pose proof (jdet_pos i C e He). cbn [m_nodes init_mesh]. lra. Qed.
  Lemma minv_pos : forall j, (j < ndof m)%nat -> 0 < GetMinv j j.
  Proof. intros j Hj. pose proof (ndof_mono (m_p m) 298 order_298) as N. change (dubiner_ndof (m_p m)) with (ndof m) in N. apply (orthogonality j j); lia. Qed.
  Lemma vol_int_sum : forall e n (F : nat -> nat -> point -> R), vol_int m e (fun gp z => rsum n (fun k => F k gp z)) = rsum n (fun k => vol_int m e (F k)).
  Proof.
    intros e. induction n as [|n IH]; intros F; cbn [rsum]; [|rewrite vol_int_plus, IH; reflexivity].
    rewrite (vol_int_ext m e _ (fun _ _ => 0 * 0)) by (intros; ring). rewrite vol_int_scal. ring.
  Qed.
  Lemma mass_row : forall e c j, (e < m_n m)%nat -> (j < ndof m)%nat ->
    vol_int m e (fun _ z => GetPhi j z * val m c z) = tri_area (in_nodes i e) / 2 * / GetMinv j j * c j.
  Proof.
    intros e c j He Hj. rewrite (vol_int_ext m e _ (fun _ z => rsum (ndof m) (fun l => c l * (GetPhi j z * GetPhi l z)))).
    2:{ intros. unfold val. change (dubiner_ndof (m_p m)) with (ndof m). rewrite <- rsum_scal. apply rsum_ext. intros. ring. }
    rewrite (vol_int_sum e (ndof m) (fun l _ z => c l * (GetPhi j z * GetPhi l z))).
    rewrite (rsum_one (ndof m) _ j Hj).
    - rewrite vol_int_scal, (mass_int e j j He Hj Hj), Nat.eqb_refl. ring.
    - intros l Hl D. rewrite vol_int_scal, (mass_int e j l He Hj Hl). destruct (Nat.eqb_spec j l); [congruence|]. ring.
  Qed.
  Lemma mass_unique : forall e d r j, (e < m_n m)%nat -> (j < ndof m)%nat ->
    (forall M, (forall l, (l < ndof m)%nat -> is_triangle_int (fun x y => GetPhi j (x, y) * GetPhi l (x, y)) (M l)) ->
      rsum (ndof m) (fun l => tri_area (in_nodes i e) / 2 * M l * d l) = r) ->
    tri_area (in_nodes i e) / 2 * / GetMinv j j * d j = r.
  Proof.
    intros e d r j He Hj H. pose proof (ndof_mono (m_p m) 298 order_298) as N. change (dubiner_ndof (m_p m)) with (ndof m) in N.
    rewrite <- (H (fun l => if Nat.eqb j l then / GetMinv j j else 0)).
    - rewrite (rsum_one (ndof m) _ j Hj); [rewrite Nat.eqb_refl; reflexivity|]. intros l Hl D. destruct (Nat.eqb_spec j l); [congruence|]. ring.
    - intros l Hl. apply (orthogonality j l); lia.
  Qed.

  (** Where the derivative is itself in the space, it is found exactly. *)
  Theorem project_exact : forall P D v vf a c, piecewise m (S (m_p m)) P D v vf -> one_valued m vf -> (a < 2)%nat ->
    (forall e gp, (e < m_n m)%nat -> (gp < ngp2 m)%nat -> grad m a e (D e (z2 m gp)) = val m (c e) (z2 m gp)) ->
    forall e j, (e < m_n m)%nat -> (j < ndof m)%nat -> project m v vf a e j = c e j.
  Proof.
    intros P D v vf a c HP HO Ha HG e j He Hj.
    pose proof (project_derivative m (once i C) (good_tri i C) v vf a order_298 Ha) as PD.
    pose proof (mass_unique e (project m v vf a e) _ j He Hj (fun M HM => PD e j M He Hj HM)) as U.
    rewrite (weak_exact P D v vf a e j HP HO He Ha Hj) in U.
    rewrite (vol_int_ok i C e _ (fun _ z => GetPhi j z * val m (c e) z)) in U by (intros gp z Hg -> _; rewrite HG by assumption; reflexivity).
    rewrite (mass_row e (c e) j He Hj) in U. pose proof (area_pos e He) as A. pose proof (minv_pos j Hj) as B.
    apply (Rmult_eq_reg_l (tri_area (in_nodes i e) / 2 * / GetMinv j j)); [exact U|].
    apply Rgt_not_eq, Rlt_gt, Rmult_lt_0_compat; [exact A|apply Rinv_0_lt_compat; exact B].
  Qed.
  Lemma project_const : forall v vf x a e j, (forall e gp, (e < m_n m)%nat -> (gp < ngp2 m)%nat -> v e gp = x) ->
    (forall e b gp, (e < m_n m)%nat -> (b < 3)%nat -> (gp < ngp1 m)%nat -> vf e b gp = x) ->
    (a < 2)%nat -> (e < m_n m)%nat -> (j < ndof m)%nat -> project m v vf a e j = 0.
  Proof.
    intros v vf x a e j H1 H2 Ha He Hj. rewrite (project_ext m (once i C) v (fun _ _ => x) vf (fun _ _ _ => x) a e j H1 H2 He).
    apply (project_exact (fun _ _ => x) (fun _ _ => (0, 0)) (fun _ _ => x) (fun _ _ _ => x) a (fun _ _ => 0)); try assumption.
    - intros e' _. split; [apply (pd_le 0); [lia|apply pd_const]|]. split; [|split; reflexivity]. intros x' y'. split; apply is_derive_c.
    - intros k s t gp _ _ _ _. reflexivity.
    - intros e' gp _ _. rewrite grad_lin. cbn [fst snd]. unfold val. rewrite (rsum_ext _ _ (fun _ => 0)) by (intros; ring). rewrite rsum_const0 by reflexivity. ring.
  Qed.
End Exact.

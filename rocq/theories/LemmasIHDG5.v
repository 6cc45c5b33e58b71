(** The Newton blocks are the derivatives of the residual. *)
From Coq Require Import Reals List Bool Arith Lra Lia.
From Coquelicot Require Import Coquelicot.
From Verif Require Import Num ModelSWE ModelShape ModelBasis ModelJac SpecJac LemmasJac LemmasJac2 SpecStepper LemmasSWE LemmasRK LemmasBasis2 LemmasBasis3
  LemmasBasis4 ModelStep LemmasStep ModelIHDG SpecIHDG LemmasIHDG1 LemmasIHDG2 LemmasIHDG3 LemmasIHDG4.
Import ListNotations.
Open Scope R_scope.

Section Partial.
  Context (q : nat -> coeffs) (e v j : nat).
  Notation part f D := (partial f q e v j D).
  Lemma part_ext : forall f h D E, part f D -> (forall q', f q' = h q') -> D = E -> part h E.
  Proof. intros f h D E F X <-. refine (is_derive_e _ _ _ _ _ F _ eq_refl). intros t. apply X. Qed.
  Lemma part_same : forall f, (forall t, f (bump q e v j t) = f q) -> part f 0.
  Proof. intros f X. refine (is_derive_e (fun _ => f q) _ _ 0 0 (is_derive_c _ _) _ eq_refl). intros t. symmetry. apply X. Qed.
  Lemma part_plus : forall f h D E, part f D -> part h E -> part (fun q' => f q' + h q') (D + E).
  Proof. intros f h D E F H. exact (is_derive_p _ _ _ _ _ F H). Qed.
  Lemma part_scal : forall c f D, part f D -> part (fun q' => c * f q') (c * D).
  Proof.
    intros c f D F. refine (is_derive_e _ _ _ _ _ (is_derive_k _ c _ _ F) _ _); [intros y|]; apply Rmult_comm.
  Qed.
  Lemma part_sum : forall n (f : nat -> (nat -> coeffs) -> R) D, (forall k, (k < n)%nat -> part (f k) (D k)) ->
    part (fun q' => rsum n (fun k => f k q')) (rsum n D).
  Proof. intros n f D H. exact (rsum_der n (fun k t => f k (bump q e v j t)) D _ H). Qed.
  Lemma part_on : forall x y f D, part f D -> part (fun q' => on x y (f q')) (on x y D).
  Proof. intros x y f D H. unfold on. destruct (x =? y)%nat; [exact H|]. apply part_same. reflexivity. Qed.
End Partial.

Section Coefs.
  Context (m : mesh) (eaux : nat -> nat -> aux3 R).
  Lemma coef_sum : forall n (pt : nat -> point) (f : nat -> vec3 R -> R) (D : nat -> nat -> R) (W : nat -> R) q e v j,
    (v < 3)%nat -> (j < ndof m)%nat -> (forall gp, (gp < n)%nat -> vgrad (f gp) (expand m (q e) (pt gp)) (D gp)) ->
    partial (fun q' => vmsum n (fun gp => f gp (expand m (q' e) (pt gp)) * W gp)) q e v j
      (vmsum n (fun gp => D gp v * GetPhi j (pt gp) * W gp)).
  Proof.
    intros n pt f D W q e v j Hv Hj H. unfold partial.
    refine (is_derive_e _ _ _ _ _ (sum_line n f (fun gp => expand m (q e) (pt gp)) D W (fun gp => GetPhi j (pt gp)) v (q e v j) Hv H) _ eq_refl).
    intros t. apply vmsum_ext. intros gp _. rewrite expand_bump by assumption. reflexivity.
  Qed.
  Lemma trace_sum : forall n (pm : nat -> nat) (f : nat -> vec3 R -> R) (D : nat -> nat -> R) (W : nat -> R) qh ed v j,
    (v < 3)%nat -> (j < nedof m)%nat -> (forall gp, (gp < n)%nat -> vgrad (f gp) (u_edge m qh ed (pm gp)) (D gp)) ->
    partial (fun q' => vmsum n (fun gp => f gp (u_edge m q' ed (pm gp)) * W gp)) qh ed v j
      (vmsum n (fun gp => D gp v * legendre_phi j (z1 m (pm gp)) * W gp)).
  Proof.
    intros n pm f D W qh ed v j Hv Hj H. unfold partial.
    refine (is_derive_e _ _ _ _ _ (sum_line n f (fun gp => u_edge m qh ed (pm gp)) D W (fun gp => legendre_phi j (z1 m (pm gp))) v (qh ed v j) Hv H) _ eq_refl).
    intros t. apply vmsum_ext. intros gp _. rewrite edge_bump by assumption. reflexivity.
  Qed.
End Coefs.

Section System.
  Context (m : mesh) (eaux : nat -> nat -> aux3 R) (g dt theta t : R) (qp rp : nat -> coeffs) (s0 : newton).
  Notation sys := (fun q qh => newton_system m eaux g dt theta t qp rp q qh s0).
  Notation ni := (length (m_intfaces m)).
  Notation nb := (length (m_bounds m)).

  Lemma elt_rhs_form : forall q e a i, elt_rhs m g dt theta t qp rp q e a i =
    - integration_phi m e (fun gp => vscale (/ dt) (ModelSWE.vsub (u_elt m q e gp) (u_elt m qp e gp))) a i
    + (1 - theta) * integration_dphi m e fst (fun gp => fst (get_F g (u_elt m q e gp) (a_elt m q e gp))) a i
    + (1 - theta) * integration_dphi m e snd (fun gp => snd (get_F g (u_elt m q e gp) (a_elt m q e gp))) a i
    + theta * rp e a i + (1 - theta) * integration_phi m e (source_gp m g t q e) a i.
  Proof. intros q e a i. unfold elt_rhs, local_source, local_volume. cbn [nw_rhs]. rewrite !upd_same. reflexivity. Qed.
  Lemma elt_delta_form : forall q e i a j b, elt_delta m g dt theta t qp rp q e i a j b =
    phi_phi m e j i (fun _ => mdiag (1 / dt) (1 / dt) (1 / dt)) a b
    - (1 - theta) * phi_dphi m e j fst i (fun gp => fst (get_dF_dq g (u_elt m q e gp) (a_elt m q e gp))) a b
    - (1 - theta) * phi_dphi m e j snd i (fun gp => snd (get_dF_dq g (u_elt m q e gp) (a_elt m q e gp))) a b
    - (1 - theta) * phi_phi m e j i (fun gp => dsource_dq (m_src m e) (u_elt m q e gp) (a_elt m q e gp)) a b.
  Proof. intros q e i a j b. unfold elt_delta, local_source, local_volume. cbn [nw_delta]. rewrite !upd_same. reflexivity. Qed.

  Definition smooth_elt (q : nat -> coeffs) (e : nat) : Prop := forall gp, (gp < ngp2 m)%nat ->
    0 < hh (a_elt m q e gp) /\ dsource_defined (m_src m e) (u_elt m q e gp) (a_elt m q e gp) = true.

  Lemma elt_partial : forall q e a i v j, (a < 3)%nat -> (v < 3)%nat -> (j < ndof m)%nat -> smooth_elt q e -> off_threshold m q e ->
    partial (fun q' => elt_rhs m g dt theta t qp rp q' e a i) q e v j
      (- elt_delta m g dt theta t qp rp q e i a j v + (1 - theta) * phi_phi m e j i (slope_mat m g e) a v).
  Proof.
    intros q e a i v j Ha Hv Hj Sm Off.
    set (Wp := fun gp => w2 m gp * GetPhi i (z2 m gp) * Rabs (GetJdet (m_nodes m e))).
    set (Wx := fun gp => w2 m gp * fst (physical_derivative (m_nodes m e) (GetDPhi i (z2 m gp))) * Rabs (GetJdet (m_nodes m e))).
    set (Wy := fun gp => w2 m gp * snd (physical_derivative (m_nodes m e) (GetDPhi i (z2 m gp))) * Rabs (GetJdet (m_nodes m e))).
    assert (P1 := coef_sum m (ngp2 m) (z2 m) (fun gp w => vget (vscale (/ dt) (ModelSWE.vsub w (u_elt m qp e gp))) a)
      (fun _ v => / dt * kron a v) Wp q e v j Hv Hj).
    assert (G1 : forall gp, (gp < ngp2 m)%nat -> vgrad (fun w => vget (vscale (/ dt) (ModelSWE.vsub w (u_elt m qp e gp))) a)
      (expand m (q e) (z2 m gp)) (fun v => / dt * kron a v)).
    { intros gp _. refine (grad_ext _ _ _ _ _ (grad_scal (/ dt) _ _ _ (grad_plus _ _ _ _ _ (grad_get a _ Ha) (grad_const (- vget (u_elt m qp e gp) a) _))) _ _).
      - intros w. rewrite vget_scale, vget_sub. ring.
      - intros v' _. ring. }
    specialize (P1 G1).
    assert (P2 := coef_sum m (ngp2 m) (z2 m) (fun gp w => vget (fst (get_F g w (with_depth (m_aux m e gp) w))) a)
      (fun gp => mget (fst (get_dF_dq g (u_elt m q e gp) (a_elt m q e gp))) a) Wx q e v j Hv Hj
      (fun gp H => grad_Fx g (m_aux m e gp) (u_elt m q e gp) a (Rgt_not_eq _ _ (proj1 (Sm gp H))) Ha)).
    assert (P3 := coef_sum m (ngp2 m) (z2 m) (fun gp w => vget (snd (get_F g w (with_depth (m_aux m e gp) w))) a)
      (fun gp => mget (snd (get_dF_dq g (u_elt m q e gp) (a_elt m q e gp))) a) Wy q e v j Hv Hj
      (fun gp H => grad_Fy g (m_aux m e gp) (u_elt m q e gp) a (Rgt_not_eq _ _ (proj1 (Sm gp H))) Ha)).
    assert (P4 := coef_sum m (ngp2 m) (z2 m)
      (fun gp w => vget (src_pt g (m_src m e) (match m_fs m with Some f => f t e gp | None => V3 0 0 0 end) (m_db m e gp) (m_aux m e gp) w) a)
      (fun gp v => mget (slope_pt g (m_db m e gp)) a v + mget (dsource_dq (m_src m e) (u_elt m q e gp) (a_elt m q e gp)) a v) Wp q e v j Hv Hj
      (fun gp H => source_grad g (m_src m e) _ (m_db m e gp) (m_aux m e gp) (u_elt m q e gp) a (proj1 (Sm gp H)) (proj2 (Sm gp H))
         (fun F M => Off F M gp H) Ha)).
    pose proof (part_plus _ _ _ _ _ _ _ _ (part_plus _ _ _ _ _ _ _ _ (part_plus _ _ _ _ _ _ _ _
      (part_scal _ _ _ _ (-1) _ _ P1) (part_scal _ _ _ _ (1 - theta) _ _ P2)) (part_scal _ _ _ _ (1 - theta) _ _ P3))
      (part_plus _ _ _ _ _ _ _ _ (part_same q e v j (fun _ => theta * rp e a i) (fun _ => eq_refl)) (part_scal _ _ _ _ (1 - theta) _ _ P4))) as K.
    refine (part_ext _ _ _ _ _ _ _ _ K _ _).
    - intros q'. rewrite elt_rhs_form.
      assert (S4 : integration_phi m e (source_gp m g t q' e) a i = vmsum (ngp2 m) (fun gp =>
        vget (src_pt g (m_src m e) (match m_fs m with Some f => f t e gp | None => V3 0 0 0 end) (m_db m e gp) (m_aux m e gp) (expand m (q' e) (z2 m gp))) a * Wp gp)).
      { unfold integration_phi. apply vmsum_ext. intros gp H. rewrite source_gp_pt by exact H. reflexivity. }
      rewrite S4. unfold integration_phi, integration_dphi, a_elt, u_elt. fold Wp.
      set (A1 := vmsum _ _). set (A2 := vmsum _ _). set (A3 := vmsum _ _). set (A4 := vmsum _ _). unfold Wp, Wx, Wy in *.
      change (-1 * A1 + (1 - theta) * A2 + (1 - theta) * A3 + (theta * rp e a i + (1 - theta) * A4) =
              - A1 + (1 - theta) * A2 + (1 - theta) * A3 + theta * rp e a i + (1 - theta) * A4). ring.
    - rewrite elt_delta_form. unfold phi_phi, phi_dphi.
      assert (E1 : vmsum (ngp2 m) (fun gp => / dt * kron a v * GetPhi j (z2 m gp) * Wp gp) =
        vmsum (ngp2 m) (fun gp => mget (mdiag (1 / dt) (1 / dt) (1 / dt)) a v * (GetPhi j (z2 m gp) * (w2 m gp * GetPhi i (z2 m gp) * Rabs (GetJdet (m_nodes m e)))))).
      { apply vmsum_ext. intros gp _. rewrite mget_diag by assumption. unfold Wp, Rdiv. ring. }
      assert (E2 : vmsum (ngp2 m) (fun gp => mget (fst (get_dF_dq g (u_elt m q e gp) (a_elt m q e gp))) a v * GetPhi j (z2 m gp) * Wx gp) =
        vmsum (ngp2 m) (fun gp => mget (fst (get_dF_dq g (u_elt m q e gp) (a_elt m q e gp))) a v *
          (GetPhi j (z2 m gp) * (w2 m gp * fst (physical_derivative (m_nodes m e) (GetDPhi i (z2 m gp))) * Rabs (GetJdet (m_nodes m e)))))).
      { apply vmsum_ext. intros gp _. unfold Wx. ring. }
      assert (E3 : vmsum (ngp2 m) (fun gp => mget (snd (get_dF_dq g (u_elt m q e gp) (a_elt m q e gp))) a v * GetPhi j (z2 m gp) * Wy gp) =
        vmsum (ngp2 m) (fun gp => mget (snd (get_dF_dq g (u_elt m q e gp) (a_elt m q e gp))) a v *
          (GetPhi j (z2 m gp) * (w2 m gp * snd (physical_derivative (m_nodes m e) (GetDPhi i (z2 m gp))) * Rabs (GetJdet (m_nodes m e)))))).
      { apply vmsum_ext. intros gp _. unfold Wy. ring. }
      assert (E4 : vmsum (ngp2 m) (fun gp => (mget (slope_pt g (m_db m e gp)) a v + mget (dsource_dq (m_src m e) (u_elt m q e gp) (a_elt m q e gp)) a v) * GetPhi j (z2 m gp) * Wp gp) =
        vmsum (ngp2 m) (fun gp => mget (slope_mat m g e gp) a v * (GetPhi j (z2 m gp) * (w2 m gp * GetPhi i (z2 m gp) * Rabs (GetJdet (m_nodes m e))))) +
        vmsum (ngp2 m) (fun gp => mget (dsource_dq (m_src m e) (u_elt m q e gp) (a_elt m q e gp)) a v * (GetPhi j (z2 m gp) * (w2 m gp * GetPhi i (z2 m gp) * Rabs (GetJdet (m_nodes m e)))))).
      { rewrite !vmsum_rsum, <- rsum_plus. apply rsum_ext. intros gp _. unfold Wp. change (slope_mat m g e gp) with (slope_pt g (m_db m e gp)). ring. }
      rewrite E1, E2, E3, E4. ring.
  Qed.
  Lemma elt_partial_other : forall q e e' a i v j, e <> e' -> partial (fun q' => elt_rhs m g dt theta t qp rp q' e a i) q e' v j 0.
  Proof.
    intros q e e' a i v j N. apply part_same. intros s. rewrite !elt_rhs_form.
    assert (U : forall gp, u_elt m (bump q e' v j s) e gp = u_elt m q e gp) by (intros gp; apply expand_other; exact N).
    assert (I : forall u u', (forall gp, (gp < ngp2 m)%nat -> u gp = u' gp) -> integration_phi m e u a i = integration_phi m e u' a i).
    { intros u u' X. unfold integration_phi. apply vmsum_ext. intros gp H. rewrite X by exact H. reflexivity. }
    assert (I' : forall d u u', (forall gp, (gp < ngp2 m)%nat -> u gp = u' gp) -> integration_dphi m e d u a i = integration_dphi m e d u' a i).
    { intros d u u' X. unfold integration_dphi. apply vmsum_ext. intros gp H. rewrite X by exact H. reflexivity. }
    rewrite (I (source_gp m g t (bump q e' v j s) e) (source_gp m g t q e)).
    2:{ intros gp H. rewrite !source_gp_pt by exact H. rewrite U. reflexivity. }
    f_equal. f_equal. f_equal; [f_equal; [f_equal|]|].
    - apply I. intros gp _. rewrite U. reflexivity.
    - f_equal. apply I'. intros gp _. unfold a_elt. rewrite U. reflexivity.
    - f_equal. apply I'. intros gp _. unfold a_elt. rewrite U. reflexivity.
  Qed.

  (** A face integral of the numerical flux, in the state of the side. *)
  Lemma face_partial : forall (u : nat -> vec3 R) (av : nat -> aux3 R) n sg q e e_len b_len b a i v j, (a < 3)%nat -> (v < 3)%nat -> (j < ndof m)%nat ->
    partial (fun q' => integration_face m e_len b_len b (fun gp => Fpt g (av gp) n sg (u_face m q' e b gp) (u gp)) a i) q e v j
      (face_phi_phi m e_len b_len b i j (fun gp => let tau := tau_LF g (u gp) (with_depth (av gp) (u gp)) n in mdiag tau tau tau) a v).
  Proof.
    intros u av n sg q e e_len b_len b a i v j Ha Hv Hj.
    refine (part_ext _ _ _ _ _ _ _ _ (coef_sum m (ngp1 m) (fun gp => BoundaryToMasterCoordinates b (z1 m gp))
      (fun gp w => vget (Fpt g (av gp) n sg w (u gp)) a) _
      (fun gp => GetPhi i (BoundaryToMasterCoordinates b (z1 m gp)) * (w1 m gp * GetSurfaceJ (m_nodes m e_len) b_len)) q e v j Hv Hj
      (fun gp _ => Fpt_side g (av gp) n sg (u gp) _ a Ha)) (fun _ => eq_refl) _).
    unfold face_phi_phi. apply vmsum_ext. intros gp _. cbv zeta. ring.
  Qed.
  Lemma face_other : forall F q e e' e_len b_len b a i v j, e <> e' ->
    partial (fun q' => integration_face m e_len b_len b (fun gp => F gp (u_face m q' e b gp)) a i) q e' v j 0.
  Proof.
    intros F q e e' e_len b_len b a i v j N. apply part_same. intros s. unfold integration_face. apply vmsum_ext. intros gp _.
    unfold u_face. rewrite expand_other by exact N. reflexivity.
  Qed.
  Lemma F_in_pt : forall qh ed gp n qs, F_in m eaux g qh ed gp n qs = Fpt g (eaux ed gp) n 1 qs (u_edge m qh ed gp).
  Proof.
    intros qh ed gp n qs. unfold F_in, Fpt, tau_at, a_edge. f_equal.
    unfold vscale. num_R. rewrite !Rmult_1_l. destruct (get_Fn _ _ _ _); reflexivity.
  Qed.
  Lemma F_ex_pt : forall qh ed gp n qs, F_ex m eaux g qh ed gp n qs = Fpt g (eaux ed gp) n (-1) qs (u_edge m qh ed gp).
  Proof. reflexivity. Qed.
  Lemma dF_in_pt : forall qh ed gp n qs a b, mget (dF_in m eaux g qh ed gp n qs) a b = mget (dFpt g (eaux ed gp) n 1 qs (u_edge m qh ed gp)) a b.
  Proof. intros qh ed gp n qs a b. unfold dF_in, dFpt, dtau_delq, tau_mat, tau_at, a_edge. cbv zeta. rewrite !mget_add, mget_scale. ring. Qed.
  Lemma dF_ex_pt : forall qh ed gp n qs, dF_ex m eaux g qh ed gp n qs = dFpt g (eaux ed gp) n (-1) qs (u_edge m qh ed gp).
  Proof. reflexivity. Qed.

  Lemma face_ext : forall e_len b_len b u u' a i, (forall gp, u gp = u' gp) -> integration_face m e_len b_len b u a i = integration_face m e_len b_len b u' a i.
  Proof. intros e_len b_len b u u' a i X. unfold integration_face. apply vmsum_ext. intros gp _. rewrite X. reflexivity. Qed.

  Lemma on_same : forall x r, on x x r = r.
  Proof. intros x r. unfold on. rewrite Nat.eqb_refl. reflexivity. Qed.
  Lemma on_other : forall x y r, x <> y -> on x y r = 0.
  Proof. intros x y r N. unfold on. apply Nat.eqb_neq in N. rewrite N. reflexivity. Qed.

  Lemma int_partial : forall q qh ed e e' a i v j, (a < 3)%nat -> (v < 3)%nat -> (j < ndof m)%nat ->
    partial (fun q' => int_rhs m eaux g theta q' qh ed e a i) q e' v j (if (e =? e')%nat then - int_delta m eaux g theta qh ed e i a j v else 0).
  Proof.
    intros q qh ed e e' a i v j Ha Hv Hj. unfold int_rhs, int_delta. cbv zeta. set (f := the_int m ed). set (n := normal m (i_in f) (i_bin f)).
    destruct (Nat.eqb_spec e e') as [E|N].
    - subst e'.
      assert (S : forall x y P D, (e = x -> partial P q e v j (- D)) -> partial (fun q' => on e x (y * P q')) q e v j (- on e x (y * D))).
      { intros x y P D H. unfold on. destruct (Nat.eqb_spec e x) as [E|N].
        - refine (part_ext _ _ _ _ _ _ _ _ (part_scal _ _ _ _ y _ _ (H E)) (fun _ => eq_refl) _). ring.
        - rewrite Ropp_0. apply part_same. reflexivity. }
      rewrite Ropp_plus_distr. apply part_plus.
      + refine (part_ext _ _ _ _ _ _ _ _ (S (i_in f) (1 - theta) (fun q' => - integration_face m (i_in f) (i_bin f) (i_bin f)
          (fun gp => F_in m eaux g qh ed gp n (u_face m q' (i_in f) (i_bin f) gp)) a i) _ _) _ eq_refl).
        * intros E. rewrite <- E. refine (part_ext _ _ _ _ _ _ _ _ (part_scal _ _ _ _ (-1) _ _
            (face_partial (u_edge m qh ed) (eaux ed) n 1 q e e (i_bin f) (i_bin f) a i v j Ha Hv Hj)) _ _).
          -- intros q'. rewrite (face_ext _ _ _ (fun gp => F_in m eaux g qh ed gp n (u_face m q' e (i_bin f) gp)) (fun gp => Fpt g (eaux ed gp) n 1 (u_face m q' e (i_bin f) gp) (u_edge m qh ed gp)) a i (fun gp => F_in_pt qh ed gp n _)). ring.
          -- unfold tau_mat, tau_at, a_edge. ring.
        * intros q'. f_equal. ring.
      + refine (part_ext _ _ _ _ _ _ _ _ (S (i_ex f) (1 - theta) (fun q' => - integration_face m (i_in f) (i_bin f) (i_bex f)
          (fun gp => F_ex m eaux g qh ed (mirror m gp) n (u_face m q' (i_ex f) (i_bex f) gp)) a i) _ _) _ eq_refl).
        * intros E. rewrite <- E. refine (part_ext _ _ _ _ _ _ _ _ (part_scal _ _ _ _ (-1) _ _
            (face_partial (fun gp => u_edge m qh ed (mirror m gp)) (fun gp => eaux ed (mirror m gp)) n (-1) q e (i_in f) (i_bin f) (i_bex f) a i v j Ha Hv Hj)) _ _).
          -- intros q'. change (-1 * integration_face m (i_in f) (i_bin f) (i_bex f) (fun gp => F_ex m eaux g qh ed (mirror m gp) n (u_face m q' e (i_bex f) gp)) a i =
               - integration_face m (i_in f) (i_bin f) (i_bex f) (fun gp => F_ex m eaux g qh ed (mirror m gp) n (u_face m q' e (i_bex f) gp)) a i). ring.
          -- unfold tau_mat, tau_at, a_edge. ring.
        * intros q'. f_equal. ring.
    - assert (Z : forall x P y, (e = x -> partial P q e' v j 0) -> partial (fun q' => on e x (y * P q')) q e' v j 0).
      { intros x P y H. unfold on. destruct (Nat.eqb_spec e x) as [E|N'].
        - refine (part_ext _ _ _ _ _ _ _ _ (part_scal _ _ _ _ y _ _ (H E)) (fun _ => eq_refl) _). ring.
        - apply part_same. reflexivity. }
      refine (part_ext _ _ _ _ _ _ _ _ (part_plus _ _ _ _ _ _ _ _ (Z (i_in f) _ _ _) (Z (i_ex f) _ _ _)) (fun _ => eq_refl) _); [| |ring].
      + intros E. apply (face_other (fun gp => F_in m eaux g qh ed gp n)). congruence.
      + intros E. apply (face_other (fun gp => F_ex m eaux g qh ed (mirror m gp) n)). congruence.
  Qed.
  Lemma face_phi_phi_comm : forall e_len b_len b i j u a c, face_phi_phi m e_len b_len b i j u a c = face_phi_phi m e_len b_len b j i u a c.
  Proof. intros. unfold face_phi_phi. apply vmsum_ext. intros gp _. ring. Qed.
  Lemma bnd_partial : forall q qh ed e e' a i v j, (a < 3)%nat -> (v < 3)%nat -> (j < ndof m)%nat ->
    partial (fun q' => bnd_rhs m eaux g theta q' qh ed e a i) q e' v j (if (e =? e')%nat then - bnd_delta m eaux g theta qh ed e i a j v else 0).
  Proof.
    intros q qh ed e e' a i v j Ha Hv Hj. unfold bnd_rhs, bnd_delta. cbv zeta. set (f := the_bnd m ed). set (n := normal m (b_elt f) (b_id f)).
    unfold on. destruct (Nat.eqb_spec e (b_elt f)) as [E|N].
    2:{ destruct (e =? e')%nat; rewrite ?Ropp_0; apply part_same; reflexivity. }
    rewrite <- E. destruct (Nat.eqb_spec e e') as [E'|N'].
    - subst e'. refine (part_ext _ _ _ _ _ _ _ _ (part_scal _ _ _ _ (- (1 - theta)) _ _
        (face_partial (u_edge m qh ed) (eaux ed) n 1 q e e (b_id f) (b_id f) a i v j Ha Hv Hj)) _ _).
      + intros q'. f_equal. symmetry. apply face_ext. intros gp. apply F_in_pt.
      + rewrite face_phi_phi_comm. unfold tau_mat, tau_at, a_edge. ring.
    - refine (part_ext _ _ _ _ _ _ _ _ (part_scal _ _ _ _ (- (1 - theta)) _ _
        (face_other (fun gp => F_in m eaux g qh ed gp n) q e e' e (b_id f) (b_id f) a i v j N')) (fun _ => eq_refl) _). ring.
  Qed.

  Theorem local_local : forall q qh e e' a i v j, (e < m_n m)%nat -> (a < 3)%nat -> (v < 3)%nat -> (j < ndof m)%nat ->
    smooth_elt q e -> off_threshold m q e ->
    partial (fun q' => nw_rhs (sys q' qh) e a i) q e' v j
      (if (e =? e')%nat then - nw_delta (sys q qh) e i a j v + (1 - theta) * phi_phi m e j i (slope_mat m g e) a v else 0).
  Proof.
    intros q qh e e' a i v j He Ha Hv Hj Sm Off.
    assert (P : partial (fun q' => elt_rhs m g dt theta t qp rp q' e a i) q e' v j
      (if (e =? e')%nat then - elt_delta m g dt theta t qp rp q e i a j v + (1 - theta) * phi_phi m e j i (slope_mat m g e) a v else 0)).
    { destruct (Nat.eqb_spec e e') as [E|N]; [subst e'; apply elt_partial; assumption|apply elt_partial_other; exact N]. }
    pose proof (part_plus _ _ _ _ _ _ _ _ (part_plus _ _ _ _ _ _ _ _ P
      (part_sum _ _ _ _ ni _ _ (fun k _ => int_partial q qh k e e' a i v j Ha Hv Hj)))
      (part_sum _ _ _ _ nb _ _ (fun k _ => bnd_partial q qh (ni + k)%nat e e' a i v j Ha Hv Hj))) as K.
    refine (part_ext _ _ _ _ _ _ _ _ K _ _).
    - intros q'. symmetry. apply rhs_entry. exact He.
    - destruct (e =? e')%nat.
      + rewrite delta_entry by exact He.
        rewrite (rsum_ext ni _ (fun ed => -1 * int_delta m eaux g theta qh ed e i a j v)) by (intros; ring).
        rewrite (rsum_ext nb _ (fun k => -1 * bnd_delta m eaux g theta qh (ni + k) e i a j v)) by (intros; ring).
        rewrite !rsum_scal. ring.
      + rewrite !rsum_0. ring.
  Qed.
End System.

(** Proofs: a correction stage as the specification describes it. *)
From Coq Require Import Reals List Arith Bool Lia Lra FunctionalExtensionality.
From Coquelicot Require Import Hierarchy Derive.
From Verif Require Import Num Outcome ModelSWE LemmasSWE ModelShape ModelBasis ModelJac ModelStepper ModelStep ModelIHDG ModelCond SpecShape SpecBasis SpecStepper SpecStep SpecStage SpecCond
  LemmasRK LemmasBasis LemmasBasis2 LemmasBasis3 LemmasStep LemmasStage3 LemmasStage4 LemmasCond ModelGN SpecGN LemmasGN1 LemmasGN2 LemmasGN3 LemmasGN4 LemmasGN5 LemmasGN6 LemmasGN7 LemmasGN8 LemmasGN10.
Import ListNotations.
Open Scope R_scope.

(** ** The source term *)
Lemma source_model : forall g h b b2 b3 z u u1 u2 a,
  source_point g h b b2 b3 z u u1 u2 a = disp_source g alpha h (fun c => z c + b c) b b2 b3 z u u1 u2 a.
Proof. intros. unfold source_point, disp_source, c1_of, c4_of, c1_slope, c4_slope. cbv zeta. unfold Rdiv. ring. Qed.

(** The first two terms are the slope of 2/3 h^3 c1 + 1/2 h^2 c4. *)
Lemma source_slope : forall g al (h : R -> R) ha b (b2 : nat -> nat -> R -> R) b3 z (u : nat -> R -> R) (u1 : nat -> nat -> R -> R) u2 a s,
  is_derive h s (ha a) -> (forall i, (i < 2)%nat -> is_derive (u i) s (u1 i a s)) ->
  (forall i c, (i < 2)%nat -> (c < 2)%nat -> is_derive (u1 i c) s (u2 i c a)) -> (forall c d, (c < 2)%nat -> (d < 2)%nat -> is_derive (b2 c d) s (b3 c d a)) ->
  exists X, is_derive (fun t => 2 / 3 * h t ^ 3 * c1_of (fun i c => u1 i c t) + 1 / 2 * h t ^ 2 * c4_of (fun i => u i t) (fun c d => b2 c d t)) s X /\
  disp_source g al (h s) ha b (fun c d => b2 c d s) b3 z (fun i => u i s) (fun i c => u1 i c s) u2 a =
    X + (h s ^ 2 * c1_of (fun i c => u1 i c s) + h s * c4_of (fun i => u i s) (fun c d => b2 c d s)) * b a + g / al * h s * z a.
Proof.
  intros g al h ha b b2 b3 z u u1 u2 a s Hh Hu Hv Hb.
  pose proof (Hu 0%nat ltac:(lia)) as U0. pose proof (Hu 1%nat ltac:(lia)) as U1.
  pose proof (Hv 0%nat 0%nat ltac:(lia) ltac:(lia)) as V00. pose proof (Hv 0%nat 1%nat ltac:(lia) ltac:(lia)) as V01.
  pose proof (Hv 1%nat 0%nat ltac:(lia) ltac:(lia)) as V10. pose proof (Hv 1%nat 1%nat ltac:(lia) ltac:(lia)) as V11.
  pose proof (Hb 0%nat 0%nat ltac:(lia) ltac:(lia)) as B00. pose proof (Hb 0%nat 1%nat ltac:(lia) ltac:(lia)) as B01.
  pose proof (Hb 1%nat 0%nat ltac:(lia) ltac:(lia)) as B10. pose proof (Hb 1%nat 1%nat ltac:(lia) ltac:(lia)) as B11.
  pose proof (is_derive_m _ _ _ _ _ V10 V01) as C1. pose proof (is_derive_m _ _ _ _ _ V00 V00) as C2. pose proof (is_derive_m _ _ _ _ _ V00 V11) as C3. pose proof (is_derive_m _ _ _ _ _ V11 V11) as C4.
  pose proof (is_derive_p _ _ _ _ _ (is_derive_p _ _ _ _ _ (is_derive_p _ _ _ _ _ C1 C2) C3) C4) as DC1.
  pose proof (is_derive_m _ _ _ _ _ (is_derive_m _ _ _ _ _ U0 U0) B00) as D1.
  pose proof (is_derive_m _ _ _ _ _ (is_derive_m _ _ _ _ _ U0 U1) (is_derive_p _ _ _ _ _ B01 B10)) as D2.
  pose proof (is_derive_m _ _ _ _ _ (is_derive_m _ _ _ _ _ U1 U1) B11) as D3.
  pose proof (is_derive_p _ _ _ _ _ (is_derive_p _ _ _ _ _ D1 D2) D3) as DC4.
  pose proof (is_derive_m _ _ _ _ _ Hh Hh) as H2. pose proof (is_derive_m _ _ _ _ _ H2 Hh) as H3.
  pose proof (is_derive_p _ _ _ _ _ (is_derive_m _ _ _ _ _ (is_derive_m _ _ _ _ _ (is_derive_c (2 / 3) s) H3) DC1) (is_derive_m _ _ _ _ _ (is_derive_m _ _ _ _ _ (is_derive_c (1 / 2) s) H2) DC4)) as T.
  cbn beta in T. eexists. split.
  - refine (is_derive_e _ _ _ _ _ T _ eq_refl). intros t. unfold c1_of, c4_of. ring.
  - unfold disp_source, c1_of, c4_of, c1_slope, c4_slope. cbv zeta. generalize (g / al) as G. intros G. field.
Qed.
(** What the slope z_a + b_a does to it where the true slope of the depth is z_a - b_a. *)
Lemma source_error : forall g al h b b2 b3 z u u1 u2 a,
  disp_source g al h (fun c => z c + b c) b b2 b3 z u u1 u2 a =
  disp_source g al h (fun c => z c - b c) b b2 b3 z u u1 u2 a + 2 * h * (2 * h * c1_of u1 + c4_of u b2) * b a.
Proof. intros. unfold disp_source. cbv zeta. ring. Qed.

(** ** Fields *)
Section Fields.
  Context (m : mesh) (HM : faces_once m) (HT : forall e, (e < m_n m)%nat -> good m e).
  Lemma sexp_val : forall c z, sexp m c z = val m c z.
  Proof. intros. unfold sexp. apply vmsum_rsum. Qed.
  Lemma at_gp_val : forall c e gp, at_gp m c e gp = elt_val m c e gp.
  Proof. intros. unfold at_gp. apply sexp_val. Qed.
  Lemma at_fgp_val : forall c e b gp, (b < 3)%nat -> at_fgp m c e b gp = face_val m c e b gp.
  Proof. intros c e b gp Hb. unfold at_fgp. rewrite sexp_val, on_face_model by exact Hb. reflexivity. Qed.
  Lemma expand_row : forall (q : coeffs) z v, (v < 3)%nat -> vget (expand m q z) v = val m (q v) z.
  Proof. intros q z v Hv. rewrite <- (sexp_val (q v) z). destruct v as [|[|[|v]]]; [reflexivity|reflexivity|reflexivity|lia]. Qed.
  Lemma derivative_ext : forall v v' vf vf' a, (m_p m <= 298)%nat -> (a < 2)%nat -> (forall e gp, (e < m_n m)%nat -> (gp < ngp2 m)%nat -> v e gp = v' e gp) ->
    (forall e b gp, (e < m_n m)%nat -> (b < 3)%nat -> (gp < ngp1 m)%nat -> vf e b gp = vf' e b gp) -> is_derivative m v' vf' a (project m v vf a).
  Proof.
    intros v v' vf vf' a Hp Ha H1 H2 e i M He Hi HMM. rewrite <- (project_derivative m HM HT v' vf' a Hp Ha e i M He Hi HMM). apply rsum_ext. intros j _. f_equal.
    apply project_ext; assumption.
  Qed.
  Lemma mean_ext : forall v v' k gp, (forall e b gp, (b < 3)%nat -> v e b gp = v' e b gp) -> mean m v k gp = mean m v' k gp.
  Proof.
    intros v v' k gp H. unfold mean. f_equal. apply lsum_ext. intros s Hs. apply H.
    destruct (nth_error (gedges m) k) as [ed|] eqn:E.
    - rewrite (spec_sides m k ed E) in Hs. apply in_map_iff in Hs. destruct Hs as (s' & <- & Hs). apply (side_range m ed s' HM (nth_error_In _ _ E) Hs).
    - apply nth_error_None in E. rewrite gedges_length in E. unfold n_edges in E. unfold edge_sides in Hs.
      rewrite (proj2 (nth_error_None (m_intfaces m) k)) in Hs by lia. rewrite (proj2 (nth_error_None (m_bounds m) _)) in Hs by lia. destruct Hs.
  Qed.

  Context (q : nat -> coeffs).
  Definition Bm (e gp : nat) : R := bath (m_aux m e gp).
  Definition Bfm (e b gp : nat) : R := bath (m_faux m e b gp).
  Definition model_slopes : slopes := Slopes (dbath m) (ddbath m) (dddbath m) (dze m q) (du m q) (ddu m q).
  Notation D := model_slopes.
  Lemma h_depth : forall e gp, h_elt m q e gp = depth m q Bm e gp.
  Proof. intros. unfold h_elt, depth. f_equal; exact (expand_row (q e) _ 0 ltac:(lia)). Qed.
  Lemma h_fdepth : forall e b gp, (b < 3)%nat -> h_fc m q e b gp = fdepth m q Bfm e b gp.
  Proof. intros e b gp Hb. unfold h_fc, fdepth. f_equal. unfold q_fc, face_val. rewrite <- (on_face_model b _ Hb). exact (expand_row (q e) _ 0 ltac:(lia)). Qed.
  Lemma u_veloc : forall i e gp, (i < 2)%nat -> u_at m q i e gp = veloc m q Bm i e gp.
  Proof. intros i e gp Hi. unfold u_at, veloc. rewrite h_depth. f_equal. apply expand_row. lia. Qed.
  Lemma uf_veloc : forall i e b gp, (i < 2)%nat -> (b < 3)%nat -> uf_at m q i e b gp = fveloc m q Bfm i e b gp.
  Proof. intros i e b gp Hi Hb. unfold uf_at, fveloc. rewrite h_fdepth by exact Hb. f_equal. unfold q_fc, face_val. rewrite <- (on_face_model b _ Hb). apply expand_row. lia. Qed.

  Lemma model_slopes_of : (m_p m <= 298)%nat -> slopes_of m q Bm Bfm D.
  Proof.
    intros Hp. split.
    - intros a Ha. cbn [r_b model_slopes]. apply derivative_ext; try assumption; reflexivity.
    - intros a c Ha Hc. cbn [r_b r_bb model_slopes]. apply derivative_ext; try assumption; [intros; apply at_gp_val|intros; apply at_fgp_val; assumption].
    - intros a c d Ha Hc Hd. cbn [r_bb r_bbb model_slopes]. apply derivative_ext; try assumption; [intros; apply at_gp_val|intros; apply at_fgp_val; assumption].
    - intros a Ha. cbn [r_z model_slopes]. apply derivative_ext; try assumption.
      + intros. exact (expand_row (q e) _ 0 ltac:(lia)).
      + intros e b gp _ Hb _. unfold q_fc, face_val. rewrite <- (on_face_model b _ Hb). exact (expand_row (q e) _ 0 ltac:(lia)).
    - intros i a Hi Ha. cbn [r_u model_slopes]. apply derivative_ext; try assumption; [intros; apply u_veloc; exact Hi|intros; apply uf_veloc; assumption].
    - intros i a c Hi Ha Hc. cbn [r_u r_uu model_slopes]. apply derivative_ext; try assumption; [intros; apply at_gp_val|intros; apply at_fgp_val; assumption].
  Qed.

  Lemma f_h_eq : f_h m q = depth m q Bm.
  Proof. unfold f_h. extensionality e. extensionality gp. apply h_depth. Qed.
  Lemma f_b_eq : f_b m = bed m D.
  Proof. unfold f_b. extensionality e. extensionality gp. extensionality a. unfold b1, bed. rewrite at_gp_val. reflexivity. Qed.
  Lemma f_hh_eq : f_hh m q = mean m (fdepth m q Bfm).
  Proof. unfold f_hh. extensionality k. extensionality gp. apply mean_ext. intros. apply h_fdepth. assumption. Qed.
  Lemma f_bh_eq : f_bh m = fbed m D.
  Proof. unfold f_bh, fbed. extensionality k. extensionality gp. extensionality a. f_equal. apply mean_ext. intros. apply at_fgp_val. assumption. Qed.
  Lemma f_K_eq : forall g e a gp, f_K m g q e a gp = gn_source m q Bm g alpha D e a gp.
  Proof.
    intros g e a gp. unfold f_K, source_at_gp. rewrite source_model. unfold gn_source.
    assert (E1 : b1 m e gp = bed m D e gp) by (extensionality c; unfold b1, bed; rewrite at_gp_val; reflexivity).
    assert (E2 : b2 m e gp = fun c d => - elt_val m (r_bb D c d) e gp) by (extensionality c; extensionality d; unfold b2; rewrite at_gp_val; reflexivity).
    assert (E3 : b3 m e gp = fun c d l => - elt_val m (r_bbb D c d l) e gp) by (extensionality c; extensionality d; extensionality l; unfold b3; rewrite at_gp_val; reflexivity).
    rewrite E1, E2, E3, h_depth. unfold disp_source, c1_of, c4_of, c1_slope, c4_slope. cbv zeta. rewrite !u_veloc, !at_gp_val by lia. reflexivity.
  Qed.
End Fields.

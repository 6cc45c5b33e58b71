(** Distributed implicit HDG: a half edge contributes what its side of the interface does. *)
From Coq Require Import Reals ZArith List Bool Arith Lia Lra Permutation.
From Verif Require Import Num ModelSWE Outcome ModelShape ModelBasis ModelJac ModelStep ModelIHDG ModelIPar
  SpecSWE SpecStepper SpecStep SpecIHDG SpecIHDG2 SpecIPar
  LemmasSWE LemmasRK LemmasBasis2 LemmasStep LemmasPar2 LemmasIHDG3 LemmasIHDG4 LemmasIHDG6 LemmasIHDG9 LemmasIPar ModelIPar SpecIPar.
Import ListNotations.
Open Scope R_scope.

Lemma flip_sq : forall own ed j, flip own ed j * flip own ed j = 1.
Proof. intros own ed j. unfold flip. destruct (own ed); [ring|apply sq1]. Qed.
Lemma mirror_lt : forall m gp, (gp < ngp1 m)%nat -> (mirror m gp < ngp1 m)%nat.
Proof. intros m gp H. unfold mirror. lia. Qed.

Section Half.
  Context (m : mesh) (own : nat -> bool) (ed : nat).
  Context (Sw : symmetric_weights m) (Sp : symmetric_points m) (Ft : fits m ed).
  Notation f := (the_int m ed).
  Notation dI := (DEdge ed (i_in (the_int m ed)) (i_bin (the_int m ed)) (own ed)).
  Notation dE := (DEdge ed (i_ex (the_int m ed)) (i_bex (the_int m ed)) (negb (own ed))).

  Lemma z_mirror : forall gp, (gp < ngp1 m)%nat -> z1 m (mirror m gp) = - z1 m gp.
  Proof. intros gp H. exact (Sp gp H). Qed.
  Lemma w_mirror : forall gp, (gp < ngp1 m)%nat -> w1 m (mirror m gp) = w1 m gp.
  Proof. intros gp H. exact (Sw gp H). Qed.
  Lemma J_ex : GetSurfaceJ (m_nodes m (i_ex f)) (i_bex f) = GetSurfaceJ (m_nodes m (i_in f)) (i_bin f).
  Proof. rewrite !half_side_J. exact (proj2 Ft). Qed.
  Lemma n_ex : normal m (i_ex f) (i_bex f) = opp (normal m (i_in f) (i_bin f)).
  Proof. apply opposite_opp. exact (proj1 Ft). Qed.

  Lemma lam_in : forall j gp, (gp < ngp1 m)%nat -> lam m dI j gp = flip own ed j * legendre_phi j (z1 m gp).
  Proof.
    intros j gp H. unfold lam, basis_gp, flip. cbn [de_ccw]. destruct (own ed); [ring|]. rewrite z_mirror by exact H. apply legendre_parity.
  Qed.
  Lemma lam_ex : forall j gp, (gp < ngp1 m)%nat -> lam m dE j gp = flip own ed j * legendre_phi j (z1 m (mirror m gp)).
  Proof.
    intros j gp H. unfold lam, basis_gp, flip. cbn [de_ccw]. destruct (own ed); cbn [negb]; [ring|]. rewrite z_mirror, legendre_parity by exact H.
    rewrite <- Rmult_assoc, sq1. ring.
  Qed.
  Lemma fact_in : forall j gp, (gp < ngp1 m)%nat -> lam_fact m dI gp j = flip own ed j * lambda_fact m (i_in f) (i_bin f) gp j.
  Proof. intros j gp H. unfold lam_fact, lambda_fact. rewrite lam_in by exact H. cbn [de_elt de_face]. ring. Qed.
  Lemma fact_ex : forall j gp, (gp < ngp1 m)%nat -> lam_fact m dE gp j = flip own ed j * lambda_fact m (i_in f) (i_bin f) (mirror m gp) j.
  Proof. intros j gp H. unfold lam_fact, lambda_fact. rewrite lam_ex, w_mirror by exact H. cbn [de_elt de_face]. rewrite J_ex. ring. Qed.

  Lemma phi_lam_in : forall i j u x y, phi_lam m dI i j u x y = flip own ed j * phi_lambda_in m (i_in f) (i_bin f) (i_bin f) i j u x y.
  Proof.
    intros i j u x y. unfold phi_lam, phi_lambda_in. rewrite !vmsum_rsum, <- rsum_scal. apply rsum_ext. intros gp H. rewrite fact_in by exact H. cbn [de_face]. ring.
  Qed.
  Lemma phi_lam_ex : forall i j u x y, phi_lam m dE i j u x y = flip own ed j * phi_lambda_ex m (i_in f) (i_bin f) (i_bex f) i j u x y.
  Proof.
    intros i j u x y. unfold phi_lam, phi_lambda_ex. rewrite !vmsum_rsum, <- rsum_scal. apply rsum_ext. intros gp H. rewrite fact_ex by exact H. cbn [de_face]. ring.
  Qed.
  Lemma lam_lam_in : forall i j u x y, lam_lam m dI i j u x y = flip own ed i * flip own ed j * lambda_lambda m (i_in f) (i_bin f) i j u x y.
  Proof.
    intros i j u x y. unfold lam_lam, lambda_lambda. rewrite !vmsum_rsum, <- rsum_scal. apply rsum_ext. intros gp H. rewrite fact_in, lam_in by exact H. ring.
  Qed.
  Lemma lam_lam_ex : forall i j u x y, lam_lam m dE i j u x y =
    flip own ed i * flip own ed j * lambda_lambda m (i_in f) (i_bin f) i j (fun gp => u (mirror m gp)) x y.
  Proof.
    intros i j u x y. unfold lam_lam, lambda_lambda. rewrite (vmsum_mirror m), !vmsum_rsum, <- rsum_scal. apply rsum_ext. intros gp H.
    rewrite fact_ex, lam_ex, mirror_mirror by (exact H || apply mirror_lt; exact H). ring.
  Qed.
  Lemma int_lam_in : forall u v j, int_lam m dI u v j = flip own ed j * edge_lambda m (i_in f) (i_bin f) u v j.
  Proof.
    intros u v j. unfold int_lam, edge_lambda. rewrite !vmsum_rsum, <- rsum_scal. apply rsum_ext. intros gp H. rewrite fact_in by exact H. ring.
  Qed.
  Lemma int_lam_ex : forall u v j, int_lam m dE u v j = flip own ed j * edge_lambda m (i_in f) (i_bin f) (fun gp => u (mirror m gp)) v j.
  Proof.
    intros u v j. unfold int_lam, edge_lambda. rewrite (vmsum_mirror m), !vmsum_rsum, <- rsum_scal. apply rsum_ext. intros gp H.
    rewrite fact_ex, mirror_mirror by (exact H || apply mirror_lt; exact H). ring.
  Qed.
  Lemma phi_phi_ex : forall i j u x y, face_phi_phi m (i_ex f) (i_bex f) (i_bex f) j i u x y = face_phi_phi m (i_in f) (i_bin f) (i_bex f) i j u x y.
  Proof.
    intros i j u x y. unfold face_phi_phi. rewrite J_ex, !vmsum_rsum. apply rsum_ext. intros gp H. ring.
  Qed.
  Lemma phi_phi_in : forall i j u x y, face_phi_phi m (i_in f) (i_bin f) (i_bin f) j i u x y = face_phi_phi m (i_in f) (i_bin f) (i_bin f) i j u x y.
  Proof. intros i j u x y. unfold face_phi_phi. rewrite !vmsum_rsum. apply rsum_ext. intros gp H. ring. Qed.

  (** The trace and the fluxes. *)
  Context (eaux eauxu : nat -> nat -> aux3 R) (g : R) (qh qhu : nat -> coeffs).
  Context (Qh : forall a j, (a < 3)%nat -> (j < nedof m)%nat -> qhu ed a j = flip own ed j * qh ed a j).
  Lemma u_in : forall gp, (gp < ngp1 m)%nat -> u_dist m qhu dI gp = u_edge m qh ed gp.
  Proof.
    intros gp H. unfold u_dist, u_edge. cbv zeta. cbn [de_edge].
    assert (E : forall a, (a < 3)%nat -> vmsum (nedof m) (fun j => qhu ed a j * lam m dI j gp) = vmsum (nedof m) (fun j => qh ed a j * legendre_phi j (z1 m gp))).
    { intros a Ha. rewrite !vmsum_rsum. apply rsum_ext. intros j Hj. rewrite lam_in, Qh by assumption. pose proof (flip_sq own ed j) as F.
      transitivity (flip own ed j * flip own ed j * (qh ed a j * legendre_phi j (z1 m gp))); [ring|rewrite F; ring]. }
    rewrite !E by lia. reflexivity.
  Qed.
  Lemma u_ex : forall gp, (gp < ngp1 m)%nat -> u_dist m qhu dE gp = u_edge m qh ed (mirror m gp).
  Proof.
    intros gp H. unfold u_dist, u_edge. cbv zeta. cbn [de_edge].
    assert (E : forall a, (a < 3)%nat -> vmsum (nedof m) (fun j => qhu ed a j * lam m dE j gp) = vmsum (nedof m) (fun j => qh ed a j * legendre_phi j (z1 m (mirror m gp)))).
    { intros a Ha. rewrite !vmsum_rsum. apply rsum_ext. intros j Hj. rewrite lam_ex, Qh by assumption. pose proof (flip_sq own ed j) as F.
      transitivity (flip own ed j * flip own ed j * (qh ed a j * legendre_phi j (z1 m (mirror m gp)))); [ring|rewrite F; ring]. }
    rewrite !E by lia. reflexivity.
  Qed.
  Section In.
    Context (Ax : forall gp, (gp < ngp1 m)%nat -> bath (eauxu ed gp) = bath (eaux ed gp)).
    Lemma F_dist_in : forall gp qs, (gp < ngp1 m)%nat -> F_dist m eauxu g qhu dI gp qs = F_in m eaux g qh ed gp (normal m (i_in f) (i_bin f)) qs.
    Proof.
      intros gp qs H. unfold F_dist, tau_dist, a_dist, n_dist. rewrite u_in by exact H. cbn [de_edge de_elt de_face].
      unfold with_depth. rewrite Ax by exact H. reflexivity.
    Qed.
    Lemma dF_dist_in : forall gp qs, (gp < ngp1 m)%nat -> dF_dist m eauxu g qhu dI gp qs = dF_in m eaux g qh ed gp (normal m (i_in f) (i_bin f)) qs.
    Proof.
      intros gp qs H. unfold dF_dist, tau_mat_dist, tau_dist, a_dist, n_dist. rewrite u_in by exact H. cbn [de_edge de_elt de_face].
      unfold with_depth. rewrite Ax by exact H. reflexivity.
    Qed.
    Lemma tau_dist_in : forall gp, (gp < ngp1 m)%nat -> tau_mat_dist m eauxu g qhu dI gp = tau_mat m eaux g qh ed gp (normal m (i_in f) (i_bin f)).
    Proof.
      intros gp H. unfold tau_mat_dist, tau_dist, a_dist, n_dist. rewrite u_in by exact H. cbn [de_edge de_elt de_face].
      unfold with_depth. rewrite Ax by exact H. reflexivity.
    Qed.
  End In.
  Section Ex.
    Context (Ax : forall gp, (gp < ngp1 m)%nat -> bath (eauxu ed gp) = bath (eaux ed (mirror m gp))).
    Lemma F_dist_ex : forall gp qs, (gp < ngp1 m)%nat -> F_dist m eauxu g qhu dE gp qs = F_ex m eaux g qh ed (mirror m gp) (normal m (i_in f) (i_bin f)) qs.
    Proof.
      intros gp qs H. change (F_dist m eauxu g qhu dE gp qs) with (FF g (u_dist m qhu dE gp) (a_dist m eauxu qhu dE gp) (normal m (i_ex f) (i_bex f)) qs).
      rewrite n_ex, FF_opp. unfold a_dist. rewrite u_ex by exact H. cbn [de_edge]. unfold with_depth. rewrite Ax by exact H. reflexivity.
    Qed.
    Lemma dF_dist_ex : forall gp qs, (gp < ngp1 m)%nat -> dF_dist m eauxu g qhu dE gp qs = dF_ex m eaux g qh ed (mirror m gp) (normal m (i_in f) (i_bin f)) qs.
    Proof.
      intros gp qs H. change (dF_dist m eauxu g qhu dE gp qs) with (DD g (u_dist m qhu dE gp) (a_dist m eauxu qhu dE gp) (normal m (i_ex f) (i_bex f)) qs).
      rewrite n_ex, DD_opp. unfold a_dist. rewrite u_ex by exact H. cbn [de_edge]. unfold with_depth. rewrite Ax by exact H. reflexivity.
    Qed.
    Lemma tau_dist_ex : forall gp, (gp < ngp1 m)%nat -> tau_mat_dist m eauxu g qhu dE gp = tau_mat m eaux g qh ed (mirror m gp) (normal m (i_in f) (i_bin f)).
    Proof.
      intros gp H. unfold tau_mat_dist, tau_dist, n_dist. cbn [de_elt de_face]. rewrite n_ex, tau_opp. unfold a_dist. rewrite u_ex by exact H. cbn [de_edge]. unfold with_depth. rewrite Ax by exact H. reflexivity.
    Qed.
  End Ex.
End Half.

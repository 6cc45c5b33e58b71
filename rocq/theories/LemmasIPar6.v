(** Distributed implicit HDG: solutions of the distributed system are those of the serial one. *)
From Coq Require Import Reals ZArith List Bool Arith Lia Lra Permutation FunctionalExtensionality.
From Verif Require Import Num ModelSWE Outcome ModelShape ModelBasis ModelJac ModelStep ModelIHDG
  SpecSWE SpecStepper SpecStep SpecIHDG SpecIHDG2
  LemmasSWE LemmasRK LemmasBasis2 LemmasStep LemmasStage LemmasPar2 LemmasPar4 LemmasIHDG3 LemmasIHDG4 LemmasIHDG6 LemmasIHDG9 LemmasIHDG13 LemmasIPar LemmasIPar2 LemmasIPar3 LemmasIPar4 LemmasIPar5
  ModelIPar SpecIPar.
Import ListNotations.
Open Scope R_scope.

Section Sys.
  Context (m : mesh) (us : list iunit) (cuts : list nat) (own : nat -> bool).
  Context (Dv : divides m us cuts own) (Cf : conforming m) (Sw : symmetric_weights m) (Sp : symmetric_points m) (Ft : forall ed, In ed cuts -> fits m ed).
  Context (eaux : nat -> nat -> aux3 R) (eauxs : nat -> nat -> nat -> aux3 R) (Ba : baths_shared m us eaux eauxs).
  Context (g dt theta t : R).
  Context (q qh : nat -> coeffs) (qs qhs : nat -> nat -> coeffs) (Hq : elts_shared m us q qs) (Hqh : traces_shared m us own qh qhs).
  Context (qp rp : nat -> coeffs) (qps rps : nat -> nat -> coeffs) (Hqp : elts_shared m us qp qps) (Hrp : elts_shared m us rp rps).
  Context (s0 : newton) (s0s : nat -> newton).
  Notation ni := (length (m_intfaces m)).
  Notation nb := (length (m_bounds m)).
  Notation SU u := (unit_system m (eauxs u) g dt theta (the_unit us u) t (qps u) (rps u) (qs u) (qhs u) (s0s u)).
  Notation SS := (newton_system m eaux g dt theta t qp rp q qh s0).

  Lemma same_elt_rhs : forall u e a i, (u < length us)%nat -> In e (un_elts (the_unit us u)) -> (a < 3)%nat -> (i < ndof m)%nat ->
    elt_rhs m g dt theta t (qps u) (rps u) (qs u) e a i = elt_rhs m g dt theta t qp rp q e a i.
  Proof.
    intros u e a i Hu He Ha Hi. unfold elt_rhs, local_source, local_volume, source_gp, a_elt. cbv zeta. cbn [nw_rhs]. rewrite !upd_same. unfold cadd.
    rewrite (sh_elt m us q qs Hq u Hu e He), (sh_elt m us qp qps Hqp u Hu e He), (Hrp u e a i Hu He Ha Hi). reflexivity.
  Qed.
  Lemma same_elt_delta : forall u e i a j b, (u < length us)%nat -> In e (un_elts (the_unit us u)) ->
    elt_delta m g dt theta t (qps u) (rps u) (qs u) e i a j b = elt_delta m g dt theta t qp rp q e i a j b.
  Proof.
    intros u e i a j b Hu He. unfold elt_delta, local_source, local_volume, source_gp, a_elt. cbv zeta. cbn [nw_delta]. rewrite !upd_same. unfold bsub.
    rewrite (sh_elt m us q qs Hq u Hu e He). reflexivity.
  Qed.
  (** Values on the two sides of an interface, by the element. *)
  Definition vin (th : R) (q : nat -> coeffs) (a i ed : nat) : R := - (1 - th) * integration_face m (i_in (the_int m ed)) (i_bin (the_int m ed)) (i_bin (the_int m ed))
    (fun gp => F_in m eaux g qh ed gp (normal m (i_in (the_int m ed)) (i_bin (the_int m ed))) (u_face m q (i_in (the_int m ed)) (i_bin (the_int m ed)) gp)) a i.
  Definition vex (th : R) (q : nat -> coeffs) (a i ed : nat) : R := - (1 - th) * integration_face m (i_in (the_int m ed)) (i_bin (the_int m ed)) (i_bex (the_int m ed))
    (fun gp => F_ex m eaux g qh ed (mirror m gp) (normal m (i_in (the_int m ed)) (i_bin (the_int m ed))) (u_face m q (i_ex (the_int m ed)) (i_bex (the_int m ed)) gp)) a i.

  Section U.
    Context (u : nat) (Hu : (u < length us)%nat).
    Notation un := (the_unit us u).
    Lemma cut_rhs : forall th (x : nat -> coeffs) xs d a i, elts_shared m us x xs -> In d (un_dist un) ->
      - (1 - th) * integration_face m (de_elt d) (de_face d) (de_face d) (fun gp => F_dist m (eauxs u) g (qhs u) d gp (q_dist m (xs u) d gp)) a i =
      pick m (vin th x a i) (vex th x a i) d.
    Proof.
      intros th x xs d a i Hx Hd.
      assert (Q : forall gp, q_dist m (xs u) d gp = u_face m x (de_elt d) (de_face d) gp) by (intros gp; eapply d_q; eassumption).
      assert (T : i_in (the_int m (de_edge d)) <> i_ex (the_int m (de_edge d))) by (eapply d_two; eassumption).
      assert (FT : fits m (de_edge d)) by (eapply d_fit; eassumption).
      assert (C : is_in m own d \/ is_ex m own d) by (eapply d_cases; eassumption).
      unfold pick, vin, vex. destruct C as [E|E].
      - rewrite (integration_face_ext m _ _ _ _ (fun gp => F_in m eaux g qh (de_edge d) gp (normal m (i_in (the_int m (de_edge d))) (i_bin (the_int m (de_edge d)))) (u_face m x (de_elt d) (de_face d) gp)) a i)
          by (intros gp Hg; rewrite Q; eapply d_F_in; eassumption).
        unfold is_in in E. assert (E1 : de_elt d = i_in (the_int m (de_edge d))) by (rewrite E at 1; reflexivity). assert (E2 : de_face d = i_bin (the_int m (de_edge d))) by (rewrite E at 1; reflexivity).
        rewrite E1, E2, Nat.eqb_refl. reflexivity.
      - rewrite (integration_face_ext m _ _ _ _ (fun gp => F_ex m eaux g qh (de_edge d) (mirror m gp) (normal m (i_in (the_int m (de_edge d))) (i_bin (the_int m (de_edge d)))) (u_face m x (de_elt d) (de_face d) gp)) a i)
          by (intros gp Hg; rewrite Q; eapply d_F_ex; eassumption).
        unfold is_ex in E. assert (E1 : de_elt d = i_ex (the_int m (de_edge d))) by (rewrite E at 1; reflexivity). assert (E2 : de_face d = i_bex (the_int m (de_edge d))) by (rewrite E at 1; reflexivity).
        rewrite E1, E2. destruct (Nat.eqb_spec (i_ex (the_int m (de_edge d))) (i_in (the_int m (de_edge d)))) as [K|_]; [congruence|].
        f_equal. unfold integration_face. rewrite (J_ex m (de_edge d) FT). reflexivity.
    Qed.
    Lemma same_rhs : forall e a i, In e (un_elts un) -> (a < 3)%nat -> (i < ndof m)%nat -> nw_rhs (SU u) e a i = nw_rhs SS e a i.
    Proof.
      intros e a i He Ha Hi. rewrite unit_rhs_entry by (exact He || exact (u_elts m us cuts own Dv u Hu)).
      assert (Hm : (e < m_n m)%nat).
      { assert (I : In e (seq 0 (m_n m))) by (apply (Permutation_in _ (dv_elts _ _ _ _ Dv)); apply in_flat_map; exists un; split; [exact (unit_in us u Hu)|exact He]). apply in_seq in I. lia. }
      pose proof (rhs_entry m eaux g dt theta t qp rp s0 q qh e a i Hm) as R. cbv beta in R. rewrite R. clear R.
      rewrite same_elt_rhs by assumption.
      rewrite (sum_bnds m us cuts own Dv u Hu e (fun ed => bnd_rhs m eaux g theta q qh ed e a i) He).
      2:{ intros ed _ N. unfold bnd_rhs, on. cbv zeta. destruct (Nat.eqb_spec e (b_elt (the_bnd m ed))); [congruence|reflexivity]. }
      pose proof (sum_ints m us cuts own Dv Cf u Hu e (vin theta q a i) (vex theta q a i) He) as S. cbv zeta in S.
      change (rsum ni (fun ed => int_rhs m eaux g theta q qh ed e a i)) with (rsum ni (fun ed => on e (i_in (the_int m ed)) (vin theta q a i ed) + on e (i_ex (the_int m ed)) (vex theta q a i ed))).
      rewrite S. clear S.
      rewrite (lsum_ext _ (un_ints un) _ (fun ed => on e (i_in (the_int m ed)) (vin theta q a i ed) + on e (i_ex (the_int m ed)) (vex theta q a i ed))).
      2:{ intros ed H. erewrite sh_int_rhs; [reflexivity|eassumption..]. }
      rewrite (lsum_ext _ (un_bnds un) _ (fun ed => bnd_rhs m eaux g theta q qh ed e a i)).
      2:{ intros ed H. eapply sh_bnd_rhs; eassumption. }
      rewrite (lsum_ext _ (un_dist un) _ (fun d => on e (de_elt d) (pick m (vin theta q a i) (vex theta q a i) d))); [ring|].
      intros d Hd. unfold dist_rhs. apply on_ext. intros _. apply cut_rhs; assumption.
    Qed.
    Lemma same_rhs_prev : forall o e a i, In e (un_elts un) -> (a < 3)%nat -> (i < ndof m)%nat ->
      unit_rhs_prev m (eauxs u) g un o t (qs u) (qhs u) e a i = init_rhs_prev m eaux g o t q qh e a i.
    Proof.
      intros [|] e a i He Ha Hi; [|reflexivity]. rewrite (unit_init_entry m (eauxs u) g t (qs u) (qs u)) by (exact He || exact (u_elts m us cuts own Dv u Hu)).
      assert (Hm : (e < m_n m)%nat).
      { assert (I : In e (seq 0 (m_n m))) by (apply (Permutation_in _ (dv_elts _ _ _ _ Dv)); apply in_flat_map; exists un; split; [exact (unit_in us u Hu)|exact He]). apply in_seq in I. lia. }
      rewrite init_entry by exact Hm.
      unfold source_gp, a_elt. rewrite (sh_elt m us q qs Hq u Hu e He).
      rewrite (sum_bnds m us cuts own Dv u Hu e (fun ed => bnd_rhs m eaux g 0 q qh ed e a i) He).
      2:{ intros ed _ N. unfold bnd_rhs, on. cbv zeta. destruct (Nat.eqb_spec e (b_elt (the_bnd m ed))); [congruence|reflexivity]. }
      pose proof (sum_ints m us cuts own Dv Cf u Hu e (vin 0 q a i) (vex 0 q a i) He) as S. cbv zeta in S.
      change (rsum ni (fun ed => int_rhs m eaux g 0 q qh ed e a i)) with (rsum ni (fun ed => on e (i_in (the_int m ed)) (vin 0 q a i ed) + on e (i_ex (the_int m ed)) (vex 0 q a i ed))).
      rewrite S. clear S.
      rewrite (lsum_ext _ (un_ints un) _ (fun ed => on e (i_in (the_int m ed)) (vin 0 q a i ed) + on e (i_ex (the_int m ed)) (vex 0 q a i ed))).
      2:{ intros ed H. erewrite sh_int_rhs; [reflexivity|eassumption..]. }
      rewrite (lsum_ext _ (un_bnds un) _ (fun ed => bnd_rhs m eaux g 0 q qh ed e a i)).
      2:{ intros ed H. eapply sh_bnd_rhs; eassumption. }
      rewrite (lsum_ext _ (un_dist un) _ (fun d => on e (de_elt d) (pick m (vin 0 q a i) (vex 0 q a i) d))); [ring|].
      intros d Hd. apply on_ext. intros _. apply cut_rhs; assumption.
    Qed.

    Definition din (i a j c ed : nat) : R := (1 - theta) * face_phi_phi m (i_in (the_int m ed)) (i_bin (the_int m ed)) (i_bin (the_int m ed)) i j
      (fun gp => tau_mat m eaux g qh ed gp (normal m (i_in (the_int m ed)) (i_bin (the_int m ed)))) a c.
    Definition dex (i a j c ed : nat) : R := (1 - theta) * face_phi_phi m (i_in (the_int m ed)) (i_bin (the_int m ed)) (i_bex (the_int m ed)) i j
      (fun gp => tau_mat m eaux g qh ed (mirror m gp) (normal m (i_in (the_int m ed)) (i_bin (the_int m ed)))) a c.
    Lemma cut_delta : forall d i a j c, In d (un_dist un) ->
      (1 - theta) * face_phi_phi m (de_elt d) (de_face d) (de_face d) j i (tau_mat_dist m (eauxs u) g (qhs u) d) a c = pick m (din i a j c) (dex i a j c) d.
    Proof.
      intros d i a j c Hd.
      assert (T : i_in (the_int m (de_edge d)) <> i_ex (the_int m (de_edge d))) by (eapply d_two; eassumption).
      assert (FT : fits m (de_edge d)) by (eapply d_fit; eassumption).
      assert (C : is_in m own d \/ is_ex m own d) by (eapply d_cases; eassumption).
      unfold pick, din, dex. destruct C as [E|E].
      - rewrite (face_phi_phi_ext m _ _ _ j i _ (fun gp => tau_mat m eaux g qh (de_edge d) gp (normal m (i_in (the_int m (de_edge d))) (i_bin (the_int m (de_edge d))))) a c)
          by (intros gp Hg; eapply d_tau_in; eassumption).
        unfold is_in in E. assert (E1 : de_elt d = i_in (the_int m (de_edge d))) by (rewrite E at 1; reflexivity). assert (E2 : de_face d = i_bin (the_int m (de_edge d))) by (rewrite E at 1; reflexivity).
        rewrite E1, E2, Nat.eqb_refl. f_equal. apply phi_phi_in.
      - rewrite (face_phi_phi_ext m _ _ _ j i _ (fun gp => tau_mat m eaux g qh (de_edge d) (mirror m gp) (normal m (i_in (the_int m (de_edge d))) (i_bin (the_int m (de_edge d))))) a c)
          by (intros gp Hg; eapply d_tau_ex; eassumption).
        unfold is_ex in E. assert (E1 : de_elt d = i_ex (the_int m (de_edge d))) by (rewrite E at 1; reflexivity). assert (E2 : de_face d = i_bex (the_int m (de_edge d))) by (rewrite E at 1; reflexivity).
        rewrite E1, E2. destruct (Nat.eqb_spec (i_ex (the_int m (de_edge d))) (i_in (the_int m (de_edge d)))) as [K|_]; [congruence|].
        f_equal. apply phi_phi_ex. exact FT.
    Qed.
    Lemma same_delta : forall e i a j c, In e (un_elts un) -> nw_delta (SU u) e i a j c = nw_delta SS e i a j c.
    Proof.
      intros e i a j c He. rewrite unit_delta_entry by (exact He || exact (u_elts m us cuts own Dv u Hu)).
      assert (Hm : (e < m_n m)%nat).
      { assert (I : In e (seq 0 (m_n m))) by (apply (Permutation_in _ (dv_elts _ _ _ _ Dv)); apply in_flat_map; exists un; split; [exact (unit_in us u Hu)|exact He]). apply in_seq in I. lia. }
      pose proof (delta_entry m eaux g dt theta t qp rp s0 q qh e i a j c Hm) as R. cbv beta in R. rewrite R. clear R.
      rewrite same_elt_delta by assumption.
      rewrite (sum_bnds m us cuts own Dv u Hu e (fun ed => bnd_delta m eaux g theta qh ed e i a j c) He).
      2:{ intros ed _ N. unfold bnd_delta, on. cbv zeta. destruct (Nat.eqb_spec e (b_elt (the_bnd m ed))); [congruence|reflexivity]. }
      pose proof (sum_ints m us cuts own Dv Cf u Hu e (din i a j c) (dex i a j c) He) as S. cbv zeta in S.
      change (rsum ni (fun ed => int_delta m eaux g theta qh ed e i a j c)) with (rsum ni (fun ed => on e (i_in (the_int m ed)) (din i a j c ed) + on e (i_ex (the_int m ed)) (dex i a j c ed))).
      rewrite S. clear S.
      rewrite (lsum_ext _ (un_ints un) _ (fun ed => on e (i_in (the_int m ed)) (din i a j c ed) + on e (i_ex (the_int m ed)) (dex i a j c ed))).
      2:{ intros ed H. erewrite sh_int_delta; [reflexivity|eassumption..]. }
      rewrite (lsum_ext _ (un_bnds un) _ (fun ed => bnd_delta m eaux g theta qh ed e i a j c)).
      2:{ intros ed H. eapply sh_bnd_delta; eassumption. }
      rewrite (lsum_ext _ (un_dist un) _ (fun d => on e (de_elt d) (pick m (din i a j c) (dex i a j c) d))); [ring|].
      intros d Hd. unfold dist_delta. apply on_ext. intros _. apply cut_delta; assumption.
    Qed.
  End U.
End Sys.

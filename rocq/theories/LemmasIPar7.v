(** Distributed implicit HDG: rows of the two systems. *)
From Coq Require Import Reals ZArith List Bool Arith Lia Lra Permutation FunctionalExtensionality.
From Verif Require Import Num ModelSWE Outcome ModelShape ModelBasis ModelJac ModelStep ModelIHDG
  SpecSWE SpecStepper SpecStep SpecIHDG SpecIHDG2
  LemmasSWE LemmasRK LemmasBasis2 LemmasStep LemmasStage LemmasPar2 LemmasPar4 LemmasIHDG3 LemmasIHDG4 LemmasIHDG6 LemmasIHDG9 LemmasIHDG13 LemmasIPar LemmasIPar2 LemmasIPar3 LemmasIPar4 LemmasIPar5 LemmasIPar6
  ModelIPar SpecIPar.
Import ListNotations.
Open Scope R_scope.

Section Sys.
  Context (m : mesh) (us : list iunit) (cuts : list nat) (own : nat -> bool).
  Context (Dv : divides m us cuts own) (Cf : conforming m) (Sw : symmetric_weights m) (Sp : symmetric_points m) (Ft : forall ed, In ed cuts -> fits m ed).
  Context (eaux : nat -> nat -> aux3 R) (eauxs : nat -> nat -> nat -> aux3 R) (Ba : baths_shared m us eaux eauxs).
  Context (g dt theta t : R).
  Context (q qh : nat -> coeffs) (qs qhs : nat -> nat -> coeffs) (Hq : elts_shared m us q qs) (Hqh : traces_shared m us own qh qhs).
  Context (qp rp : nat -> coeffs) (qps rps : nat -> nat -> coeffs) (Hqp : elts_shared m us qp qps) (Hrp : elts_shared m us rp rps).
  Context (s0 : newton) (s0s : nat -> newton).
  Context (dq dqh : nat -> coeffs) (dqs dqhs : nat -> nat -> coeffs) (Hdq : elts_shared m us dq dqs) (Hdqh : traces_shared m us own dqh dqhs).
  Notation ni := (length (m_intfaces m)).
  Notation nb := (length (m_bounds m)).
  Notation SU u := (unit_system m (eauxs u) g dt theta (the_unit us u) t (qps u) (rps u) (qs u) (qhs u) (s0s u)).
  Notation SS := (newton_system m eaux g dt theta t qp rp q qh s0).
  Notation fI ed := (the_int m ed).

  Section U.
    Context (u : nat) (Hu : (u < length us)%nat).
    Notation un := (the_unit us u).
    Let Ne : NoDup (un_elts un).
    Proof. eapply u_elts; eassumption. Qed.
    Let Ni : NoDup (un_ints un).
    Proof. eapply u_ints; eassumption. Qed.
    Let Nb : NoDup (un_bnds un).
    Proof. eapply u_bnds; eassumption. Qed.
    Let Nd : NoDup (map de_edge (un_dist un)).
    Proof. eapply u_dist_edges; eassumption. Qed.
    Let Nf : NoDup (faces m un).
    Proof. eapply u_faces; eassumption. Qed.
    Let Ri : forall ed, In ed (un_ints un) -> (ed < ni)%nat.
    Proof. intros x Hx; eapply u_Ri; eassumption. Qed.
    Let Rb : forall ed, In ed (un_bnds un) -> (ni <= ed)%nat.
    Proof. intros x Hx; eapply u_Rb; eassumption. Qed.
    Let Rb2 : forall ed, In ed (un_bnds un) -> (ni <= ed < ni + nb)%nat.
    Proof. intros x Hx; eapply u_Rb2; eassumption. Qed.
    Let Rd : forall d, In d (un_dist un) -> (de_edge d < ni)%nat /\ ~ In (de_edge d) (un_ints un).
    Proof. intros x Hx; eapply u_Rd; eassumption. Qed.
    Let Ti : forall ed, In ed (un_ints un) -> i_in (the_int m ed) <> i_ex (the_int m ed).
    Proof. intros x Hx; eapply u_Ti; eassumption. Qed.
    Lemma e_hat : forall ed ef i a j b, In ed (un_ints un ++ un_bnds un) -> In ef (sides m ed) -> nw_hat (SU u) (fst ef) (snd ef) i a j b = nw_hat SS (fst ef) (snd ef) i a j b.
    Proof.
      intros ed ef i a j b H I. apply in_app_or in H as [H|H].
      - rewrite side_int in I by (apply Ri; exact H). destruct I as [<-|[<-|[]]]; cbn [fst snd].
        + rewrite unit_hat_in by assumption. rewrite hat_in by (exact Cf || apply Ri; exact H). eapply sh_in_hat; eassumption.
        + rewrite unit_hat_ex by assumption. rewrite hat_ex by (exact Cf || apply Ri; exact H). eapply sh_ex_hat; eassumption.
      - rewrite side_bnd in I by (apply Rb; exact H). destruct I as [<-|[]]; cbn [fst snd].
        rewrite unit_hat_bnd by assumption. rewrite hat_bnd by (exact Cf || apply Rb2; exact H). eapply sh_bd_hat; eassumption.
    Qed.
    Lemma e_glob : forall ed ef i a j b, In ed (un_ints un ++ un_bnds un) -> In ef (sides m ed) -> nw_glob (SU u) (fst ef) (snd ef) i a j b = nw_glob SS (fst ef) (snd ef) i a j b.
    Proof.
      intros ed ef i a j b H I. apply in_app_or in H as [H|H].
      - rewrite side_int in I by (apply Ri; exact H). destruct I as [<-|[<-|[]]]; cbn [fst snd].
        + rewrite unit_glob_in by assumption. rewrite glob_in by (exact Cf || apply Ri; exact H). eapply sh_in_glob; eassumption.
        + rewrite unit_glob_ex by assumption. rewrite glob_ex by (exact Cf || apply Ri; exact H). eapply sh_ex_glob; eassumption.
      - rewrite side_bnd in I by (apply Rb; exact H). destruct I as [<-|[]]; cbn [fst snd].
        rewrite unit_glob_bnd by assumption. rewrite glob_bnd by (exact Cf || apply Rb2; exact H). eapply sh_bd_glob; eassumption.
    Qed.
    Lemma e_hglob : forall ed i a j b, In ed (un_ints un ++ un_bnds un) -> nw_hglob (SU u) ed i a j b = nw_hglob SS ed i a j b.
    Proof.
      intros ed i a j b H. apply in_app_or in H as [H|H].
      - rewrite unit_hglob_int by assumption. rewrite hglob_int by (apply Ri; exact H). apply lambda_lambda_ext. intros gp Hg. eapply sh_kern_hat; eassumption.
      - rewrite unit_hglob_bnd by assumption. rewrite hglob_bnd by (apply Rb2; exact H). apply lambda_lambda_ext. intros gp Hg. erewrite sh_bd_kern; [reflexivity|eassumption..].
    Qed.
    Lemma e_grhs : forall ed a i, In ed (un_ints un ++ un_bnds un) -> nw_grhs (SU u) ed a i = nw_grhs SS ed a i.
    Proof.
      intros ed a i H. apply in_app_or in H as [H|H].
      - rewrite unit_grhs_int by assumption. rewrite grhs_int by (apply Ri; exact H). f_equal. apply edge_lambda_ext. intros gp Hg. eapply sh_kern_rhs; eassumption.
      - rewrite unit_grhs_bnd by assumption. rewrite grhs_bnd by (apply Rb2; exact H). f_equal. apply edge_lambda_ext. intros gp Hg. erewrite sh_bd_kern; [reflexivity|eassumption..].
    Qed.
    (** Trace row of an edge that is not cut. *)
    Lemma row_edge : forall ed a i, In ed (un_ints un ++ un_bnds un) -> (a < 3)%nat -> (i < nedof m)%nat ->
      lsum (sides m ed) (fun ef => applied (ndof m) (nw_glob (SU u) (fst ef) (snd ef)) (dqs u (fst ef)) a i) + applied (nedof m) (nw_hglob (SU u) ed) (dqhs u ed) a i - nw_grhs (SU u) ed a i =
      lsum (sides m ed) (fun ef => applied (ndof m) (nw_glob SS (fst ef) (snd ef)) (dq (fst ef)) a i) + applied (nedof m) (nw_hglob SS ed) (dqh ed) a i - nw_grhs SS ed a i.
    Proof.
      intros ed a i H Ha Hi. rewrite e_grhs by exact H. f_equal. f_equal.
      - apply lsum_ext. intros ef I. apply applied_both; [exact Ha|]. intros j b Hj Hb. rewrite (e_glob ed) by assumption. f_equal.
        apply Hdq; [exact Hu| |exact Hb|exact Hj]. exact (dv_own _ _ _ _ Dv un ed ef (unit_in us u Hu) H I).
      - apply applied_both; [exact Ha|]. intros j b Hj Hb. rewrite e_hglob by exact H. f_equal. apply (proj1 Hdqh); assumption.
    Qed.

    Section Half.
      Context (d : dedge) (Hd : In d (un_dist un)).
      Notation ed := (de_edge d).
      Notation n := (normal m (i_in (fI (de_edge d))) (i_bin (fI (de_edge d)))).
      Definition kh (gp : nat) : mat3 := if (de_elt d =? i_in (fI ed))%nat then dF_in m eaux g qh ed gp n (u_face m q (i_in (fI ed)) (i_bin (fI ed)) gp)
        else dF_ex m eaux g qh ed gp n (u_face m q (i_ex (fI ed)) (i_bex (fI ed)) (mirror m gp)).
      Definition kr (gp : nat) : vec3 R := if (de_elt d =? i_in (fI ed))%nat then F_in m eaux g qh ed gp n (u_face m q (i_in (fI ed)) (i_bin (fI ed)) gp)
        else F_ex m eaux g qh ed gp n (u_face m q (i_ex (fI ed)) (i_bex (fI ed)) (mirror m gp)).
      Let T : i_in (fI ed) <> i_ex (fI ed).
      Proof. eapply d_two; eassumption. Qed.
      Let FT : fits m ed.
      Proof. eapply d_fit; eassumption. Qed.
      Let C : is_in m own d \/ is_ex m own d.
      Proof. eapply d_cases; eassumption. Qed.
      Let Qd : forall gp, q_dist m (qs u) d gp = u_face m q (de_elt d) (de_face d) gp.
      Proof. intros gp. eapply d_q; eassumption. Qed.
      Let R1 : (ed < ni)%nat.
      Proof. exact (proj1 (Rd d Hd)). Qed.
      Lemma c_hat : forall i a j b, nw_hat (SU u) (de_elt d) (de_face d) i a j b = flip own ed j * nw_hat SS (de_elt d) (de_face d) i a j b.
      Proof.
        intros i a j b. rewrite unit_hat_dist by assumption. destruct C as [E|E]; pose proof E as E0; [unfold is_in in E0|unfold is_ex in E0].
        - rewrite (phi_lam_ext m d i j _ (fun gp => dF_in m eaux g qh ed gp n (u_face m q (de_elt d) (de_face d) gp))) by (intros gp Hg; rewrite Qd; eapply d_dF_in; eassumption).
          rewrite E0 at 1. rewrite phi_lam_in by exact Sp.
          assert (E1 : de_elt d = i_in (fI ed)) by (rewrite E0 at 1; reflexivity). assert (E2 : de_face d = i_bin (fI ed)) by (rewrite E0 at 1; reflexivity).
          rewrite E1, E2. rewrite hat_in by (exact Cf || exact R1). unfold in_hat. cbv zeta. ring.
        - rewrite (phi_lam_ext m d i j _ (fun gp => dF_ex m eaux g qh ed (mirror m gp) n (u_face m q (de_elt d) (de_face d) gp))) by (intros gp Hg; rewrite Qd; eapply d_dF_ex; eassumption).
          rewrite E0 at 1. rewrite phi_lam_ex by (exact Sp || exact Sw || exact FT).
          assert (E1 : de_elt d = i_ex (fI ed)) by (rewrite E0 at 1; reflexivity). assert (E2 : de_face d = i_bex (fI ed)) by (rewrite E0 at 1; reflexivity).
          rewrite E1, E2. rewrite hat_ex by (exact Cf || exact R1). unfold ex_hat. cbv zeta. ring.
      Qed.
      Lemma c_glob : forall i a j b, nw_glob (SU u) (de_elt d) (de_face d) i a j b = flip own ed i * nw_glob SS (de_elt d) (de_face d) i a j b.
      Proof.
        intros i a j b. rewrite unit_glob_dist by assumption. destruct C as [E|E]; pose proof E as E0; [unfold is_in in E0|unfold is_ex in E0].
        - rewrite (phi_lam_ext m d j i _ (fun gp => tau_mat m eaux g qh ed gp n)) by (intros gp Hg; eapply d_tau_in; eassumption).
          rewrite E0 at 1. rewrite phi_lam_in by exact Sp.
          assert (E1 : de_elt d = i_in (fI ed)) by (rewrite E0 at 1; reflexivity). assert (E2 : de_face d = i_bin (fI ed)) by (rewrite E0 at 1; reflexivity).
          rewrite E1, E2. rewrite glob_in by (exact Cf || exact R1). reflexivity.
        - rewrite (phi_lam_ext m d j i _ (fun gp => tau_mat m eaux g qh ed (mirror m gp) n)) by (intros gp Hg; eapply d_tau_ex; eassumption).
          rewrite E0 at 1. rewrite phi_lam_ex by (exact Sp || exact Sw || exact FT).
          assert (E1 : de_elt d = i_ex (fI ed)) by (rewrite E0 at 1; reflexivity). assert (E2 : de_face d = i_bex (fI ed)) by (rewrite E0 at 1; reflexivity).
          rewrite E1, E2. rewrite glob_ex by (exact Cf || exact R1). reflexivity.
      Qed.
      Lemma c_hglob : forall i a j b, nw_hglob (SU u) ed i a j b = flip own ed i * flip own ed j * lambda_lambda m (i_in (fI ed)) (i_bin (fI ed)) i j kh a b.
      Proof.
        intros i a j b. rewrite unit_hglob_dist by assumption. destruct C as [E|E]; pose proof E as E0; [unfold is_in in E0|unfold is_ex in E0].
        - rewrite (lam_lam_ext m d j i _ (fun gp => dF_in m eaux g qh ed gp n (u_face m q (de_elt d) (de_face d) gp))) by (intros gp Hg; rewrite Qd; eapply d_dF_in; eassumption).
          rewrite E0 at 1. rewrite lam_lam_in by exact Sp.
          assert (E1 : de_elt d = i_in (fI ed)) by (rewrite E0 at 1; reflexivity). assert (E2 : de_face d = i_bin (fI ed)) by (rewrite E0 at 1; reflexivity).
          rewrite lambda_lambda_sym. rewrite (Rmult_comm (flip own ed j)). f_equal. apply lambda_lambda_ext. intros gp Hg. unfold kh. rewrite E1, E2, Nat.eqb_refl. reflexivity.
        - rewrite (lam_lam_ext m d j i _ (fun gp => dF_ex m eaux g qh ed (mirror m gp) n (u_face m q (de_elt d) (de_face d) gp))) by (intros gp Hg; rewrite Qd; eapply d_dF_ex; eassumption).
          rewrite E0 at 1. rewrite lam_lam_ex by (exact Sp || exact Sw || exact FT).
          assert (E1 : de_elt d = i_ex (fI ed)) by (rewrite E0 at 1; reflexivity). assert (E2 : de_face d = i_bex (fI ed)) by (rewrite E0 at 1; reflexivity).
          rewrite lambda_lambda_sym. rewrite (Rmult_comm (flip own ed j)). f_equal. apply lambda_lambda_ext. intros gp Hg. unfold kh. rewrite E1, E2, mirror_mirror by exact Hg.
          destruct (Nat.eqb_spec (i_ex (fI ed)) (i_in (fI ed))) as [K|_]; [congruence|reflexivity].
      Qed.
      Lemma c_grhs : forall a i, nw_grhs (SU u) ed a i = - (flip own ed i * edge_lambda m (i_in (fI ed)) (i_bin (fI ed)) kr a i).
      Proof.
        intros a i. rewrite unit_grhs_dist by assumption. f_equal. destruct C as [E|E]; pose proof E as E0; [unfold is_in in E0|unfold is_ex in E0].
        - rewrite (int_lam_ext m d _ (fun gp => F_in m eaux g qh ed gp n (u_face m q (de_elt d) (de_face d) gp))) by (intros gp Hg; rewrite Qd; eapply d_F_in; eassumption).
          rewrite E0 at 1. rewrite int_lam_in by exact Sp.
          assert (E1 : de_elt d = i_in (fI ed)) by (rewrite E0 at 1; reflexivity). assert (E2 : de_face d = i_bin (fI ed)) by (rewrite E0 at 1; reflexivity).
          f_equal. apply edge_lambda_ext. intros gp Hg. unfold kr. rewrite E1, E2, Nat.eqb_refl. reflexivity.
        - rewrite (int_lam_ext m d _ (fun gp => F_ex m eaux g qh ed (mirror m gp) n (u_face m q (de_elt d) (de_face d) gp))) by (intros gp Hg; rewrite Qd; eapply d_F_ex; eassumption).
          rewrite E0 at 1. rewrite int_lam_ex by (exact Sp || exact Sw || exact FT).
          assert (E1 : de_elt d = i_ex (fI ed)) by (rewrite E0 at 1; reflexivity). assert (E2 : de_face d = i_bex (fI ed)) by (rewrite E0 at 1; reflexivity).
          f_equal. apply edge_lambda_ext. intros gp Hg. unfold kr. rewrite E1, E2, mirror_mirror by exact Hg.
          destruct (Nat.eqb_spec (i_ex (fI ed)) (i_in (fI ed))) as [K|_]; [congruence|reflexivity].
      Qed.
      Definition part_row (a i : nat) : R := applied (ndof m) (nw_glob SS (de_elt d) (de_face d)) (dq (de_elt d)) a i +
        applied (nedof m) (fun i a j b => lambda_lambda m (i_in (fI ed)) (i_bin (fI ed)) i j kh a b) (dqh ed) a i + edge_lambda m (i_in (fI ed)) (i_bin (fI ed)) kr a i.
      Lemma c_row : forall a i, (a < 3)%nat -> (i < nedof m)%nat -> half_row m (SU u) (dqs u) (dqhs u) d a i = flip own ed i * part_row a i.
      Proof.
        intros a i Ha Hi. unfold half_row, part_row. rewrite c_grhs.
        rewrite (applied_both (ndof m) _ (fun i a j b => flip own ed i * nw_glob SS (de_elt d) (de_face d) i a j b) _ (dq (de_elt d)) a i Ha).
        2:{ intros j b Hj Hb. rewrite c_glob. f_equal. apply Hdq; [exact Hu| |exact Hb|exact Hj]. eapply d_elt; eassumption. }
        rewrite (applied_both (S (m_p m)) _ (fun i a j b => flip own ed i * lambda_lambda m (i_in (fI ed)) (i_bin (fI ed)) i j kh a b) _ (dqh ed) a i Ha).
        2:{ intros j b Hj Hb. rewrite c_hglob. rewrite (proj2 Hdqh u d b j Hu Hd Hb Hj).
            pose proof (flip_sq own ed j) as F. set (L := lambda_lambda _ _ _ _ _ _ _ _). set (f1 := flip own ed i). set (f2 := flip own ed j) in *.
            replace (f1 * f2 * L * (f2 * dqh ed b j)) with (f1 * L * dqh ed b j * (f2 * f2)) by ring. rewrite F. ring. }
        assert (P : forall n B x, applied n (fun i a j b => flip own ed i * B i a j b) x a i = flip own ed i * applied n B x a i).
        { intros k B x. rewrite <- (applied_scal k (flip own ed i) B x a i). reflexivity. }
        rewrite (P (ndof m) (nw_glob SS (de_elt d) (de_face d))), (P (S (m_p m)) (fun i a j b => lambda_lambda m (i_in (fI ed)) (i_bin (fI ed)) i j kh a b)). change (nedof m) with (S (m_p m)). ring.
      Qed.
    End Half.
  End U.

  Lemma two_halves : forall u v d d' a i, (u < length us)%nat -> (v < length us)%nat -> In d (un_dist (the_unit us u)) -> In d' (un_dist (the_unit us v)) ->
    de_edge d = de_edge d' -> is_in m own d -> is_ex m own d' -> (a < 3)%nat -> (i < nedof m)%nat ->
    half_row m (SU u) (dqs u) (dqhs u) d a i + half_row m (SU v) (dqs v) (dqhs v) d' a i =
    flip own (de_edge d) i * (lsum (sides m (de_edge d)) (fun ef => applied (ndof m) (nw_glob SS (fst ef) (snd ef)) (dq (fst ef)) a i) +
      applied (nedof m) (nw_hglob SS (de_edge d)) (dqh (de_edge d)) a i - nw_grhs SS (de_edge d) a i).
  Proof.
    intros u v d d' a i Hu Hv H H' E I I' Ha Hi.
    rewrite (c_row u Hu d H), (c_row v Hv d' H') by assumption. rewrite <- E. rewrite <- Rmult_plus_distr_l. f_equal.
    unfold part_row. rewrite <- E. set (ed := de_edge d) in *.
    assert (T : i_in (fI ed) <> i_ex (fI ed)) by (exact (d_two m us cuts own Dv Cf u Hu d H)).
    assert (R1 : (ed < ni)%nat) by (exact (proj1 (u_Rd m us cuts own Dv u Hu d H))).
    unfold is_in in I. unfold is_ex in I'. rewrite <- E in I'. fold ed in I, I'.
    assert (E1 : de_elt d = i_in (fI ed)) by (rewrite I; reflexivity). assert (E2 : de_face d = i_bin (fI ed)) by (rewrite I; reflexivity).
    assert (E3 : de_elt d' = i_ex (fI ed)) by (rewrite I'; reflexivity). assert (E4 : de_face d' = i_bex (fI ed)) by (rewrite I'; reflexivity).
    rewrite side_int by exact R1. unfold lsum; cbn [map fold_right fst snd]. rewrite E1, E2, E3, E4.
    rewrite grhs_int by exact R1.
    rewrite (applied_ext (nedof m) (nw_hglob SS ed) (fun i a j b => lambda_lambda m (i_in (fI ed)) (i_bin (fI ed)) i j (kh d) a b + lambda_lambda m (i_in (fI ed)) (i_bin (fI ed)) i j (kh d') a b) (dqh ed) a i).
    2:{ intros j b Hj Hb. rewrite hglob_int by exact R1. rewrite <- lambda_lambda_add by assumption. apply lambda_lambda_ext. intros gp Hg. unfold int_kern_hat, kh. cbv zeta. rewrite <- E. fold ed.
        rewrite E1, E3, Nat.eqb_refl. destruct (Nat.eqb_spec (i_ex (fI ed)) (i_in (fI ed))) as [K|_]; [congruence|reflexivity]. }
    rewrite (edge_lambda_ext m _ _ (int_kern_rhs m eaux g q qh ed) (fun gp => vadd (kr d gp) (kr d' gp)) a i).
    2:{ intros gp Hg. unfold int_kern_rhs, kr. cbv zeta. rewrite <- E. fold ed.
        rewrite E1, E3, Nat.eqb_refl. destruct (Nat.eqb_spec (i_ex (fI ed)) (i_in (fI ed))) as [K|_]; [congruence|reflexivity]. }
    rewrite edge_lambda_add by exact Ha.
    rewrite (applied_plus (nedof m) (fun i a j b => lambda_lambda m (i_in (fI ed)) (i_bin (fI ed)) i j (kh d) a b) (fun i a j b => lambda_lambda m (i_in (fI ed)) (i_bin (fI ed)) i j (kh d') a b)).
    ring.
  Qed.

  (** Row of an element. *)
  Lemma row_elt : forall u e a i, (u < length us)%nat -> In e (un_elts (the_unit us u)) -> (a < 3)%nat -> (i < ndof m)%nat ->
    applied (ndof m) (nw_delta (SU u) e) (dqs u e) a i +
    lsum (un_ints (the_unit us u) ++ un_bnds (the_unit us u)) (fun ed => lsum (sides m ed) (fun ef =>
      if (fst ef =? e)%nat then applied (S (m_p m)) (nw_hat (SU u) e (snd ef)) (dqhs u ed) a i else 0)) +
    lsum (un_dist (the_unit us u)) (fun d =>
      if (de_elt d =? e)%nat then applied (S (m_p m)) (nw_hat (SU u) e (de_face d)) (dqhs u (de_edge d)) a i else 0) =
    applied (ndof m) (nw_delta SS e) (dq e) a i +
    rsum (nedges m) (fun ed => lsum (sides m ed) (fun ef =>
      if (fst ef =? e)%nat then applied (nedof m) (nw_hat SS e (snd ef)) (dqh ed) a i else 0)).
  Proof.
    intros u e a i Hu He Ha Hi. rewrite Rplus_assoc. f_equal.
    - apply applied_both; [exact Ha|]. intros j b Hj Hb. erewrite same_delta; [|eassumption..]. f_equal. apply Hdq; assumption.
    - unfold nedges, nint. rewrite rsum_split. rewrite lsum_app.
      set (W := fun ed => lsum (sides m ed) (fun ef => if (fst ef =? e)%nat then applied (nedof m) (nw_hat SS e (snd ef)) (dqh ed) a i else 0)).
      assert (A : forall ed, In ed (un_ints (the_unit us u) ++ un_bnds (the_unit us u)) ->
        lsum (sides m ed) (fun ef => if (fst ef =? e)%nat then applied (S (m_p m)) (nw_hat (SU u) e (snd ef)) (dqhs u ed) a i else 0) = W ed).
      { intros ed H. apply lsum_ext. intros ef I. destruct (Nat.eqb_spec (fst ef) e) as [E|_]; [|reflexivity].
        apply applied_both; [exact Ha|]. intros j b Hj Hb. rewrite <- E. rewrite (e_hat u Hu ed) by assumption. f_equal. apply (proj1 Hdqh); assumption. }
      rewrite (lsum_ext _ (un_ints (the_unit us u)) _ W) by (intros ed H; apply A; apply in_or_app; left; exact H).
      rewrite (lsum_ext _ (un_bnds (the_unit us u)) _ W) by (intros ed H; apply A; apply in_or_app; right; exact H).
      rewrite <- (sum_bnds m us cuts own Dv u Hu e W He).
      2:{ intros ed R N. unfold W. rewrite side_bnd by lia. unfold lsum; cbn [map fold_right fst snd]. destruct (Nat.eqb_spec (b_elt (the_bnd m ed)) e); [contradiction|ring]. }
      set (vi := fun ed => applied (nedof m) (nw_hat SS (i_in (fI ed)) (i_bin (fI ed))) (dqh ed) a i).
      set (ve := fun ed => applied (nedof m) (nw_hat SS (i_ex (fI ed)) (i_bex (fI ed))) (dqh ed) a i).
      assert (V : forall ed, (ed < ni)%nat -> W ed = on e (i_in (fI ed)) (vi ed) + on e (i_ex (fI ed)) (ve ed)).
      { intros ed L. unfold W, vi, ve, on. rewrite side_int by exact L. unfold lsum; cbn [map fold_right fst snd]. rewrite (Nat.eqb_sym e (i_in (fI ed))), (Nat.eqb_sym e (i_ex (fI ed))).
        destruct (Nat.eqb_spec (i_in (fI ed)) e) as [->|_], (Nat.eqb_spec (i_ex (fI ed)) e) as [->|_]; ring. }
      pose proof (sum_ints m us cuts own Dv Cf u Hu e vi ve He) as SI. cbv zeta in SI.
      change (rsum ni (fun ed => lsum (sides m ed) (fun ef => if (fst ef =? e)%nat then applied (nedof m) (nw_hat SS e (snd ef)) (dqh ed) a i else 0))) with (rsum ni W).
      rewrite (rsum_ext ni W _ V), SI.
      rewrite <- (lsum_ext _ (un_ints (the_unit us u)) W _ (fun ed H => V ed (u_Ri m us cuts own Dv u Hu ed H))).
      assert (D : lsum (un_dist (the_unit us u)) (fun d => if (de_elt d =? e)%nat then applied (S (m_p m)) (nw_hat (SU u) e (de_face d)) (dqhs u (de_edge d)) a i else 0) =
        lsum (un_dist (the_unit us u)) (fun d => on e (de_elt d) (pick m vi ve d))).
      { apply lsum_ext. intros d Hd. unfold on. rewrite (Nat.eqb_sym e (de_elt d)). destruct (Nat.eqb_spec (de_elt d) e) as [E|_]; [|reflexivity].
        transitivity (applied (nedof m) (nw_hat SS (de_elt d) (de_face d)) (dqh (de_edge d)) a i).
        - apply applied_both; [exact Ha|]. intros j b Hj Hb. rewrite <- E. rewrite (c_hat u Hu d Hd), (proj2 Hdqh u d b j Hu Hd Hb Hj).
          pose proof (flip_sq own (de_edge d) j) as F. set (L := nw_hat _ _ _ _ _ _ _). set (f2 := flip own (de_edge d) j) in *.
          replace (f2 * L * (f2 * dqh (de_edge d) b j)) with (L * dqh (de_edge d) b j * (f2 * f2)) by ring. rewrite F. ring.
        - assert (T : i_in (fI (de_edge d)) <> i_ex (fI (de_edge d))) by (eapply d_two; eassumption).
          assert (C : is_in m own d \/ is_ex m own d) by (eapply d_cases; eassumption).
          unfold pick, vi, ve. destruct C as [I|I]; [unfold is_in in I|unfold is_ex in I].
          + assert (E1 : de_elt d = i_in (fI (de_edge d))) by (rewrite I at 1; reflexivity). assert (E2 : de_face d = i_bin (fI (de_edge d))) by (rewrite I at 1; reflexivity).
            rewrite E1, E2, Nat.eqb_refl. reflexivity.
          + assert (E1 : de_elt d = i_ex (fI (de_edge d))) by (rewrite I at 1; reflexivity). assert (E2 : de_face d = i_bex (fI (de_edge d))) by (rewrite I at 1; reflexivity).
            rewrite E1, E2. destruct (Nat.eqb_spec (i_ex (fI (de_edge d))) (i_in (fI (de_edge d)))) as [K|_]; [congruence|reflexivity]. }
      rewrite D. set (bs := rsum nb _). fold bs. ring.
  Qed.

  Theorem solves_same : solves m SS dq dqh <-> solves_par m us (fun u => SU u) dqs dqhs.
  Proof.
    split.
    - intros (A & B). split; [|split].
      + intros u e a i Hu He Ha Hi. rewrite row_elt by assumption. erewrite same_rhs; [|eassumption..]. apply A; [|exact Ha|exact Hi].
        assert (I : In e (seq 0 (m_n m))) by (apply (Permutation_in _ (dv_elts _ _ _ _ Dv)); apply in_flat_map; exists (the_unit us u); split; [exact (unit_in us u Hu)|exact He]). apply in_seq in I. lia.
      + intros u ed a i Hu He Ha Hi. pose proof (row_edge u Hu ed a i He Ha Hi) as R. rewrite (B ed a i) in R; [|pose proof (u_edge_range m us cuts own Dv u Hu ed He) as K; apply in_seq in K; unfold nedges, nint; lia|exact Ha|exact Hi].
        change (nedof m) with (S (m_p m)) in R. lra.
      + intros u v d d' a i Hu Hv Hd Hd' E N Ha Hi.
        assert (L : (de_edge d < nedges m)%nat) by (pose proof (proj1 (u_Rd m us cuts own Dv u Hu d Hd)); unfold nedges, nint; lia).
        assert (C : is_in m own d \/ is_ex m own d) by (exact (d_cases m us cuts own Dv u Hu d Hd)).
        assert (C' : is_in m own d' \/ is_ex m own d') by (apply (d_cases m us cuts own Dv v Hv d' Hd')).
        assert (NE : d <> d').
        { intros <-. apply N. exact (flat_index _ _ un_dist (IUnit [] [] [] []) us u v d (dist_all_once m us cuts own Dv Cf) Hu Hv Hd Hd'). }
        destruct C as [I|I], C' as [I'|I'].
        * exfalso. apply NE. unfold is_in in I, I'. rewrite I, I', E. reflexivity.
        * rewrite (two_halves u v d d') by assumption. rewrite (B (de_edge d) a i L Ha Hi). ring.
        * rewrite Rplus_comm. rewrite (two_halves v u d' d) by (assumption || congruence). rewrite <- E. rewrite (B (de_edge d) a i L Ha Hi). ring.
        * exfalso. apply NE. unfold is_ex in I, I'. rewrite I, I', E. reflexivity.
    - intros (A & B & D). split.
      + intros e a i He Ha Hi. destruct (owner m us cuts own Dv e He) as (u & Hu & Hm). rewrite <- (row_elt u) by assumption. rewrite A by assumption. eapply same_rhs; eassumption.
      + intros ed a i He Ha Hi. destruct (unit_edge m us cuts own Dv ed He) as [Hc|(u & Hu & Hm)].
        * destruct (half_owner m us cuts own Dv ed (DEdge ed (i_in (fI ed)) (i_bin (fI ed)) (own ed)) Hc (or_introl eq_refl)) as (u & Hu & Hd).
          destruct (half_owner m us cuts own Dv ed (DEdge ed (i_ex (fI ed)) (i_bex (fI ed)) (negb (own ed))) Hc (or_intror (or_introl eq_refl))) as (v & Hv & Hd').
          assert (N : u <> v).
          { intros <-. apply (dv_apart _ _ _ _ Dv (the_unit us u) ed (unit_in us u Hu) Hc). split; [exact (dv_half _ _ _ _ Dv _ _ (unit_in us u Hu) Hd)|exact (dv_half _ _ _ _ Dv _ _ (unit_in us u Hu) Hd')]. }
          pose proof (D u v _ _ a i Hu Hv Hd Hd' eq_refl N Ha Hi) as R.
          rewrite (two_halves u v _ _ a i Hu Hv Hd Hd' eq_refl eq_refl eq_refl Ha Hi) in R. cbn [de_edge] in R.
          apply Rmult_integral in R as [R|R]; [|lra]. pose proof (flip_sq own ed i) as F. rewrite R in F. lra.
        * pose proof (row_edge u Hu ed a i Hm Ha Hi) as R. pose proof (B u ed a i Hu Hm Ha Hi) as K. change (nedof m) with (S (m_p m)) in *. lra.
  Qed.
End Sys.

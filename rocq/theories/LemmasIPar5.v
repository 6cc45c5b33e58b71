(** Distributed implicit HDG: the units assemble the serial system. *)
From Coq Require Import Reals ZArith List Bool Arith Lia Lra Permutation FunctionalExtensionality.
From Verif Require Import Num ModelSWE Outcome ModelShape ModelBasis ModelJac ModelStep ModelIHDG
  SpecSWE SpecStepper SpecStep SpecIHDG SpecIHDG2
  LemmasSWE LemmasRK LemmasBasis2 LemmasStep LemmasStage LemmasPar2 LemmasPar4 LemmasIHDG3 LemmasIHDG4 LemmasIHDG6 LemmasIHDG9 LemmasIHDG13 LemmasIPar LemmasIPar2 LemmasIPar3 LemmasIPar4
  ModelIPar SpecIPar.
Import ListNotations.
Open Scope R_scope.

Section Quad.
  Context (m : mesh).
  Ltac q := rewrite !vmsum_rsum; apply rsum_ext; intros gp Hg.
  Lemma face_phi_phi_ext : forall e bl b i j u v x y, (forall gp, (gp < ngp1 m)%nat -> u gp = v gp) -> face_phi_phi m e bl b i j u x y = face_phi_phi m e bl b i j v x y.
  Proof. intros e bl b i j u v x y H. unfold face_phi_phi. q. rewrite H by exact Hg. reflexivity. Qed.
  Lemma phi_lambda_in_ext : forall e bl b i j u v x y, (forall gp, (gp < ngp1 m)%nat -> u gp = v gp) -> phi_lambda_in m e bl b i j u x y = phi_lambda_in m e bl b i j v x y.
  Proof. intros e bl b i j u v x y H. unfold phi_lambda_in. q. rewrite H by exact Hg. reflexivity. Qed.
  Lemma phi_lambda_ex_ext : forall e bl b i j u v x y, (forall gp, (gp < ngp1 m)%nat -> u gp = v gp) -> phi_lambda_ex m e bl b i j u x y = phi_lambda_ex m e bl b i j v x y.
  Proof. intros e bl b i j u v x y H. unfold phi_lambda_ex. q. rewrite H by exact Hg. reflexivity. Qed.
  Lemma lambda_lambda_ext : forall e bl i j u v x y, (forall gp, (gp < ngp1 m)%nat -> u gp = v gp) -> lambda_lambda m e bl i j u x y = lambda_lambda m e bl i j v x y.
  Proof. intros e bl i j u v x y H. unfold lambda_lambda. q. rewrite H by exact Hg. reflexivity. Qed.
  Lemma lambda_lambda_sym : forall e bl i j u x y, lambda_lambda m e bl i j u x y = lambda_lambda m e bl j i u x y.
  Proof. intros e bl i j u x y. unfold lambda_lambda, lambda_fact. q. ring. Qed.
  Lemma lambda_lambda_add : forall e bl i j u v x y, (x < 3)%nat -> (y < 3)%nat ->
    lambda_lambda m e bl i j (fun gp => madd (u gp) (v gp)) x y = lambda_lambda m e bl i j u x y + lambda_lambda m e bl i j v x y.
  Proof.
    intros e bl i j u v x y Hx Hy. unfold lambda_lambda. rewrite !vmsum_rsum, <- rsum_plus. apply rsum_ext. intros gp Hg. unfold madd. num_R.
    destruct x as [|[|[|x]]], y as [|[|[|y]]]; try lia; cbn [mget m00 m01 m02 m10 m11 m12 m20 m21 m22]; ring.
  Qed.
  Lemma edge_lambda_ext : forall e bl u v x i, (forall gp, (gp < ngp1 m)%nat -> u gp = v gp) -> edge_lambda m e bl u x i = edge_lambda m e bl v x i.
  Proof. intros e bl u v x i H. unfold edge_lambda. q. rewrite H by exact Hg. reflexivity. Qed.
  Lemma edge_lambda_add : forall e bl u v x i, (x < 3)%nat -> edge_lambda m e bl (fun gp => vadd (u gp) (v gp)) x i = edge_lambda m e bl u x i + edge_lambda m e bl v x i.
  Proof.
    intros e bl u v x i Hx. unfold edge_lambda. rewrite !vmsum_rsum, <- rsum_plus. apply rsum_ext. intros gp Hg. unfold vadd. num_R.
    destruct x as [|[|[|x]]]; try lia; cbn [vget ze qx qy]; ring.
  Qed.
  Lemma phi_lam_ext : forall d i j u v x y, (forall gp, (gp < ngp1 m)%nat -> u gp = v gp) -> phi_lam m d i j u x y = phi_lam m d i j v x y.
  Proof. intros d i j u v x y H. unfold phi_lam. q. rewrite H by exact Hg. reflexivity. Qed.
  Lemma lam_lam_ext : forall d i j u v x y, (forall gp, (gp < ngp1 m)%nat -> u gp = v gp) -> lam_lam m d i j u x y = lam_lam m d i j v x y.
  Proof. intros d i j u v x y H. unfold lam_lam. q. rewrite H by exact Hg. reflexivity. Qed.
  Lemma int_lam_ext : forall d u v x i, (forall gp, (gp < ngp1 m)%nat -> u gp = v gp) -> int_lam m d u x i = int_lam m d v x i.
  Proof. intros d u v x i H. unfold int_lam. q. rewrite H by exact Hg. reflexivity. Qed.
  Lemma expand_same : forall c c' z, (forall a i, (a < 3)%nat -> (i < ndof m)%nat -> c a i = c' a i) -> expand m c z = expand m c' z.
  Proof.
    intros c c' z H. unfold expand. cbv zeta. f_equal; rewrite !vmsum_rsum; apply rsum_ext; intros i Hi; rewrite H by (lia || assumption); reflexivity.
  Qed.
End Quad.
Lemma applied_both : forall n A B x y a i, (a < 3)%nat -> (forall j b, (j < n)%nat -> (b < 3)%nat -> A i a j b * x b j = B i a j b * y b j) -> applied n A x a i = applied n B y a i.
Proof. intros n A B x y a i _ H. unfold applied. apply rsum_ext. intros j Hj. apply rsum_ext. intros b Hb. apply H; assumption. Qed.
Lemma on_ext : forall e x (r r' : R), (e = x -> r = r') -> on e x r = on e x r'.
Proof. intros e x r r' H. unfold on. destruct (Nat.eqb_spec e x) as [E|]; [exact (H E)|reflexivity]. Qed.

Section Sys.
  Context (m : mesh) (us : list iunit) (cuts : list nat) (own : nat -> bool).
  Context (Dv : divides m us cuts own) (Cf : conforming m) (Sw : symmetric_weights m) (Sp : symmetric_points m) (Ft : forall ed, In ed cuts -> fits m ed).
  Context (eaux : nat -> nat -> aux3 R) (eauxs : nat -> nat -> nat -> aux3 R) (Ba : baths_shared m us eaux eauxs).
  Context (g dt theta t : R).
  Context (q qh : nat -> coeffs) (qs qhs : nat -> nat -> coeffs) (Hq : elts_shared m us q qs) (Hqh : traces_shared m us own qh qhs).
  Notation ni := (length (m_intfaces m)).
  Notation nb := (length (m_bounds m)).

  Section U.
    Context (u : nat) (Hu : (u < length us)%nat).
    Notation un := (the_unit us u).
    Lemma sh_elt : forall e, In e (un_elts un) -> u_elt m (qs u) e = u_elt m q e.
    Proof. intros e He. apply functional_extensionality. intros gp. apply expand_same. intros a i Ha Hi. apply Hq; assumption. Qed.
    Lemma sh_face : forall e b gp, In e (un_elts un) -> u_face m (qs u) e b gp = u_face m q e b gp.
    Proof. intros e b gp He. apply expand_same. intros a i Ha Hi. apply Hq; assumption. Qed.
    Lemma sh_edge : forall ed gp, In ed (un_ints un ++ un_bnds un) -> u_edge m (qhs u) ed gp = u_edge m qh ed gp.
    Proof.
      intros ed gp H. unfold u_edge. cbv zeta. f_equal; rewrite !vmsum_rsum; apply rsum_ext; intros j Hj; rewrite (proj1 Hqh u ed _ j Hu H) by (lia || assumption); reflexivity.
    Qed.
    Lemma sh_aux : forall ed gp, In ed (un_ints un ++ un_bnds un) -> (gp < ngp1 m)%nat -> a_edge m (eauxs u) (qhs u) ed gp = a_edge m eaux qh ed gp.
    Proof. intros ed gp H Hg. unfold a_edge. rewrite sh_edge, (proj1 Ba u ed gp Hu H Hg) by exact H. reflexivity. Qed.
    Lemma sh_own_in : forall ed, In ed (un_ints un) -> In (i_in (the_int m ed)) (un_elts un).
    Proof.
      intros ed H. apply (dv_own _ _ _ _ Dv un ed (i_in (the_int m ed), i_bin (the_int m ed)) (unit_in us u Hu)); [apply in_or_app; left; exact H|].
      rewrite side_int by (exact (u_Ri m us cuts own Dv u Hu ed H)). left. reflexivity.
    Qed.
    Lemma sh_own_ex : forall ed, In ed (un_ints un) -> In (i_ex (the_int m ed)) (un_elts un).
    Proof.
      intros ed H. apply (dv_own _ _ _ _ Dv un ed (i_ex (the_int m ed), i_bex (the_int m ed)) (unit_in us u Hu)); [apply in_or_app; left; exact H|].
      rewrite side_int by (exact (u_Ri m us cuts own Dv u Hu ed H)). right. left. reflexivity.
    Qed.
    Lemma sh_own_bnd : forall ed, In ed (un_bnds un) -> In (b_elt (the_bnd m ed)) (un_elts un).
    Proof.
      intros ed H. apply (dv_own _ _ _ _ Dv un ed (b_elt (the_bnd m ed), b_id (the_bnd m ed)) (unit_in us u Hu)); [apply in_or_app; right; exact H|].
      rewrite side_bnd by (exact (u_Rb m us cuts own Dv u Hu ed H)). left. reflexivity.
    Qed.
    Section E.
      Context (ed : nat) (H : In ed (un_ints un ++ un_bnds un)) (gp : nat) (Hg : (gp < ngp1 m)%nat).
      Lemma sh_F_in : forall n x, F_in m (eauxs u) g (qhs u) ed gp n x = F_in m eaux g qh ed gp n x.
      Proof. intros n x. unfold F_in, tau_at. rewrite sh_aux, sh_edge by assumption. reflexivity. Qed.
      Lemma sh_F_ex : forall n x, F_ex m (eauxs u) g (qhs u) ed gp n x = F_ex m eaux g qh ed gp n x.
      Proof. intros n x. unfold F_ex, tau_at. rewrite sh_aux, sh_edge by assumption. reflexivity. Qed.
      Lemma sh_tau : forall n, tau_mat m (eauxs u) g (qhs u) ed gp n = tau_mat m eaux g qh ed gp n.
      Proof. intros n. unfold tau_mat, tau_at. rewrite sh_aux, sh_edge by assumption. reflexivity. Qed.
      Lemma sh_dF_in : forall n x, dF_in m (eauxs u) g (qhs u) ed gp n x = dF_in m eaux g qh ed gp n x.
      Proof. intros n x. unfold dF_in, dtau_delq. rewrite sh_tau, sh_aux, sh_edge by assumption. reflexivity. Qed.
      Lemma sh_dF_ex : forall n x, dF_ex m (eauxs u) g (qhs u) ed gp n x = dF_ex m eaux g qh ed gp n x.
      Proof. intros n x. unfold dF_ex, dtau_delq. rewrite sh_tau, sh_aux, sh_edge by assumption. reflexivity. Qed.
    End E.
    Lemma sh_bd_kern : forall ed gp, In ed (un_bnds un) -> (gp < ngp1 m)%nat -> bd_kern m (eauxs u) g t (qs u) (qhs u) ed gp = bd_kern m eaux g t q qh ed gp.
    Proof. intros ed gp H Hg. unfold bd_kern. cbv zeta. rewrite sh_aux, sh_edge, sh_face by (try apply in_or_app; auto using sh_own_bnd). reflexivity. Qed.

    Lemma inl' : forall ed, In ed (un_ints un) -> In ed (un_ints un ++ un_bnds un).
    Proof. intros; apply in_or_app; left; assumption. Qed.
    Lemma inr' : forall ed, In ed (un_bnds un) -> In ed (un_ints un ++ un_bnds un).
    Proof. intros; apply in_or_app; right; assumption. Qed.
    Local Hint Resolve inl' inr' sh_own_in sh_own_ex sh_own_bnd mirror_lt : sh.
    Ltac sh := rewrite ?sh_F_in, ?sh_F_ex, ?sh_dF_in, ?sh_dF_ex, ?sh_tau, ?sh_face, ?sh_bd_kern by auto with sh; try reflexivity.

    Lemma sh_int_rhs : forall th ed e a i, In ed (un_ints un) -> int_rhs m (eauxs u) g th (qs u) (qhs u) ed e a i = int_rhs m eaux g th q qh ed e a i.
    Proof.
      intros th ed e a i H. unfold int_rhs. cbv zeta. f_equal; apply on_ext; intros _; f_equal; apply integration_face_ext; intros gp Hg; sh.
    Qed.
    Lemma sh_int_delta : forall ed e i a j b, In ed (un_ints un) -> int_delta m (eauxs u) g theta (qhs u) ed e i a j b = int_delta m eaux g theta qh ed e i a j b.
    Proof.
      intros ed e i a j b H. unfold int_delta. cbv zeta. f_equal; apply on_ext; intros _; f_equal; apply face_phi_phi_ext; intros gp Hg; sh.
    Qed.
    Lemma sh_bnd_rhs : forall th ed e a i, In ed (un_bnds un) -> bnd_rhs m (eauxs u) g th (qs u) (qhs u) ed e a i = bnd_rhs m eaux g th q qh ed e a i.
    Proof. intros th ed e a i H. unfold bnd_rhs. cbv zeta. apply on_ext; intros _; f_equal; apply integration_face_ext; intros gp Hg; sh. Qed.
    Lemma sh_bnd_delta : forall ed e i a j b, In ed (un_bnds un) -> bnd_delta m (eauxs u) g theta (qhs u) ed e i a j b = bnd_delta m eaux g theta qh ed e i a j b.
    Proof. intros ed e i a j b H. unfold bnd_delta. cbv zeta. apply on_ext; intros _; f_equal; apply face_phi_phi_ext; intros gp Hg; sh. Qed.
    Lemma sh_in_hat : forall ed i a j b, In ed (un_ints un) -> in_hat m (eauxs u) g theta (qs u) (qhs u) ed i a j b = in_hat m eaux g theta q qh ed i a j b.
    Proof. intros ed i a j b H. unfold in_hat. cbv zeta. f_equal; apply phi_lambda_in_ext; intros gp Hg; sh. Qed.
    Lemma sh_ex_hat : forall ed i a j b, In ed (un_ints un) -> ex_hat m (eauxs u) g theta (qs u) (qhs u) ed i a j b = ex_hat m eaux g theta q qh ed i a j b.
    Proof. intros ed i a j b H. unfold ex_hat. cbv zeta. f_equal; apply phi_lambda_ex_ext; intros gp Hg; sh. Qed.
    Lemma sh_bd_hat : forall ed i a j b, In ed (un_bnds un) -> bd_hat m (eauxs u) g theta (qs u) (qhs u) ed i a j b = bd_hat m eaux g theta q qh ed i a j b.
    Proof. intros ed i a j b H. unfold bd_hat. cbv zeta. f_equal; apply phi_lambda_in_ext; intros gp Hg; sh. Qed.
    Lemma sh_in_glob : forall ed i a j b, In ed (un_ints un) -> in_glob m (eauxs u) g (qhs u) ed i a j b = in_glob m eaux g qh ed i a j b.
    Proof. intros ed i a j b H. unfold in_glob. cbv zeta. apply phi_lambda_in_ext; intros gp Hg; sh. Qed.
    Lemma sh_ex_glob : forall ed i a j b, In ed (un_ints un) -> ex_glob m (eauxs u) g (qhs u) ed i a j b = ex_glob m eaux g qh ed i a j b.
    Proof. intros ed i a j b H. unfold ex_glob. cbv zeta. apply phi_lambda_ex_ext; intros gp Hg; sh. Qed.
    Lemma sh_bd_glob : forall ed i a j b, In ed (un_bnds un) -> bd_glob m (eauxs u) g t (qs u) (qhs u) ed i a j b = bd_glob m eaux g t q qh ed i a j b.
    Proof. intros ed i a j b H. unfold bd_glob. cbv zeta. apply phi_lambda_in_ext; intros gp Hg; sh. Qed.
    Lemma sh_kern_rhs : forall ed gp, In ed (un_ints un) -> (gp < ngp1 m)%nat -> int_kern_rhs m (eauxs u) g (qs u) (qhs u) ed gp = int_kern_rhs m eaux g q qh ed gp.
    Proof. intros ed gp H Hg. unfold int_kern_rhs. cbv zeta. sh. Qed.
    Lemma sh_kern_hat : forall ed gp, In ed (un_ints un) -> (gp < ngp1 m)%nat -> int_kern_hat m (eauxs u) g (qs u) (qhs u) ed gp = int_kern_hat m eaux g q qh ed gp.
    Proof. intros ed gp H Hg. unfold int_kern_hat. cbv zeta. sh. Qed.

    (** A half edge, from either side. *)
    Section D.
      Context (d : dedge) (Hd : In d (un_dist un)).
      Notation ed := (de_edge d).
      Notation n := (normal m (i_in (the_int m (de_edge d))) (i_bin (the_int m (de_edge d)))).
      Definition is_in : Prop := d = DEdge ed (i_in (the_int m ed)) (i_bin (the_int m ed)) (own ed).
      Definition is_ex : Prop := d = DEdge ed (i_ex (the_int m ed)) (i_bex (the_int m ed)) (negb (own ed)).
      Lemma d_cut : In ed cuts.
      Proof. exact (proj1 (dist_half m us cuts own Dv un d (unit_in us u Hu) Hd)). Qed.
      Lemma d_cases : is_in \/ is_ex.
      Proof. exact (half_cases m own ed d (proj2 (dist_half m us cuts own Dv un d (unit_in us u Hu) Hd))). Qed.
      Lemma d_two : i_in (the_int m ed) <> i_ex (the_int m ed).
      Proof. exact (cut_two m us cuts own Dv Cf ed d_cut). Qed.
      Lemma d_fit : fits m ed.
      Proof. exact (Ft ed d_cut). Qed.
      Lemma d_qh : forall a j, (a < 3)%nat -> (j < nedof m)%nat -> qhs u ed a j = flip own ed j * qh ed a j.
      Proof. intros a j Ha Hj. apply (proj2 Hqh u d a j Hu Hd Ha Hj). Qed.
      Lemma d_elt : In (de_elt d) (un_elts un).
      Proof. exact (dv_half _ _ _ _ Dv un d (unit_in us u Hu) Hd). Qed.
      Lemma d_bath_in : is_in -> forall gp, (gp < ngp1 m)%nat -> bath (eauxs u ed gp) = bath (eaux ed gp).
      Proof.
        intros E gp Hg. rewrite (proj2 Ba u d gp Hu Hd Hg). fold (the_int m ed). assert (X : de_elt d = i_in (the_int m ed)) by (unfold is_in, is_ex in E; rewrite E at 1; reflexivity).
        rewrite X, Nat.eqb_refl. reflexivity.
      Qed.
      Lemma d_bath_ex : is_ex -> forall gp, (gp < ngp1 m)%nat -> bath (eauxs u ed gp) = bath (eaux ed (mirror m gp)).
      Proof.
        intros E gp Hg. rewrite (proj2 Ba u d gp Hu Hd Hg). fold (the_int m ed). assert (X : de_elt d = i_ex (the_int m ed)) by (unfold is_in, is_ex in E; rewrite E at 1; reflexivity).
        rewrite X. destruct (Nat.eqb_spec (i_ex (the_int m ed)) (i_in (the_int m ed))) as [K|_]; [exfalso; apply d_two; symmetry; exact K|]. reflexivity.
      Qed.
      Lemma d_F_in : is_in -> forall gp x, (gp < ngp1 m)%nat -> F_dist m (eauxs u) g (qhs u) d gp x = F_in m eaux g qh ed gp n x.
      Proof. intros E gp x Hg. pose proof (d_bath_in E) as B. unfold is_in in E. rewrite E at 1. exact (F_dist_in m own ed Sp eaux (eauxs u) g qh (qhs u) d_qh B gp x Hg). Qed.
      Lemma d_F_ex : is_ex -> forall gp x, (gp < ngp1 m)%nat -> F_dist m (eauxs u) g (qhs u) d gp x = F_ex m eaux g qh ed (mirror m gp) n x.
      Proof. intros E gp x Hg. pose proof (d_bath_ex E) as B. unfold is_ex in E. rewrite E at 1. exact (F_dist_ex m own ed Sp d_fit eaux (eauxs u) g qh (qhs u) d_qh B gp x Hg). Qed.
      Lemma d_dF_in : is_in -> forall gp x, (gp < ngp1 m)%nat -> dF_dist m (eauxs u) g (qhs u) d gp x = dF_in m eaux g qh ed gp n x.
      Proof. intros E gp x Hg. pose proof (d_bath_in E) as B. unfold is_in in E. rewrite E at 1. exact (dF_dist_in m own ed Sp eaux (eauxs u) g qh (qhs u) d_qh B gp x Hg). Qed.
      Lemma d_dF_ex : is_ex -> forall gp x, (gp < ngp1 m)%nat -> dF_dist m (eauxs u) g (qhs u) d gp x = dF_ex m eaux g qh ed (mirror m gp) n x.
      Proof. intros E gp x Hg. pose proof (d_bath_ex E) as B. unfold is_ex in E. rewrite E at 1. exact (dF_dist_ex m own ed Sp d_fit eaux (eauxs u) g qh (qhs u) d_qh B gp x Hg). Qed.
      Lemma d_tau_in : is_in -> forall gp, (gp < ngp1 m)%nat -> tau_mat_dist m (eauxs u) g (qhs u) d gp = tau_mat m eaux g qh ed gp n.
      Proof. intros E gp Hg. pose proof (d_bath_in E) as B. unfold is_in in E. rewrite E at 1. exact (tau_dist_in m own ed Sp eaux (eauxs u) g qh (qhs u) d_qh B gp Hg). Qed.
      Lemma d_tau_ex : is_ex -> forall gp, (gp < ngp1 m)%nat -> tau_mat_dist m (eauxs u) g (qhs u) d gp = tau_mat m eaux g qh ed (mirror m gp) n.
      Proof. intros E gp Hg. pose proof (d_bath_ex E) as B. unfold is_ex in E. rewrite E at 1. exact (tau_dist_ex m own ed Sp d_fit eaux (eauxs u) g qh (qhs u) d_qh B gp Hg). Qed.
      Lemma d_q : forall gp, q_dist m (qs u) d gp = u_face m q (de_elt d) (de_face d) gp.
      Proof. intros gp. unfold q_dist. apply sh_face. exact d_elt. Qed.
    End D.
  End U.
End Sys.

(** Distributed Green-Naghdi correction: derivatives and traces. *)
From Coq Require Import Reals ZArith List Bool Arith Lia Lra Permutation.
From Verif Require Import Num ModelSWE Outcome ModelShape ModelBasis ModelJac ModelStep ModelIHDG SpecComm
  SpecSWE SpecStepper SpecStep SpecIHDG SpecIHDG2
  LemmasSWE LemmasRK LemmasBasis2 LemmasStep LemmasStage LemmasPar2 LemmasPar4 LemmasIHDG4 LemmasIHDG6 LemmasIPar LemmasIPar2 LemmasIPar3 LemmasIPar4 LemmasIPar5
  ModelIPar SpecIPar ModelGN ModelGPar SpecGPar LemmasGPar1.
Import ListNotations.
Open Scope R_scope.

Section Fields.
  Context (m : mesh) (us : list iunit) (cuts : list nat) (own : nat -> bool).
  Context (Dv : divides m us cuts own) (Cf : conforming m) (Ft : forall ed, In ed cuts -> fits m ed).
  Context (q : nat -> coeffs) (qs : nat -> nat -> coeffs) (Hq : elts_shared m us q qs).
  Context (wet : nat -> bool) (wets : nat -> nat -> bool) (Hw : wets_shared us wet wets).
  Context (boxes : nat -> mailbox) (Ml : mailed m us boxes qs wets).
  Notation ni := (length (m_intfaces m)).
  Notation fI k := (the_int m k).

  Lemma no_tail : forall (w l : list R) n, carries w l n -> carries w (l ++ []) n.
  Proof. intros w l n H. rewrite app_nil_r. exact H. Qed.
  Lemma at_gp_same : forall c c' e gp, (forall dof, c e dof = c' e dof) -> at_gp m c e gp = at_gp m c' e gp.
  Proof. intros c c' e gp H. unfold at_gp, sexp. rewrite !vmsum_rsum. apply rsum_ext. intros i _. rewrite H. reflexivity. Qed.
  Lemma at_fgp_same : forall c c' e b gp, (forall dof, c e dof = c' e dof) -> at_fgp m c e b gp = at_fgp m c' e b gp.
  Proof. intros c c' e b gp H. unfold at_fgp, sexp. rewrite !vmsum_rsum. apply rsum_ext. intros i _. rewrite H. reflexivity. Qed.
  Lemma own_half : forall u d, (u < length us)%nat -> In d (un_dist (the_unit us u)) -> In (de_elt d) (un_elts (the_unit us u)).
  Proof. intros u d Hu H. exact (dv_half _ _ _ _ Dv _ d (unit_in us u Hu) H). Qed.
  Notation UN u := (the_unit us u).

  (** ** Bathymetry *)
  Lemma bath_mean : forall u d gp, (u < length us)%nat -> In d (un_dist (UN u)) -> (gp < ngp1 m)%nat ->
    bath_hat m (boxes u) d gp = hat m (fun e b gp => bath (m_faux m e b gp)) (the_gedge m (de_edge d)) (point_of m d gp).
  Proof.
    intros u d gp Hu Hd Hg. destruct (Ml u d Hu Hd) as (v & d' & Hv & Hd' & E & N & W & _).
    eapply (mean_cut m us cuts own Dv Cf Ft u v d d' _ 1 0 (fun _ => d_bath m d') _ _ [] (length (m_rule1 m))); try eassumption; try (unfold ngp1; lia); try reflexivity.
    - apply no_tail. exact W.
  Qed.
  Theorem dbath_same : forall u e a dof, (u < length us)%nat -> In e (un_elts (UN u)) -> u_dbath m (UN u) (boxes u) a e dof = dbath m a e dof.
  Proof.
    intros u e a dof Hu He. eapply (project_same m us cuts own Dv Cf Ft); try eassumption; try reflexivity.
    intros d gp Hd Hg. apply bath_mean; assumption.
  Qed.
  Lemma dbath_mean : forall u d a gp, (u < length us)%nat -> In d (un_dist (UN u)) -> (a < 2)%nat -> (gp < ngp1 m)%nat ->
    dbath_hat m (UN u) (boxes u) a d gp = hat m (at_fgp m (dbath m a)) (the_gedge m (de_edge d)) (point_of m d gp).
  Proof.
    intros u d a gp Hu Hd Ha Hg. destruct (Ml u d Hu Hd) as (v & d' & Hv & Hd' & E & N & _ & W & _).
    eapply (mean_cut m us cuts own Dv Cf Ft u v d d' (at_fgp m (dbath m a)) 2 a (fun a => d_val m (u_dbath m (UN v) (boxes v) a) d') _ _ [] (2 * length (m_rule1 m))); try eassumption; try (unfold ngp1; lia).
    - intros g' _. apply at_fgp_same. intros dof. apply dbath_same; [exact Hu|apply own_half; assumption].
    - intros g' _. apply at_fgp_same. intros dof. apply dbath_same; [exact Hv|apply own_half; assumption].
    - apply no_tail. exact W.
  Qed.
  Theorem ddbath_same : forall u e a c dof, (u < length us)%nat -> In e (un_elts (UN u)) -> (a < 2)%nat -> u_ddbath m (UN u) (boxes u) a c e dof = ddbath m a c e dof.
  Proof.
    intros u e a c dof Hu He Ha. unfold u_ddbath, ddbath. eapply (project_same m us cuts own Dv Cf Ft); try eassumption.
    - intros e' gp H _. apply at_gp_same. intros i. apply dbath_same; assumption.
    - intros e' b gp H _. apply at_fgp_same. intros i. apply dbath_same; assumption.
    - intros d gp Hd Hg. apply dbath_mean; assumption.
  Qed.
  Lemma div2 : forall a c, (c < 2)%nat -> ((2 * a + c) / 2 = a /\ (2 * a + c) mod 2 = c)%nat.
  Proof. intros a c H. rewrite Nat.mul_comm, Nat.div_add_l, Nat.div_small, Nat.add_0_r, Nat.add_comm, Nat.mod_add, Nat.mod_small by lia. auto. Qed.
  Lemma ddbath_mean : forall u d a c gp, (u < length us)%nat -> In d (un_dist (UN u)) -> (a < 2)%nat -> (c < 2)%nat -> (gp < ngp1 m)%nat ->
    ddbath_hat m (UN u) (boxes u) a c d gp = hat m (at_fgp m (ddbath m a c)) (the_gedge m (de_edge d)) (point_of m d gp).
  Proof.
    intros u d a c gp Hu Hd Ha Hc Hg. destruct (Ml u d Hu Hd) as (v & d' & Hv & Hd' & E & N & _ & _ & W & _).
    eapply (mean_cut m us cuts own Dv Cf Ft u v d d' (at_fgp m (ddbath m a c)) 4 (2 * a + c) (fun k => d_val m (u_ddbath m (UN v) (boxes v) (k / 2) (k mod 2)) d') _ _ [] (4 * length (m_rule1 m))); try eassumption; try (unfold ngp1; lia).
    - intros g' _. apply at_fgp_same. intros dof. apply ddbath_same; [exact Hu|apply own_half; assumption|exact Ha].
    - intros g' _. destruct (div2 a c Hc) as [-> ->]. apply at_fgp_same. intros dof. apply ddbath_same; [exact Hv|apply own_half; assumption|exact Ha].
    - apply no_tail. exact W.
  Qed.
  Theorem dddbath_same : forall u e a c l dof, (u < length us)%nat -> In e (un_elts (UN u)) -> (a < 2)%nat -> (c < 2)%nat ->
    u_dddbath m (UN u) (boxes u) a c l e dof = dddbath m a c l e dof.
  Proof.
    intros u e a c l dof Hu He Ha Hc. unfold u_dddbath, dddbath. eapply (project_same m us cuts own Dv Cf Ft); try eassumption.
    - intros e' gp H _. apply at_gp_same. intros i. apply ddbath_same; assumption.
    - intros e' b gp H _. apply at_fgp_same. intros i. apply ddbath_same; assumption.
    - intros d gp Hd Hg. apply ddbath_mean; assumption.
  Qed.

  (** ** Surface and velocity *)
  Lemma q_elt_same : forall u e gp, (u < length us)%nat -> In e (un_elts (UN u)) -> q_elt m (qs u) e gp = q_elt m q e gp.
  Proof. intros u e gp Hu He. apply expand_same. intros a i Ha Hi. apply Hq; assumption. Qed.
  Lemma q_fc_same : forall u e b gp, (u < length us)%nat -> In e (un_elts (UN u)) -> q_fc m (qs u) e b gp = q_fc m q e b gp.
  Proof. intros u e b gp Hu He. apply expand_same. intros a i Ha Hi. apply Hq; assumption. Qed.
  Lemma h_elt_same : forall u e gp, (u < length us)%nat -> In e (un_elts (UN u)) -> h_elt m (qs u) e gp = h_elt m q e gp.
  Proof. intros u e gp Hu He. unfold h_elt. rewrite q_elt_same by assumption. reflexivity. Qed.
  Lemma h_fc_same : forall u e b gp, (u < length us)%nat -> In e (un_elts (UN u)) -> h_fc m (qs u) e b gp = h_fc m q e b gp.
  Proof. intros u e b gp Hu He. unfold h_fc. rewrite q_fc_same by assumption. reflexivity. Qed.
  Lemma u_at_same : forall u i e gp, (u < length us)%nat -> In e (un_elts (UN u)) -> u_at m (qs u) i e gp = u_at m q i e gp.
  Proof. intros u i e gp Hu He. unfold u_at. rewrite q_elt_same, h_elt_same by assumption. reflexivity. Qed.
  Lemma uf_at_same : forall u i e b gp, (u < length us)%nat -> In e (un_elts (UN u)) -> uf_at m (qs u) i e b gp = uf_at m q i e b gp.
  Proof. intros u i e b gp Hu He. unfold uf_at. rewrite q_fc_same, h_fc_same by assumption. reflexivity. Qed.
  Definition fv (c : nat) (e b gp : nat) : R :=
    match c with 0%nat => ze (q_fc m q e b gp) | 1%nat => uf_at m q 0 e b gp | 2%nat => uf_at m q 1 e b gp | _ => h_fc m q e b gp end.
  Lemma first_value_same : forall u c d gp, (u < length us)%nat -> In d (un_dist (UN u)) -> first_value m (qs u) c d gp = fv c (de_elt d) (de_face d) gp.
  Proof.
    intros u c d gp Hu Hd. pose proof (own_half u d Hu Hd) as O. unfold first_value, fv.
    destruct c as [|[|[|c]]]; [rewrite q_fc_same by assumption; reflexivity|apply uf_at_same; assumption|apply uf_at_same; assumption|apply h_fc_same; assumption].
  Qed.
  Lemma first_mean : forall u d c gp, (u < length us)%nat -> In d (un_dist (UN u)) -> (c < 4)%nat -> (gp < ngp1 m)%nat ->
    first_hat m (boxes u) (qs u) c d gp = hat m (fv c) (the_gedge m (de_edge d)) (point_of m d gp).
  Proof.
    intros u d c gp Hu Hd Hc Hg. destruct (Ml u d Hu Hd) as (v & d' & Hv & Hd' & E & N & _ & _ & _ & W & _).
    eapply (mean_cut m us cuts own Dv Cf Ft u v d d' (fv c) 4 c (fun c => first_value m (qs v) c d') _ _ [if wets v (de_elt d') then 1 else 0] (4 * length (m_rule1 m) + 1)); try eassumption; try (unfold ngp1; lia).
    - intros g' _. apply first_value_same; assumption.
    - intros g' _. apply first_value_same; assumption.
  Qed.
  Theorem wet_same : forall u d, (u < length us)%nat -> In d (un_dist (UN u)) -> wet_neighbor m (boxes u) d = wet (across m d).
  Proof.
    intros u d Hu Hd. destruct (Ml u d Hu Hd) as (v & d' & Hv & Hd' & E & N & _ & _ & _ & W & _).
    unfold wet_neighbor. rewrite (packed_last m 4 (fun c => first_value m (qs v) c d') (if wets v (de_elt d') then 1 else 0) _ W).
    rewrite (Hw v (de_elt d') Hv (own_half v d' Hv Hd')).
    assert (A : across m d = de_elt d').
    { destruct (dcase m us cuts own Dv Cf Ft u Hu d Hd) as (_ & T & _ & _). unfold across. fold (the_int m (de_edge d)).
      destruct (other_half m us cuts own Dv Cf Ft u v d d' Hu Hv Hd Hd' E N) as [(E1 & E2 & E3 & E4)|(E1 & E2 & E3 & E4)]; rewrite E1, E3; [rewrite Nat.eqb_refl; reflexivity|].
      destruct (Nat.eqb_spec (i_ex (fI (de_edge d))) (i_in (fI (de_edge d)))) as [Q|_]; [congruence|reflexivity]. }
    rewrite A. destruct (wet (de_elt d')); destruct (Req_EM_T _ _) as [Q|Q]; try reflexivity; exfalso; lra.
  Qed.
  Theorem dze_same : forall u e a dof, (u < length us)%nat -> In e (un_elts (UN u)) -> u_dze m (UN u) (boxes u) (qs u) a e dof = dze m q a e dof.
  Proof.
    intros u e a dof Hu He. unfold u_dze, dze. eapply (project_same m us cuts own Dv Cf Ft); try eassumption.
    - intros e' gp H _. rewrite q_elt_same by assumption. reflexivity.
    - intros e' b gp H _. rewrite q_fc_same by assumption. reflexivity.
    - intros d gp Hd Hg. apply (first_mean u d 0); (assumption || lia).
  Qed.
  Theorem du_same : forall u e i a dof, (u < length us)%nat -> In e (un_elts (UN u)) -> (i < 2)%nat -> u_du m (UN u) (boxes u) (qs u) i a e dof = du m q i a e dof.
  Proof.
    intros u e i a dof Hu He Hi. unfold u_du, du. eapply (project_same m us cuts own Dv Cf Ft); try eassumption.
    - intros e' gp H _. apply u_at_same; assumption.
    - intros e' b gp H _. apply uf_at_same; assumption.
    - intros d gp Hd Hg. rewrite (first_mean u d (S i)) by (assumption || lia). destruct i as [|[|i]]; [reflexivity|reflexivity|lia].
  Qed.
  Lemma du_mean : forall u d i a gp, (u < length us)%nat -> In d (un_dist (UN u)) -> (i < 2)%nat -> (a < 2)%nat -> (gp < ngp1 m)%nat ->
    du_hat m (UN u) (boxes u) (qs u) i a d gp = hat m (at_fgp m (du m q i a)) (the_gedge m (de_edge d)) (point_of m d gp).
  Proof.
    intros u d i a gp Hu Hd Hi Ha Hg. destruct (Ml u d Hu Hd) as (v & d' & Hv & Hd' & E & N & _ & _ & _ & _ & W).
    eapply (mean_cut m us cuts own Dv Cf Ft u v d d' (at_fgp m (du m q i a)) 4 (2 * i + a) (fun k => d_val m (u_du m (UN v) (boxes v) (qs v) (k / 2) (k mod 2)) d') _ _ [] (4 * length (m_rule1 m))); try eassumption; try (unfold ngp1; lia).
    - intros g' _. apply at_fgp_same. intros dof. apply du_same; [exact Hu|apply own_half; assumption|exact Hi].
    - intros g' _. destruct (div2 i a Ha) as [-> ->]. apply at_fgp_same. intros dof. apply du_same; [exact Hv|apply own_half; assumption|exact Hi].
    - apply no_tail. exact W.
  Qed.
  Theorem ddu_same : forall u e i a c dof, (u < length us)%nat -> In e (un_elts (UN u)) -> (i < 2)%nat -> (a < 2)%nat ->
    u_ddu m (UN u) (boxes u) (qs u) i a c e dof = ddu m q i a c e dof.
  Proof.
    intros u e i a c dof Hu He Hi Ha. unfold u_ddu, ddu. eapply (project_same m us cuts own Dv Cf Ft); try eassumption.
    - intros e' gp H _. apply at_gp_same. intros j. apply du_same; assumption.
    - intros e' b gp H _. apply at_fgp_same. intros j. apply du_same; assumption.
    - intros d gp Hd Hg. apply du_mean; assumption.
  Qed.
  (** All of them. *)
  Definition fields_same : Prop :=
    (forall a, (a < 2)%nat -> field_shared us (ndof m) (dbath m a) (fun u => u_dbath m (UN u) (boxes u) a)) /\
    (forall a c, (a < 2)%nat -> (c < 2)%nat -> field_shared us (ndof m) (ddbath m a c) (fun u => u_ddbath m (UN u) (boxes u) a c)) /\
    (forall a c l, (a < 2)%nat -> (c < 2)%nat -> (l < 2)%nat -> field_shared us (ndof m) (dddbath m a c l) (fun u => u_dddbath m (UN u) (boxes u) a c l)) /\
    (forall a, (a < 2)%nat -> field_shared us (ndof m) (dze m q a) (fun u => u_dze m (UN u) (boxes u) (qs u) a)) /\
    (forall i a, (i < 2)%nat -> (a < 2)%nat -> field_shared us (ndof m) (du m q i a) (fun u => u_du m (UN u) (boxes u) (qs u) i a)) /\
    (forall i a c, (i < 2)%nat -> (a < 2)%nat -> (c < 2)%nat -> field_shared us (ndof m) (ddu m q i a c) (fun u => u_ddu m (UN u) (boxes u) (qs u) i a c)).
  Theorem fields_ok : fields_same.
  Proof.
    unfold fields_same, field_shared. split; [|split; [|split; [|split; [|split]]]]; intros.
    - apply dbath_same; assumption.
    - apply ddbath_same; assumption.
    - apply dddbath_same; assumption.
    - apply dze_same; assumption.
    - apply du_same; assumption.
    - apply ddu_same; assumption.
  Qed.
  Theorem traces_ok : forall u d gp, (u < length us)%nat -> In d (un_dist (UN u)) -> (gp < ngp1 m)%nat ->
    (forall a, (a < 2)%nat -> dbath_hat m (UN u) (boxes u) a d gp = hat m (at_fgp m (dbath m a)) (the_gedge m (de_edge d)) (point_of m d gp)) /\
    first_hat m (boxes u) (qs u) 3 d gp = hat m (h_fc m q) (the_gedge m (de_edge d)) (point_of m d gp) /\
    wet_neighbor m (boxes u) d = wet (across m d).
  Proof.
    intros u d gp Hu Hd Hg. split; [intros a Ha; apply dbath_mean; assumption|]. split; [apply (first_mean u d 3); (assumption || lia)|apply wet_same; assumption].
  Qed.
End Fields.

(** Distributed Green-Naghdi correction: the blocks of the units against the serial ones. *)
From Coq Require Import Reals ZArith List Bool Arith Lia Lra Permutation.
From Verif Require Import Num ModelSWE Outcome ModelShape ModelBasis ModelJac ModelStep ModelIHDG SpecComm
  SpecSWE SpecStepper SpecStep SpecStage SpecIHDG SpecIHDG2
  LemmasSWE LemmasRK LemmasBasis2 LemmasStep LemmasStage LemmasPar2 LemmasPar4 LemmasIHDG4 LemmasIHDG6 LemmasIPar LemmasIPar2 LemmasIPar3 LemmasIPar4 LemmasIPar5
  LemmasGN1 LemmasGN2 LemmasGN3 LemmasGN4 LemmasGN5
  ModelIPar SpecIPar ModelGN ModelGPar SpecGPar LemmasGPar1 LemmasGPar2 LemmasGPar3.
Import ListNotations.
Open Scope R_scope.

Section Ext.
  Context (m : mesh).
  Lemma s_pp_ext : forall e i j u v, (forall gp, u gp = v gp) -> s_pp m e i j u = s_pp m e i j v.
  Proof. intros e i j u v H. unfold s_pp. rewrite !vmsum_rsum. apply rsum_ext. intros gp _. rewrite H. reflexivity. Qed.
  Lemma s_pdp_ext : forall e i a j u v, (forall gp, u gp = v gp) -> s_pdp m e i a j u = s_pdp m e i a j v.
  Proof. intros e i a j u v H. unfold s_pdp. rewrite !vmsum_rsum. apply rsum_ext. intros gp _. rewrite H. reflexivity. Qed.
  Lemma s_phi_ext : forall e i u v, (forall gp, u gp = v gp) -> s_phi m e u i = s_phi m e v i.
  Proof. intros e i u v H. unfold s_phi. rewrite !vmsum_rsum. apply rsum_ext. intros gp _. rewrite H. reflexivity. Qed.
  Lemma s_pl_ext : forall ed s i j u v, (forall gp, (gp < ngp1 m)%nat -> u gp = v gp) -> s_pl m ed s i j u = s_pl m ed s i j v.
  Proof. intros ed s i j u v H. unfold s_pl. rewrite !vmsum_rsum. apply rsum_ext. intros gp Hg. rewrite H by exact Hg. reflexivity. Qed.
  Lemma d_pl_ext : forall d i j u v, (forall gp, (gp < ngp1 m)%nat -> u gp = v gp) -> d_pl m d i j u = d_pl m d i j v.
  Proof. intros d i j u v H. unfold d_pl. rewrite !vmsum_rsum. apply rsum_ext. intros gp Hg. rewrite H by exact Hg. reflexivity. Qed.
End Ext.
Lemma source_point_ext : forall g h b b' c c' d d' z z' u u' v v' w w' a, (a < 2)%nat ->
  (forall i, (i < 2)%nat -> b i = b' i) -> (forall i j, (i < 2)%nat -> (j < 2)%nat -> c i j = c' i j) ->
  (forall i j k, (i < 2)%nat -> (j < 2)%nat -> (k < 2)%nat -> d i j k = d' i j k) ->
  (forall i, (i < 2)%nat -> z i = z' i) -> (forall i, (i < 2)%nat -> u i = u' i) -> (forall i j, (i < 2)%nat -> (j < 2)%nat -> v i j = v' i j) ->
  (forall i j k, (i < 2)%nat -> (j < 2)%nat -> (k < 2)%nat -> w i j k = w' i j k) ->
  source_point g h b c d z u v w a = source_point g h b' c' d' z' u' v' w' a.
Proof.
  intros g h b b' c c' d d' z z' u u' v v' w w' a Ha B C D Z U V W. unfold source_point. cbv zeta.
  rewrite !B, !C, !D, !Z, !U, !V, !W by lia. reflexivity.
Qed.
Lemma mod2 : forall r, (r mod 2 < 2)%nat.
Proof. intros r. apply Nat.mod_upper_bound. lia. Qed.

Section Cmp.
  Context (m : mesh) (us : list iunit) (cuts : list nat) (own : nat -> bool).
  Context (Dv : divides m us cuts own) (Cf : conforming m) (Fo : faces_once m) (Sw : symmetric_weights m) (Sp : symmetric_points m) (Ft : forall ed, In ed cuts -> fits m ed).
  Context (g : R) (q : nat -> coeffs) (qs : nat -> nat -> coeffs) (Hq : elts_shared m us q qs).
  Context (wet : nat -> bool) (wets : nat -> nat -> bool) (Hw : wets_shared us wet wets) (Lv : no_wet_levee m wet).
  Context (boxes : nat -> mailbox) (Ml : mailed m us boxes qs wets).
  Notation ni := (length (m_intfaces m)).
  Notation nb := (length (m_bounds m)).
  Notation fI k := (the_int m k).
  Notation UN u := (the_unit us u).

  Section U.
    Context (u : nat) (Hu : (u < length us)%nat).
    Notation un := (the_unit us u).
    Section E.
      Context (e : nat) (He : In e (un_elts un)).
      Lemma b1_same : forall gp a, ub1 m un (boxes u) e gp a = b1 m e gp a.
      Proof. intros gp a. unfold ub1, b1. f_equal. apply at_gp_same. intros dof. eapply dbath_same; eassumption. Qed.
      Lemma b2_same : forall gp a c, (a < 2)%nat -> ub2 m un (boxes u) e gp a c = b2 m e gp a c.
      Proof. intros gp a c Ha. unfold ub2, b2. f_equal. apply at_gp_same. intros dof. eapply ddbath_same; eassumption. Qed.
      Lemma b3_same : forall gp a c l, (a < 2)%nat -> (c < 2)%nat -> ub3 m un (boxes u) e gp a c l = b3 m e gp a c l.
      Proof. intros gp a c l Ha Hc. unfold ub3, b3. f_equal. apply at_gp_same. intros dof. eapply dddbath_same; eassumption. Qed.
      Lemma hh_same : forall gp, h_elt m (qs u) e gp = h_elt m q e gp.
      Proof. intros gp. eapply h_elt_same; eassumption. Qed.
      Lemma v11_same : forall r c, u_vol_11 m un (boxes u) (qs u) e r c = vol_11 m q e r c.
      Proof.
        intros r c. unfold u_vol_11, vol_11, flat11. f_equal.
        - apply s_pp_ext. intros gp. rewrite !b1_same. reflexivity.
        - apply s_pdp_ext. intros gp. rewrite b1_same, hh_same. reflexivity.
      Qed.
      Lemma v12_same : forall r c, u_vol_12 m un (boxes u) (qs u) e r c = vol_12 m q e r c.
      Proof. intros r c. unfold u_vol_12, vol_12, flat12. f_equal. apply s_pp_ext. intros gp. rewrite b1_same, hh_same. reflexivity. Qed.
      Lemma v21_same : forall r c, vol_21 m (qs u) e r c = vol_21 m q e r c.
      Proof. intros r c. unfold vol_21, flat21. apply s_pdp_ext. intros gp. rewrite hh_same. reflexivity. Qed.
      Lemma v22_same : forall r c, vol_22 m (qs u) e r c = vol_22 m q e r c.
      Proof. intros r c. unfold vol_22. apply s_pp_ext. intros gp. rewrite hh_same. reflexivity. Qed.
      Lemma vr_same : forall r, u_vol_r m un (boxes u) g (qs u) e r = vol_r m g q e r.
      Proof.
        intros r. unfold u_vol_r, vol_r. apply s_phi_ext. intros gp. unfold u_source_at_gp, source_at_gp. rewrite hh_same. apply source_point_ext; [apply mod2|intros..].
        - apply b1_same.
        - apply b2_same. assumption.
        - apply b3_same; assumption.
        - apply at_gp_same. intros dof. eapply dze_same; eassumption.
        - eapply u_at_same; eassumption.
        - apply at_gp_same. intros dof. eapply du_same; eassumption.
        - apply at_gp_same. intros dof. eapply ddu_same; eassumption.
      Qed.
    End E.

    (** Edges held alone. *)
    Section K.
      Context (k : nat) (Hk : In k (un_ints un ++ un_bnds un)).
      Lemma Hown : forall s, In s (ge_sides (the_gedge m k)) -> In (s_e s) (un_elts un).
      Proof. intros s Hs. eapply own_edge; eassumption. Qed.
      Lemma wets_sides : wet_sides (wets u) (the_gedge m k) = wet_sides wet (the_gedge m k).
      Proof. unfold wet_sides. apply filter_ext_in. intros s Hs. apply Hw; [exact Hu|apply Hown; exact Hs]. Qed.
      Lemma wets_edge : wet_edge (wets u) (the_gedge m k) = wet_edge wet (the_gedge m k).
      Proof.
        unfold wet_edge. pose proof Hown as O. induction (ge_sides (the_gedge m k)) as [|s l IH]; [reflexivity|]. cbn [existsb].
        rewrite IH by (intros t Ht; apply O; right; exact Ht). f_equal. apply Hw; [exact Hu|]. apply O. left. reflexivity.
      Qed.
      Lemma kernels_same : kernels_of (wets u) (the_gedge m k) = kernels_of wet (the_gedge m k).
      Proof.
        unfold kernels_of. replace (forallb (fun s => wets u (s_e s)) (ge_sides (the_gedge m k))) with (forallb (fun s => wet (s_e s)) (ge_sides (the_gedge m k))); [reflexivity|].
        pose proof Hown as O. induction (ge_sides (the_gedge m k)) as [|s l IH]; [reflexivity|]. cbn [forallb].
        rewrite IH by (intros t Ht; apply O; right; exact Ht). f_equal. symmetry. apply Hw; [exact Hu|]. apply O. left. reflexivity.
      Qed.
      Lemma depth_same : forall gp, (gp < ngp1 m)%nat -> hat m (h_fc m (qs u)) (the_gedge m k) gp = hat m (h_fc m q) (the_gedge m k) gp.
      Proof.
        intros gp Hg. eapply (hat_own m us cuts own Dv (h_fc m q) (h_fc m (qs u)) u Hu); try eassumption. intros e b g' He _. eapply h_fc_same; eassumption.
      Qed.
      Lemma slope_same : forall a gp, (gp < ngp1 m)%nat -> hat m (at_fgp m (u_dbath m un (boxes u) a)) (the_gedge m k) gp = hat m (at_fgp m (dbath m a)) (the_gedge m k) gp.
      Proof.
        intros a gp Hg. eapply (hat_own m us cuts own Dv (at_fgp m (dbath m a)) (at_fgp m (u_dbath m un (boxes u) a)) u Hu); try eassumption.
        intros e b g' He _. apply at_fgp_same. intros dof. eapply dbath_same; eassumption.
      Qed.
      Lemma l1h_same : forall s r c, u_loc_1h m un (boxes u) (qs u) (the_gedge m k) s r c = loc_1h m q (the_gedge m k) s r c.
      Proof.
        intros s r c. unfold u_loc_1h, loc_1h, flat11. apply s_pl_ext. intros gp Hg. unfold b_hat_at. pose proof (gp_hat_lt m s gp Hg) as L. rewrite slope_same, depth_same by exact L. reflexivity.
      Qed.
      Lemma l2h_same : forall s r c, loc_2h m (qs u) (the_gedge m k) s r c = loc_2h m q (the_gedge m k) s r c.
      Proof. intros s r c. unfold loc_2h, flat21. apply s_pl_ext. intros gp Hg. rewrite depth_same by (apply gp_hat_lt; exact Hg). reflexivity. Qed.
    End K.

    (** Halves. *)
    Section D.
      Context (d : dedge) (Hd : In d (un_dist un)).
      Notation k := (de_edge d).
      Notation ed := (the_gedge m (de_edge d)).
      Notation sd := (side_of m d).
      Lemma Hc : (k < ni)%nat /\ i_in (fI k) <> i_ex (fI k) /\ fits m k /\
        (d = DEdge k (i_in (fI k)) (i_bin (fI k)) (own k) \/ d = DEdge k (i_ex (fI k)) (i_bex (fI k)) (negb (own k))).
      Proof.
        destruct (dcase m us cuts own Dv Cf Ft u Hu d Hd) as (R & T & FT & C). split; [exact R|]. split; [exact T|]. split; [exact FT|].
        destruct d as [k0 e0 b0 o0]. cbn [de_edge de_elt de_face de_ccw] in *. destruct C as [(-> & -> & ->)|(-> & -> & ->)]; auto.
      Qed.
      Lemma sd_e : s_e sd = de_elt d.
      Proof.
        destruct Hc as (R & T & FT & [E|E]); rewrite E; unfold side_of; cbn [de_elt de_edge]; [rewrite Nat.eqb_refl; reflexivity|].
        destruct (Nat.eqb_spec (i_ex (fI k)) (i_in (fI k))) as [Q|_]; [congruence|reflexivity].
      Qed.
      Lemma sd_b : s_b sd = de_face d.
      Proof.
        destruct Hc as (R & T & FT & [E|E]); rewrite E; unfold side_of; cbn [de_elt de_edge]; [rewrite Nat.eqb_refl; reflexivity|].
        destruct (Nat.eqb_spec (i_ex (fI k)) (i_in (fI k))) as [Q|_]; [congruence|reflexivity].
      Qed.
      Lemma sd_n : s_n sd = s_n (d_side m d).
      Proof.
        destruct Hc as (R & T & FT & [E|E]); rewrite E; unfold side_of, d_side; cbn [de_elt de_edge de_face]; [rewrite Nat.eqb_refl; reflexivity|].
        destruct (Nat.eqb_spec (i_ex (fI k)) (i_in (fI k))) as [Q|_]; [congruence|]. cbn [s_n]. symmetry. apply n_ex. exact FT.
      Qed.
      Lemma sd_in : In sd (ge_sides ed).
      Proof. destruct Hc as (R & _). rewrite gedge_int by exact R. unfold side_of. destruct (_ =? _)%nat; [left|right; left]; reflexivity. Qed.
      Lemma sd_gp : forall gp, point_of m d gp = gp_hat m sd gp.
      Proof. intros gp. unfold point_of, gp_hat, side_of. fold (the_int m k). destruct (_ =? _)%nat; reflexivity. Qed.
      Lemma len_d : len m (d_edge m d) = len m ed.
      Proof.
        destruct Hc as (R & T & FT & [E|E]); unfold len; rewrite (gedge_int m k R); rewrite E; unfold d_edge; cbn [ge_len fst snd de_elt de_face]; [reflexivity|].
        apply J_ex. exact FT.
      Qed.
      Lemma lam_d : forall j gp, (gp < ngp1 m)%nat -> lam m d j gp = flip own k j * legendre_phi j (z1 m (gp_hat m sd gp)).
      Proof.
        intros j gp Hg. rewrite <- sd_gp. unfold point_of. fold (the_int m k). destruct Hc as (R & T & FT & [E|E]); rewrite E; cbn [de_elt de_edge].
        - rewrite Nat.eqb_refl. apply lam_in; assumption.
        - destruct (Nat.eqb_spec (i_ex (fI k)) (i_in (fI k))) as [Q|_]; [congruence|]. apply lam_ex; assumption.
      Qed.
      Lemma w_gp : forall gp, (gp < ngp1 m)%nat -> w1 m (gp_hat m sd gp) = w1 m gp.
      Proof. intros gp Hg. unfold gp_hat. destruct (s_ex sd); [apply w_mirror; assumption|reflexivity]. Qed.
      Lemma fact_d : forall gp j, (gp < ngp1 m)%nat -> lam_fact m d gp j = flip own k j * (legendre_phi j (z1 m (gp_hat m sd gp)) * (w1 m (gp_hat m sd gp) * len m ed)).
      Proof. intros gp j Hg. unfold lam_fact. rewrite lam_d, w_gp by exact Hg. rewrite <- len_d. unfold len, d_edge. cbn [ge_len fst snd]. ring. Qed.
      Lemma pl_d : forall i j f, d_pl m d i j f = flip own k j * s_pl m ed sd i j f.
      Proof.
        intros i j f. unfold d_pl, s_pl. rewrite !vmsum_rsum, <- rsum_scal. apply rsum_ext. intros gp Hg. rewrite fact_d by exact Hg. rewrite sd_b. ring.
      Qed.
      Lemma ll_d : forall i j x, d_ll m d i j (fun _ => x) = flip own k i * flip own k j * s_ll m ed i j (fun _ => x).
      Proof.
        intros i j x. assert (A : d_ll m d i j (fun _ => x) = flip own k i * flip own k j *
          vmsum (ngp1 m) (fun gp => x * (legendre_phi i (z1 m (gp_hat m sd gp)) * (legendre_phi j (z1 m (gp_hat m sd gp)) * (w1 m (gp_hat m sd gp) * len m ed))))).
        { unfold d_ll. rewrite !vmsum_rsum, <- rsum_scal. apply rsum_ext. intros gp Hg. rewrite fact_d, lam_d by exact Hg. ring. }
        rewrite A. f_equal. unfold s_ll, gp_hat. destruct (s_ex sd); [|reflexivity].
        symmetry. rewrite (vmsum_mirror m). reflexivity.
      Qed.
      Lemma l11_d : forall r c, loc_11 m (d_edge m d) (d_side m d) r c = loc_11 m ed sd r c.
      Proof. intros r c. unfold loc_11, flat11, s_fpp. rewrite len_d, sd_b. reflexivity. Qed.
      Lemma l1h_d : forall r c, d_loc_1h m un (boxes u) (qs u) d r c = flip own k (c / 2) * loc_1h m q ed sd r c.
      Proof.
        intros r c. unfold d_loc_1h, loc_1h, flat11. rewrite pl_d. f_equal. apply s_pl_ext. intros gp Hg. unfold b_hat_at. rewrite sd_n, <- sd_gp.
        destruct (traces_ok m us cuts own Dv Cf Ft q qs Hq wet wets Hw boxes Ml u d gp Hu Hd Hg) as (T1 & T2 & _). rewrite T1 by (apply mod2). rewrite T2. reflexivity.
      Qed.
      Lemma l2h_d : forall r c, d_loc_2h m (boxes u) (qs u) d r c = flip own k (c / 2) * loc_2h m q ed sd r c.
      Proof.
        intros r c. unfold d_loc_2h, loc_2h, flat21. rewrite pl_d. f_equal. apply s_pl_ext. intros gp Hg. rewrite sd_n, <- sd_gp.
        destruct (traces_ok m us cuts own Dv Cf Ft q qs Hq wet wets Hw boxes Ml u d gp Hu Hd Hg) as (_ & T2 & _). rewrite T2. reflexivity.
      Qed.
      Context (Wd : wet (de_elt d) = true).
      Lemma kind_d : ge_kind ed = KInternal.
      Proof.
        destruct Hc as (R & T & FT & C). rewrite gedge_int by exact R. cbn [ge_kind]. unfold kind_of. rewrite (Lv (fI k)); [reflexivity|unfold the_int; apply nth_In; exact R|].
        destruct C as [E|E]; rewrite E in Wd; cbn [de_elt] in Wd; rewrite Wd; [reflexivity|apply orb_true_r].
      Qed.
      Lemma both_d : forallb (fun s => wet (s_e s)) (ge_sides ed) = wet (across m d).
      Proof.
        destruct Hc as (R & T & FT & C). rewrite gedge_int by exact R. cbn [ge_sides forallb s_e]. unfold across. fold (the_int m k).
        destruct C as [E|E]; rewrite E in Wd |- *; cbn [de_elt de_edge] in Wd |- *.
        - rewrite Nat.eqb_refl, Wd, andb_true_r. reflexivity.
        - destruct (Nat.eqb_spec (i_ex (fI k)) (i_in (fI k))) as [Q|_]; [congruence|]. rewrite Wd. cbn. rewrite andb_true_r. reflexivity.
      Qed.
      Lemma kernels_d : dk m (boxes u) d = if wet (across m d) then flow_kernels 1 else wall_kernels.
      Proof. unfold dk, d_kernels. rewrite (wet_same m us cuts own Dv Cf Ft qs wet wets Hw boxes Ml u d Hu Hd). reflexivity. Qed.
      Lemma kernels_s : kernels_of wet ed = if wet (across m d) then flow_kernels 2 else wall_kernels.
      Proof. unfold kernels_of. rewrite kind_d, both_d. reflexivity. Qed.
      Lemma h1_d : forall r c, dh1 m (boxes u) d r c = flip own k (r / 2) * h1_block m wet ed sd r c.
      Proof.
        intros r c. unfold dh1, h1_block, flat11. rewrite pl_d, kernels_d, kernels_s. f_equal. apply s_pl_ext. intros gp _.
        destruct (wet (across m d)); cbn [flow_kernels wall_kernels fst snd]; [reflexivity|]. rewrite sd_n. reflexivity.
      Qed.
      Lemma h2_d : forall r c, dh2 m (boxes u) d r c = flip own k (r / 2) * h2_block m wet ed sd r c.
      Proof.
        intros r c. unfold dh2, h2_block, flat12. rewrite pl_d, kernels_d, kernels_s. f_equal. apply s_pl_ext. intros gp _.
        destruct (wet (across m d)); cbn [flow_kernels wall_kernels fst snd]; [|reflexivity]. rewrite sd_n. reflexivity.
      Qed.
      Lemma s_ll_two : forall i j x y, y = 2 * x -> s_ll m ed i j (fun _ => y) = 2 * s_ll m ed i j (fun _ => x).
      Proof. intros i j x y ->. unfold s_ll. rewrite !vmsum_rsum, <- rsum_scal. apply rsum_ext. intros gp _. ring. Qed.
      Lemma hh_d : forall r c, (if wet (across m d) then 2 else 1) * dhh m (boxes u) d r c = flip own k (r / 2) * flip own k (c / 2) * hh_block m wet ed r c.
      Proof.
        intros r c. unfold dhh, hh_block, flat11. rewrite ll_d, kernels_d, kernels_s. destruct (wet (across m d)); [|ring].
        cbn [flow_kernels fst]. rewrite (s_ll_two (r / 2) (c / 2) (- (1) * tau * delta (r mod 2) (c mod 2)) (- (2) * tau * delta (r mod 2) (c mod 2))) by ring. ring.
      Qed.
    End D.
  End U.
End Cmp.

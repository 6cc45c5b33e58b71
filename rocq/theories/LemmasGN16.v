(** Proofs: the correction and the resting state. *)
From Coq Require Import Reals List Arith Bool Lia Lra FunctionalExtensionality.
From Verif Require Import Num Outcome ModelSWE LemmasSWE ModelShape ModelBasis ModelJac ModelStepper ModelStep ModelIHDG ModelCond SpecShape SpecBasis SpecStepper SpecStep SpecStage SpecCond
  LemmasRK LemmasStep LemmasStage3 LemmasStage4 LemmasCond ModelGN SpecGN LemmasGN1 LemmasGN2 LemmasGN3 LemmasGN4 LemmasGN5 LemmasGN6 LemmasGN7 LemmasGN8 LemmasGN10 LemmasGN11 LemmasGN12
  LemmasBasis4 ModelInit SpecRest LemmasRest1 LemmasRest2 LemmasRest3 LemmasRest5 LemmasGN9.
Import ListNotations.
Open Scope R_scope.

Section Rest.
  Context (i : input) (C : conforming i).
  Notation m := (init_mesh i).
  Notation B := (fun e gp => bath (m_aux m e gp)).
  Notation Bf := (fun e b gp => bath (m_faux m e b gp)).

  Lemma derivative_const : forall v vf a d x, is_derivative m v vf a d -> (a < 2)%nat -> (forall e gp, (e < m_n m)%nat -> (gp < ngp2 m)%nat -> v e gp = x) ->
    (forall e b gp, (e < m_n m)%nat -> (b < 3)%nat -> (gp < ngp1 m)%nat -> vf e b gp = x) -> forall e j, (e < m_n m)%nat -> (j < ndof m)%nat -> d e j = 0.
  Proof.
    intros v vf a d x H Ha H1 H2 e j He Hj. pose proof (project_derivative m (once i C) (good_tri i C) v vf a (order_298 i C) Ha) as PD.
    pose proof (mass_unique i C e (project m v vf a e) _ j He Hj (fun M HM => PD e j M He Hj HM)) as U1.
    pose proof (mass_unique i C e (d e) _ j He Hj (fun M HM => H e j M He Hj HM)) as U2.
    rewrite <- U1, (project_const i C v vf x a e j H1 H2 Ha He Hj), Rmult_0_r in U2.
    pose proof (area_pos i C e He) as A. pose proof (Rinv_0_lt_compat _ (minv_pos i C j Hj)) as Q. pose proof (Rmult_lt_0_compat _ _ A Q).
    destruct (Rmult_integral _ _ U2); [lra|assumption].
  Qed.
  Lemma val_zero : forall c z, (forall j, (j < ndof m)%nat -> c j = 0) -> val m c z = 0.
  Proof. intros c z H. unfold val. apply rsum_const0. intros j Hj. rewrite (H j Hj). ring. Qed.

  Section State.
    Context (x : R) (q : nat -> coeffs) (HQ : forall e, (e < m_n m)%nat -> resting (in_p i) x (q e)).
    Lemma val_rest : forall e v z, (e < m_n m)%nat -> (v < 3)%nat -> val m (q e v) z = if Nat.eqb v 0 then x else 0.
    Proof. intros e v z He Hv. rewrite <- (expand_row m (q e) z v Hv), (expand_rest i C x (q e) z (HQ e He)). destruct v as [|[|[|v]]]; [reflexivity|reflexivity|reflexivity|lia]. Qed.
    Context (D : slopes) (HD : slopes_of m q B Bf D).
    Lemma rest_z : forall a e j, (a < 2)%nat -> (e < m_n m)%nat -> (j < ndof m)%nat -> r_z D a e j = 0.
    Proof.
      intros a e j Ha He Hj. apply (derivative_const _ _ a (r_z D a) x (so_z _ _ _ _ _ HD a Ha) Ha); try assumption.
      - intros e' gp He' _. unfold elt_val. exact (val_rest e' 0 _ He' ltac:(lia)).
      - intros e' b gp He' _ _. unfold face_val. exact (val_rest e' 0 _ He' ltac:(lia)).
    Qed.
    Lemma rest_veloc : forall v e gp, (v < 2)%nat -> (e < m_n m)%nat -> veloc m q B v e gp = 0.
    Proof. intros v e gp Hv He. unfold veloc, elt_val. rewrite (val_rest e (S v) _ He ltac:(lia)). cbn [Nat.eqb]. unfold Rdiv. ring. Qed.
    Lemma rest_u : forall v a e j, (v < 2)%nat -> (a < 2)%nat -> (e < m_n m)%nat -> (j < ndof m)%nat -> r_u D v a e j = 0.
    Proof.
      intros v a e j Hv Ha He Hj. apply (derivative_const _ _ a (r_u D v a) 0 (so_u _ _ _ _ _ HD v a Hv Ha) Ha); try assumption.
      - intros e' gp He' _. exact (rest_veloc v e' gp Hv He').
      - intros e' b gp He' _ _. unfold fveloc, face_val. rewrite (val_rest e' (S v) _ He' ltac:(lia)). cbn [Nat.eqb]. unfold Rdiv. ring.
    Qed.
    Lemma rest_uu : forall v a d e j, (v < 2)%nat -> (a < 2)%nat -> (d < 2)%nat -> (e < m_n m)%nat -> (j < ndof m)%nat -> r_uu D v a d e j = 0.
    Proof.
      intros v a d e j Hv Ha Hd He Hj. apply (derivative_const _ _ d (r_uu D v a d) 0 (so_uu _ _ _ _ _ HD v a d Hv Ha Hd) Hd); try assumption.
      - intros e' gp He' _. unfold elt_val. apply val_zero. intros l Hl. apply rest_u; assumption.
      - intros e' b gp He' _ _. unfold face_val. apply val_zero. intros l Hl. apply rest_u; assumption.
    Qed.
    Lemma rest_source : forall g e a gp, (e < m_n m)%nat -> (a < 2)%nat -> gn_source m q B g alpha D e a gp = 0.
    Proof.
      intros g e a gp He Ha.
      assert (U0 : forall v, (v < 2)%nat -> veloc m q B v e gp = 0) by (intros; apply rest_veloc; assumption).
      assert (U1 : forall v c, (v < 2)%nat -> (c < 2)%nat -> elt_val m (r_u D v c) e gp = 0) by (intros; unfold elt_val; apply val_zero; intros; apply rest_u; assumption).
      assert (U2 : forall v c d, (v < 2)%nat -> (c < 2)%nat -> (d < 2)%nat -> elt_val m (r_uu D v c d) e gp = 0) by (intros; unfold elt_val; apply val_zero; intros; apply rest_uu; assumption).
      assert (Z : elt_val m (r_z D a) e gp = 0) by (unfold elt_val; apply val_zero; intros; apply rest_z; assumption).
      unfold gn_source, disp_source, c1_of, c4_of, c1_slope, c4_slope. rewrite !U0, !U1, !U2, !Z by (assumption || lia). ring.
    Qed.
  End State.

  Lemma vol_int_0 : forall e F, (forall gp z, (gp < ngp2 m)%nat -> F gp z = 0) -> vol_int m e F = 0.
  Proof. intros e F H. rewrite (vol_int_ok i C e F (fun _ _ => 0 * 0)) by (intros gp z Hg _ _; rewrite (H gp z Hg); ring). rewrite vol_int_scal. ring. Qed.
  Lemma edge_int_0 : forall k s F, (forall gp z, F gp z = 0) -> edge_int m k s F = 0.
  Proof. intros k s F H. rewrite (edge_int_ext m k s F (fun _ _ => 0 * 0)) by (intros; rewrite H; ring). rewrite edge_int_scal. ring. Qed.
  Lemma face_int_0 : forall k s F, (forall z, F z = 0) -> face_int m k s F = 0.
  Proof. intros k s F H. unfold face_int. rewrite rsum_const0; [ring|]. intros gp _. rewrite H. ring. Qed.
  Lemma at_sides_0 : forall e G, (forall k s, G k s = 0) -> at_sides m e G = 0.
  Proof. intros e G H. unfold at_sides. apply rsum_const0. intros k _. apply lsum_const0. intros s _. rewrite H. destruct (Nat.eqb _ e); reflexivity. Qed.
  Lemma zero_system : forall al t wet h b hh bh K, (forall e a gp, (e < m_n m)%nat -> (a < 2)%nat -> (gp < ngp2 m)%nat -> K e a gp = 0) ->
    gn_system m al t wet h b hh bh K (fun _ _ _ => 0) (fun _ _ => 0) (fun _ _ _ => 0).
  Proof.
    intros al t wet h b hh bh K HK.
    assert (V : forall z, val m (fun _ => 0) z = 0) by (intros; apply val_zero; reflexivity).
    assert (DV : forall a e z, dval m a e (fun _ => 0) z = 0) by (intros; unfold dval; apply rsum_const0; intros; ring).
    assert (L : forall y, lam m (fun _ => 0) y = 0) by (intros; unfold lam; apply rsum_const0; intros; ring).
    split.
    - intros e j He _ Hj. split.
      + intros a Ha. unfold eq_w1, lhs_w1. rewrite (vol_int_0 e (fun gp z => GetPhi j z * K e a gp)) by (intros gp z Hg; rewrite (HK e a gp He Ha Hg); ring).
        rewrite !vol_int_0 by (intros; unfold bw; rewrite ?V, ?DV; ring).
        rewrite at_sides_0; [ring|]. intros k s. rewrite face_int_0 by (intros; rewrite V; ring). rewrite edge_int_0; [ring|]. intros gp z. unfold bwh. rewrite !L. ring.
      + unfold eq_w2. rewrite !vol_int_0 by (intros; rewrite ?V; unfold Rdiv; ring). rewrite at_sides_0; [ring|]. intros k s. apply edge_int_0. intros gp z. rewrite !L. unfold Rdiv. ring.
    - intros k j a Hk _ Hj Ha. destruct (is_wall m wet k).
      + apply lsum_const0. intros s _. apply edge_int_0. intros gp z. rewrite !V, L. ring.
      + apply lsum_const0. intros s _. apply edge_int_0. intros gp z. rewrite !V, L. ring.
  Qed.

  (** ** The correction *)
  Context (cfg : config) (disp : nat -> bool) (troubled : nat -> bool).
  Context (inverse : nat -> (nat -> nat -> R) -> nat -> nat -> R) (solve_dense : nat -> (nat -> nat -> R) -> (nat -> R) -> nat -> R)
          (solve_sparse : nat -> (nat -> nat -> R) -> (nat -> R) -> nat -> R).
  Context (OI : inverse_ok inverse) (OD : solver_ok solve_dense) (OS : solver_ok solve_sparse).
  Context (NL : forall f, In f (in_intfaces i) -> i_kind f = Internal).
  Context (n : nat) (Hn : (0 < n)%nat) (Row : forall k, (k < n)%nat -> rsum (S k) (fun s => Q2R (ModelStepper.entry (c_A cfg) k s)) = 1).
  Context (x : R).
  Definition rest_solvable : Prop := forall q wet D, (forall e, (e < m_n m)%nat -> resting (in_p i) x (q e)) -> slopes_of m q B Bf D ->
    solvable m alpha tau wet (depth m q B) (bed m D) (mean m (fdepth m q Bf)) (fbed m D).
  Context (SV : rest_solvable).
  Notation stage := (correction_stage m cfg disp inverse solve_dense solve_sparse troubled).
  Definition nb_ok (nb : ModelGN.numbering) : Prop := c_wd cfg = false -> nb = first_numbering m.
  Definition held (k : nat) (st : mstate) : Prop := forall e, (e < m_n m)%nat -> ms_wet st e = true /\ (forall j, (j <= k)%nat -> resting (in_p i) x (ms_q st e j)) /\
    (forall j v d, (j < k)%nat -> (v < 3)%nat -> (d < ndof m)%nat -> ms_sol st e j v d = 0).

  Lemma stage_held : forall st nb stp, st_nstages stp = n -> (st_stage stp < n)%nat -> let k := st_stage stp in held k st -> nb_ok nb ->
    exists st' nb', stage ((st, nb), stp) = Ok ((st', nb'), stepper_incr stp) /\ nb_ok nb' /\ calm i x ((k + 1) mod n)%nat st' /\ ((k + 1 < n)%nat -> held (k + 1) st').
  Proof.
    intros st nb stp En Hk k HK HN. set (q := fun e => ms_q st e k). set (wet := ms_wet st). set (nb' := renumber m (c_wd cfg) wet nb).
    assert (AW : forall e, (e < m_n m)%nat -> wet e = true) by (intros e He; apply (HK e He)).
    assert (HQ : forall e, (e < m_n m)%nat -> resting (in_p i) x (q e)) by (intros e He; apply (HK e He); lia).
    assert (HW : c_wd cfg = false -> nb = first_numbering m /\ forall e, (e < m_n m)%nat -> wet e = true) by (intros W; split; [exact (HN W)|exact AW]).
    assert (NK : num_ok m wet nb').
    { apply renumber_ok; [exact (once i C)|]. intros W. destruct (HW W) as [-> A]. split; [apply first_num_ok; exact (once i C)|exact A]. }
    assert (HS : forall y, (y < n_edges m)%nat -> (n_edge nb' y < n_count nb')%nat).
    { intros y Hy. rewrite <- gedges_length in Hy. destruct (nth_error (gedges m) y) as [ed|] eqn:E; [|apply nth_error_None in E; lia].
      assert (IN : In (y, ed) (numbered_edges m)) by (apply numbered_nth; exact E).
      exact (num_bound m wet nb' (y, ed) NK IN (all_wet_edge m wet (y, ed) (once i C) AW IN)). }
    assert (LV : no_wet_levee m wet) by (intros f Hf K; destruct (K (NL f Hf))).
    destruct (gn_stage m cfg disp troubled (once i C) (good_tri i C) (order_298 i C) inverse solve_dense solve_sparse OI OD OS st nb stp ltac:(fold k; lia) LV HW HS) as (D & HD & ST).
    fold k q wet nb' in HD, ST. specialize (ST (SV q wet D HQ HD)). destruct ST as (st' & w1 & w2 & wh & E & SY & AD & UQ).
    assert (Z1 : forall e a j, (e < m_n m)%nat -> (a < 2)%nat -> (j < ndof m)%nat -> w1 e a j = 0).
    { intros e a j He Ha Hj. apply (UQ (fun _ _ _ => 0) (fun _ _ => 0) (fun _ _ _ => 0)); [|exact He|exact (AW e He)|exact Ha|exact Hj].
      apply zero_system. intros e' a' gp He' Ha' _. exact (rest_source x q HQ D HD (c_g cfg) e' a' gp He' Ha'). }
    assert (LD : forall e v j, (e < m_n m)%nat -> (v < 3)%nat -> (j < ndof m)%nat ->
      gn_load m (c_g cfg) alpha (fun e => wet e && disp e && negb (troubled e)) q D w1 e v j = 0).
    { intros e v j He Hv Hj. unfold gn_load. destruct (wet e && disp e && negb (troubled e)); [|reflexivity]. destruct v as [|a]; [reflexivity|].
      unfold gn_rate. apply vol_int_0. intros gp z Hg. rewrite (val_zero (w1 e a) z) by (intros l Hl; apply Z1; (assumption || lia)).
      unfold elt_val. rewrite (val_zero (r_z D a e)) by (intros l Hl; apply (rest_z x q HQ D HD); (assumption || lia)). ring. }
    exists st', nb'. split; [exact E|]. split; [intros W; unfold nb'; rewrite W; exact (HN W)|].
    destruct AD as [WE AD]. rewrite En in AD. fold wet in WE.
    assert (SZ : forall e v d, (e < m_n m)%nat -> (v < 3)%nat -> (d < ndof m)%nat -> ms_sol st' e k v d = 0).
    { intros e v d He Hv Hd. destruct (AD e He) as (A1 & _).
      pose proof (mass_unique i C e (ms_sol st' e k v) _ d He Hd (fun M HM => A1 v d M Hd HM)) as U. rewrite (LD e v d He Hv Hd) in U.
      pose proof (area_pos i C e He) as A. pose proof (Rinv_0_lt_compat _ (minv_pos i C d Hd)) as Q. pose proof (Rmult_lt_0_compat _ _ A Q).
      destruct (Rmult_integral _ _ U); [lra|assumption]. }
    assert (SA : forall e j v d, (e < m_n m)%nat -> (j <= k)%nat -> (v < 3)%nat -> (d < ndof m)%nat -> ms_sol st' e j v d = 0).
    { intros e j v d He Hj Hv Hd. destruct (Nat.eq_dec j k) as [->|N]; [apply SZ; assumption|]. destruct (AD e He) as (_ & _ & A3 & _). rewrite (A3 j N). apply (HK e He); (assumption || lia). }
    assert (QN : forall e, (e < m_n m)%nat -> resting (in_p i) x (ms_q st' e ((k + 1) mod n)%nat)).
    { intros e He v d Hv Hd. destruct (AD e He) as (_ & A2 & _). rewrite A2. unfold shu_osher.
      rewrite (rsum_ext _ _ (fun s => Q2R (ModelStepper.entry (c_A cfg) k s) * (if (Nat.eqb v 0 && Nat.eqb d 0)%bool then x else 0))).
      - rewrite rsum_scal_r, (Row k Hk). ring.
      - intros s Hs. rewrite (SA e s v d He ltac:(lia) Hv Hd). destruct (HK e He) as (_ & A & _). rewrite (A s ltac:(lia) v d Hv Hd). ring. }
    split.
    - intros e He. split; [exact (QN e He)|]. rewrite WE. exact (AW e He).
    - intros Hl e He. split; [rewrite WE; exact (AW e He)|]. split.
      + intros j Hj. destruct (Nat.eq_dec j (k + 1)) as [->|N]; [pose proof (QN e He) as Q; rewrite Nat.mod_small in Q by exact Hl; exact Q|].
        destruct (AD e He) as (_ & _ & _ & A4). rewrite (A4 Hl j N). apply (HK e He). lia.
      + intros j v d Hj Hv Hd. apply SA; (assumption || lia).
  Qed.
  Lemma run_held : forall st nb stp, st_nstages stp = n -> st_stage stp = 0%nat -> calm i x 0 st -> nb_ok nb -> forall j, (j < n)%nat ->
    exists st' nb' stp', run m cfg disp inverse solve_dense solve_sparse troubled j ((st, nb), stp) = Ok ((st', nb'), stp') /\ st_nstages stp' = n /\ st_stage stp' = j /\ nb_ok nb' /\ held j st'.
  Proof.
    intros st nb stp En E0 H HN. induction j as [|j IH]; intros Hj.
    - exists st, nb, stp. split; [reflexivity|]. split; [exact En|]. split; [exact E0|]. split; [exact HN|]. intros e He. destruct (H e He) as [A W]. split; [exact W|]. split; [|lia].
      intros s Hs. assert (s = 0)%nat as -> by lia. exact A.
    - destruct (IH ltac:(lia)) as (s1 & nb1 & p1 & E1 & N1 & K1 & NB1 & H1). rewrite run_S, E1. cbn [bind].
      destruct (stage_held s1 nb1 p1 N1 ltac:(lia)) as (s2 & nb2 & E2 & NB2 & _ & H2); [rewrite K1; exact H1|exact NB1|]. rewrite K1 in H2.
      exists s2, nb2, (stepper_incr p1). split; [exact E2|]. destruct (incr_stage p1) as [I1 [I2 _]]. rewrite I1, I2, N1, K1.
      split; [reflexivity|]. split; [rewrite Nat.mod_small; lia|]. split; [exact NB2|]. replace (S j) with (j + 1)%nat by lia. apply H2. lia.
  Qed.
  Theorem correction_rest : forall st nb stp, st_nstages stp = n -> st_stage stp = 0%nat -> calm i x 0 st -> nb_ok nb ->
    exists st' nb' stp', correction m cfg disp inverse solve_dense solve_sparse troubled ((st, nb), stp) = Ok ((st', nb'), stp') /\
      st_nstages stp' = n /\ st_stage stp' = 0%nat /\ calm i x 0 st' /\ nb_ok nb'.
  Proof.
    intros st nb stp En E0 H HN. destruct (run_held st nb stp En E0 H HN (n - 1) ltac:(lia)) as (s1 & nb1 & p1 & E1 & N1 & K1 & NB1 & H1).
    destruct (stage_held s1 nb1 p1 N1 ltac:(lia)) as (s2 & nb2 & E2 & NB2 & C2 & _); [rewrite K1; exact H1|exact NB1|]. rewrite K1 in C2.
    replace (n - 1 + 1)%nat with n in C2 by lia. rewrite Nat.mod_same in C2 by lia.
    exists s2, nb2, (stepper_incr p1). split.
    - unfold correction. cbn [snd]. rewrite En. change (run m cfg disp inverse solve_dense solve_sparse troubled n ((st, nb), stp) = Ok ((s2, nb2), stepper_incr p1)).
      replace n with (S (n - 1)) by lia. rewrite run_S, E1. cbn [bind]. exact E2.
    - destruct (incr_stage p1) as [I1 [I2 _]]. rewrite I1, I2, N1, K1. replace (n - 1 + 1)%nat with n by lia. rewrite Nat.mod_same by lia.
      split; [reflexivity|]. split; [reflexivity|]. split; [exact C2|exact NB2].
  Qed.
End Rest.

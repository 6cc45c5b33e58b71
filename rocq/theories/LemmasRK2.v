From Coq Require Import ZArith QArith Qabs List Bool Arith Reals Qreals Lra Lia Psatz.
From Verif Require Import Num ModelSWE ModelStepper SpecStepper LemmasSWE LemmasStepper LemmasRK.
Import ListNotations.

Lemma iter_succ : forall (A : Type) n (f : A -> A) x, Nat.iter (S n) f x = f (Nat.iter n f x).
Proof. reflexivity. Qed.

Lemma incr_n_ifields : forall n dt hr rd k, (n <> 0)%nat ->
  let s := Nat.iter k istepper_incr (istepper_init n dt hr rd) in
  is_step s = Nat.div k n /\ is_stage s = Nat.modulo k n /\ is_timestamp s = k /\
  itime_now s = (INR (Nat.div k n) * dt)%R /\ itime_next s = (INR (Nat.div k n + 1) * dt)%R.
Proof.
  intros n dt hr rd k Hn.
  assert (G : let s := Nat.iter k istepper_incr (istepper_init n dt hr rd) in
    is_nstages s = n /\ is_dt s = dt /\ is_has_ramp s = hr /\
    is_step s = Nat.div k n /\ is_stage s = Nat.modulo k n /\ is_timestamp s = k /\
    is_t s = (INR (Nat.div k n) * dt)%R).
  { induction k as [|k IH].
    - cbn. rewrite Nat.mod_0_l, Nat.div_0_l by assumption. repeat split; cbn; ring.
    - cbv zeta in IH |- *. destruct IH as (I1&I2&I3&I4&I5&I6&I7).
      rewrite iter_succ.
      set (s := Nat.iter k istepper_incr (istepper_init n dt hr rd)) in *.
      destruct (div_mod_succ k n Hn) as [E1 E2]. rewrite E1, E2.
      unfold istepper_incr. rewrite I3.
      destruct hr; cbn [is_nstages is_dt is_has_ramp is_step is_stage is_timestamp is_t];
      rewrite I1, I2, I4, I5, I6, I7; repeat split; try lia;
      (destruct (Nat.eqb (Nat.modulo (Nat.modulo k n + 1) n) 0); [rewrite plus_INR; cbn; ring | reflexivity]). }
  cbv zeta in *. destruct G as (G1&G2&G3&G4&G5&G6&G7).
  unfold itime_now, itime_next. rewrite G2, G7, plus_INR. repeat split; try assumption. cbn; ring.
Qed.

Lemma tanhR_0 : tanhR 0 = 0%R.
Proof. unfold tanhR. rewrite Ropp_0. unfold Rdiv. rewrite Rminus_eq_0. ring. Qed.

Lemma iramp_levels : forall dt rd k, (0 < rd)%R ->
  let s := Nat.iter k istepper_incr (istepper_init 1 dt true rd) in
  is_ramp s = tanhR (2 * (itime_now s / 86400) / rd) /\
  is_ramp_next s = tanhR (2 * (itime_next s / 86400) / rd).
Proof.
  intros dt rd k Hrd.
  assert (G : let s := Nat.iter k istepper_incr (istepper_init 1 dt true rd) in
    is_nstages s = 1%nat /\ is_has_ramp s = true /\ is_ramp_duration s = rd /\ is_stage s = 0%nat /\ is_dt s = dt /\
    is_ramp s = tanhR (2 * (itime_now s / 86400) / rd) /\
    is_ramp_next s = tanhR (2 * (itime_next s / 86400) / rd)).
  { induction k as [|k IH].
    - cbn. unfold itime_now, itime_next; cbn. repeat split.
      + replace (2 * (0 / 86400) / rd)%R with 0%R by (field; lra). symmetry; apply tanhR_0.
      + rewrite Rplus_0_l. reflexivity.
    - cbv zeta in IH |- *. destruct IH as (I1&I2&I3&I4&I5&I6&I7). rewrite iter_succ.
      set (s := Nat.iter k istepper_incr (istepper_init 1 dt true rd)) in *.
      unfold istepper_incr. rewrite I2. unfold itime_now, itime_next in *.
      cbn [is_nstages is_dt is_has_ramp is_step is_stage is_timestamp is_t is_ramp_duration is_ramp is_ramp_next].
      rewrite I1, I4. cbn [Nat.add Nat.modulo Nat.divmod Nat.eqb snd Nat.sub].
      rewrite I3, I5 in *. repeat split; try assumption. }
  cbv zeta in *. tauto.
Qed.

Lemma supported_schemes : forall n p, rk_table n p <> None <-> In (n, p) all_schemes.
Proof.
  intros n p; split.
  - destruct (rk_table n p) as [[A B]|] eqn:E; [|congruence]. intros _. exact (rk_table_in n p A B E).
  - unfold all_schemes; cbn [In].
    intuition (match goal with H : _ = (n, p) |- _ => injection H as <- <- end; discriminate).
Qed.

Lemma coefficients : forall n p A B, rk_table n p = Some (A, B) -> forall k, (k < n)%nat ->
  (forall s, (s <= k)%nat ->
     (0 <= entry A k s)%Q /\ (0 <= entry B k s)%Q /\ (entry A k s == 0 -> entry B k s == 0)%Q) /\
  (Qabs (qsum (S k) (entry A k) - 1) <= 1 # 100000000000000)%Q.
Proof.
  intros n p A B E k Hk. split.
  - intros s Hs. destruct (coef_ok n p A B E k s Hk Hs) as (H1&H2&H3). repeat split; try assumption.
    intros Z. rewrite Z in H3. apply Qle_antisym; [|assumption].
    replace 0%Q with (3 * 0)%Q by reflexivity. exact H3.
  - pose proof (scheme_forall (fun n p A B =>
     forallb (fun k => Qle_bool (Qabs (qsum (S k) (entry A k) - 1)) (1 # 100000000000000)) (seq 0 n))
     ltac:(vm_compute; reflexivity) n p A B E) as H. cbv beta in H.
    rewrite forallb_forall in H. apply Qle_bool_iff. apply H. apply in_seq; lia.
Qed.

Lemma rk_step_local : forall (I : Type) A B dt n (f : nat -> (I -> R) -> (I -> R))
    (st : (nat -> I -> R) * (nat -> I -> R)), (0 < n)%nat ->
  exists Qs : nat -> I -> R,
    Qs 0%nat = fst st 0%nat /\
    shu_osher (entry A) (entry B) dt n Qs (fun k => f k (Qs k)) /\
    fst (rk_step A B dt n (fun k arr => f k (arr k)) st) 0%nat = Qs n.
Proof.
  intros I A B dt n f st Hn.
  destruct (rk_step_spec A B dt n (fun k arr => f k (arr k)) st Hn) as (Qs & sols & H0 & HS & HN & HR).
  exists Qs. split; [assumption|]. split; [|assumption].
  intros k Hk i. rewrite (HS k Hk i). apply rsum_ext. intros s Hs.
  destruct (HR s ltac:(lia)) as (arr & E1 & E2). rewrite E1, (E2 s (le_n _)). reflexivity.
Qed.

Lemma table_pos : forall n p A B, rk_table n p = Some (A, B) -> (0 < n)%nat.
Proof. intros n p A B E. destruct n; [|lia]. discriminate. Qed.

Lemma Q2R_abs_le : forall a c, (Qabs a <= c)%Q -> (Rabs (Q2R a) <= Q2R c)%R.
Proof.
  intros a c H. apply Qabs_Qle_condition in H as [H1 H2]. apply Qle_Rle in H1, H2.
  rewrite Q2R_opp in H1. apply Rabs_le; lra.
Qed.

Lemma linear_invariant : forall (I : Type) (L : (I -> R) -> R) n p A B dt f
    (st : (nat -> I -> R) * (nat -> I -> R)),
  rk_table n p = Some (A, B) -> linear_functional L -> (forall k x, L (f k x) = 0%R) ->
  let new := fst (rk_step A B dt n (fun k arr => f k (arr k)) st) 0%nat in
  (Rabs (L new - L (fst st 0%nat)) <= Q2R (1 # 10000000000000) * Rabs (L (fst st 0%nat)))%R /\
  (In (n, p) [(1, 1); (2, 2); (3, 3); (4, 3); (6, 3); (7, 4); (8, 4)]%nat -> L new = L (fst st 0%nat)).
Proof.
  intros I L n p A B dt f st E HL H0. cbv zeta.
  destruct (rk_step_local I A B dt n f st (table_pos n p A B E)) as (Qs & E0 & HS & EN).
  rewrite EN, <- E0.
  pose proof (butcher_functional I L _ _ dt n Qs _ HL (shu_osher_butcher I _ _ dt n Qs _ HS) n (le_n _)) as F.
  rewrite (rsum_ext n _ (fun _ => 0%R)) in F by (intros; rewrite H0; ring).
  rewrite rsum_0 in F.
  pose proof (Q2R_abs_le _ _ (rowsum_ok n p A B E n (le_n _))) as G.
  rewrite Q2R_minus, RMicromega.Q2R_1 in G. rewrite F. split.
  - match goal with |- (Rabs (?r * ?x + dt * 0 - ?x) <= _)%R =>
      replace (r * x + dt * 0 - x)%R with ((r - 1) * x)%R by ring end.
    rewrite Rabs_mult. apply Rmult_le_compat_r; [apply Rabs_pos | exact G].
  - intros HI.
    assert (R1 : (br (entry A) (entry B) n n == 1)%Q).
    { pose proof (scheme_forall (fun n p A B =>
        implb (existsb (fun np => Nat.eqb n (fst np) && Nat.eqb p (snd np))
           [(1, 1); (2, 2); (3, 3); (4, 3); (6, 3); (7, 4); (8, 4)]%nat)
         (Qeq_bool (br (entry A) (entry B) n n) 1)) ltac:(vm_compute; reflexivity) n p A B E) as C.
      cbv beta in C. apply Qeq_bool_iff.
      replace (existsb _ _) with true in C; [exact C|].
      symmetry. apply existsb_exists. exists (n, p). split; [assumption|]. cbn [fst snd].
      rewrite !Nat.eqb_refl. reflexivity. }
    apply Qeq_eqR in R1. rewrite R1, RMicromega.Q2R_1. ring.
Qed.

Lemma weights_sum : forall n p A B, rk_table n p = Some (A, B) ->
  (Rabs (rsum n (fun j => Q2R (bM (entry A) (entry B) n n j)) - 1) <= Q2R tol10)%R.
Proof.
  intros n p A B E.
  assert (Hp : (1 <= p)%nat) by (pose proof (rk_table_in n p A B E) as HI; unfold all_schemes in HI; cbn [In] in HI;
    intuition (match goal with H : _ = (n, p) |- _ => injection H as <- <- end; lia)).
  rewrite <- Q2R_qsum, <- RMicromega.Q2R_1, <- Q2R_minus. apply Q2R_abs_le.
  apply (order_ok n p A B E). unfold order_residuals. cbv zeta.
  rewrite (proj2 (Nat.leb_le 1 p) Hp). apply in_or_app. left; left; reflexivity.
Qed.

Lemma linear_balance : forall (I : Type) (L : (I -> R) -> R) n p A B dt f c
    (st : (nat -> I -> R) * (nat -> I -> R)),
  rk_table n p = Some (A, B) -> linear_functional L -> (forall k x, L (f k x) = c) -> (0 <= dt)%R ->
  let new := fst (rk_step A B dt n (fun k arr => f k (arr k)) st) 0%nat in
  (Rabs (L new - (L (fst st 0%nat) + dt * c))
   <= Q2R (1 # 10000000000000) * Rabs (L (fst st 0%nat)) + Q2R (1 # 10000000000) * (dt * Rabs c))%R.
Proof.
  intros I L n p A B dt f c st E HL Hc Hdt. cbv zeta.
  destruct (rk_step_local I A B dt n f st (table_pos n p A B E)) as (Qs & E0 & HS & EN).
  rewrite EN, <- E0.
  pose proof (butcher_functional I L _ _ dt n Qs _ HL (shu_osher_butcher I _ _ dt n Qs _ HS) n (le_n _)) as F.
  rewrite (rsum_ext n _ (fun j => Q2R (bM (entry A) (entry B) n n j) * c)%R) in F by (intros; rewrite Hc; ring).
  rewrite rsum_scal_r in F.
  pose proof (Q2R_abs_le _ _ (rowsum_ok n p A B E n (le_n _))) as G.
  rewrite Q2R_minus, RMicromega.Q2R_1 in G.
  pose proof (weights_sum n p A B E) as W. rewrite F.
  set (r := Q2R (br (entry A) (entry B) n n)) in *.
  set (w := rsum n (fun j => Q2R (bM (entry A) (entry B) n n j))) in *.
  set (x := L (Qs 0%nat)).
  replace (r * x + dt * (w * c) - (x + dt * c))%R with ((r - 1) * x + (w - 1) * (dt * c))%R by ring.
  eapply Rle_trans; [apply Rabs_triang|]. rewrite !Rabs_mult, (Rabs_pos_eq dt) by assumption.
  apply Rplus_le_compat.
  - apply Rmult_le_compat_r; [apply Rabs_pos | exact G].
  - apply Rmult_le_compat_r; [apply Rmult_le_pos; [assumption | apply Rabs_pos] | exact W].
Qed.

Lemma strong_stability : forall (I : Type) (N : (I -> R) -> R) n p A B dt dtFE f
    (st : (nat -> I -> R) * (nat -> I -> R)),
  rk_table n p = Some (A, B) -> sublinear N -> (0 <= N (fst st 0%nat))%R -> (0 <= dt)%R ->
  (forall k s, (k < n)%nat -> (s <= k)%nat -> (dt * Q2R (entry B k s) <= dtFE * Q2R (entry A k s))%R) ->
  (forall k x h, (0 <= h <= dtFE)%R -> (N (fun i => x i + h * f k x i) <= N x)%R) ->
  (N (fst (rk_step A B dt n (fun k arr => f k (arr k)) st) 0%nat)
   <= (1 + Q2R (1 # 10000000000000)) * N (fst st 0%nat))%R.
Proof.
  intros I N n p A B dt dtFE f st E HN HN0 Hdt Hcfl HFE.
  destruct (rk_step_local I A B dt n f st (table_pos n p A B E)) as (Qs & E0 & HS & EN).
  rewrite EN, <- E0 in *.
  eapply Rle_trans.
  - apply (shu_osher_ssp I N (entry A) (entry B) dt dtFE n Qs (fun k => f k (Qs k)) HN HS Hdt); [| |apply le_n].
    + intros k s Hk Hs. destruct (coef_ok n p A B E k s Hk Hs) as (C1&C2&_).
      repeat split; try assumption. apply Hcfl; assumption.
    + intros k h Hk Hh. apply HFE; assumption.
  - apply Rmult_le_compat_r; [assumption|].
    pose proof (Q2R_abs_le _ _ (rowsum_ok n p A B E n (le_n _))) as G.
    rewrite Q2R_minus, RMicromega.Q2R_1 in G. unfold tol13 in G.
    match type of G with (Rabs ?y <= _)%R => pose proof (Rle_abs y) end. lra.
Qed.

Lemma cfl3 : forall n p A B dt dtFE,
  rk_table n p = Some (A, B) -> (0 <= dt)%R -> (3 * dt <= dtFE)%R ->
  forall k s, (k < n)%nat -> (s <= k)%nat -> (dt * Q2R (entry B k s) <= dtFE * Q2R (entry A k s))%R.
Proof.
  intros n p A B dt dtFE E Hdt H3 k s Hk Hs.
  destruct (coef_ok n p A B E k s Hk Hs) as (C1&C2&C3).
  apply Qle_Rle in C1, C3. rewrite RMicromega.Q2R_0 in C1. rewrite Q2R_mult in C3.
  replace (Q2R 3) with 3%R in C3 by (unfold Q2R; cbn; lra). nra.
Qed.

Lemma order_conditions : forall n p A B, rk_table n p = Some (A, B) ->
  exists (r : nat -> Q) (M : nat -> nat -> Q),
    (forall (I : Type) dt (Qs sols : nat -> I -> R),
       shu_osher (entry A) (entry B) dt n Qs sols -> butcher_form r M dt n Qs sols) /\
    (forall k j, (j < n)%nat -> (k <= j)%nat -> (M k j == 0)%Q) /\
    (forall k, (k <= n)%nat -> (Qabs (r k - 1) <= 1 # 10000000000000)%Q) /\
    (forall e, In e (order_residuals M n p) -> (Qabs e <= rk_accuracy n p)%Q).
Proof.
  intros n p A B E. exists (br (entry A) (entry B) n), (bM (entry A) (entry B) n).
  split; [intros; apply shu_osher_butcher; assumption|].
  split; [|split; [exact (rowsum_ok n p A B E) | exact (order_ok_sharp n p A B E)]].
  intros k j Hj. induction k as [k IH] using lt_wf_ind. intros Hkj.
  apply eqR_Qeq. rewrite RMicromega.Q2R_0. destruct k as [|k]; [rewrite bM_0; apply RMicromega.Q2R_0|].
  rewrite bM_S by lia. rewrite (proj2 (Nat.leb_gt j k)) by lia.
  rewrite (rsum_ext _ _ (fun _ => 0%R)); [rewrite rsum_0; ring|].
  intros s Hs. rewrite (Qeq_eqR _ _ (IH s ltac:(lia) ltac:(lia))), RMicromega.Q2R_0. ring.
Qed.

Lemma linear_test : forall n p A B, rk_table n p = Some (A, B) ->
  exists P : list Q, length P = S n /\
    (forall (I : Type) dt lam (st : (nat -> I -> R) * (nat -> I -> R)) i,
       fst (rk_step A B dt n (fun k arr i => (lam * arr k i)%R) st) 0%nat i
       = (peval P (dt * lam) * fst st 0%nat i)%R) /\
    (forall d, (d <= p)%nat -> (Qabs (nth d P 0 - / qfact d) <= 1 # 10000000000)%Q).
Proof.
  intros n p A B E. exists (nth n (prow (entry A) (entry B) n) []).
  split; [|split; [|exact (linear_ok n p A B E)]].
  - pose proof (scheme_forall (fun n p A B => Nat.eqb (length (nth n (prow (entry A) (entry B) n) [])) (S n))
      ltac:(vm_compute; reflexivity) n p A B E) as C. apply Nat.eqb_eq in C. exact C.
  - intros I dt lam st i.
    destruct (rk_step_local I A B dt n (fun k x i => (lam * x i)%R) st (table_pos n p A B E)) as (Qs & E0 & HS & EN).
    cbv beta in EN. rewrite EN, <- E0.
    apply (shu_osher_linear I _ _ dt n Qs _ lam HS); try lia. intros; reflexivity.
Qed.

Lemma stage_time_wrong : forall n p A B, rk_table n p = Some (A, B) -> (2 <= n)%nat ->
  forall dt hr rd, (0 < dt)%R ->
  exists Qs : nat -> unit -> R,
    (forall u, Qs 0%nat u = 0%R) /\
    shu_osher (entry A) (entry B) dt n Qs (fun _ _ => 1%R) /\
    Qs 1%nat tt <> time_at_stage (Nat.iter 1 stepper_incr (stepper_init n p dt hr rd)) /\
    (Qs 1%nat tt - time_at_stage (Nat.iter 1 stepper_incr (stepper_init n p dt hr rd)) >= dt / 10)%R.
Proof.
  intros n p A B E Hn dt hr rd Hdt.
  destruct (rk_step_local unit A B dt n (fun _ _ _ => 1%R) (fun _ _ => 0%R, fun _ _ => 0%R) (table_pos n p A B E))
    as (Qs & E0 & HS & EN).
  exists Qs. split; [intros u; rewrite E0; reflexivity|]. split; [exact HS|].
  pose proof (reported_time n p dt hr rd 1 ltac:(lia)) as T. unfold incr_n in T. rewrite T.
  rewrite Nat.div_small by lia. cbn [INR]. rewrite Rmult_0_l.
  pose proof (scheme_forall (fun n p A B => Qle_bool (1#10) (entry B 0 0)) ltac:(vm_compute; reflexivity) n p A B E) as C.
  cbv beta in C. apply Qle_bool_iff, Qle_Rle in C. replace (Q2R (1#10)) with (/10)%R in C by (unfold Q2R; cbn; lra).
  pose proof (HS 0%nat ltac:(lia) tt) as H1. cbn [rsum] in H1. rewrite E0 in H1. cbn [fst] in H1.
  assert (V : Qs 1%nat tt = (dt * Q2R (entry B 0 0))%R) by (rewrite H1; ring).
  rewrite V. split; nra.
Qed.

Lemma implicit_schemes : forall order n k th, implicit_scheme order n = Some (k, th) <->
  (order = 1 /\ n = 1 /\ k = 1 /\ th = 0%Q)%nat \/ (order = 2 /\ (n = 1 \/ n = 2) /\ k = 1 /\ th = (1 # 2)%Q)%nat.
Proof.
  intros order n k th. unfold implicit_scheme.
  destruct (Nat.eqb_spec order 1) as [O1|O1], (Nat.eqb_spec order 2) as [O2|O2], (Nat.eqb_spec n 1) as [N1|N1], (Nat.eqb_spec n 2) as [N2|N2];
    cbn [andb]; split; intros H; try discriminate H; try lia; try (injection H as <- <-; intuition lia);
    destruct H as [(A & B & C & D)|(A & B & C & D)]; subst k th; try lia; try reflexivity.
Qed.

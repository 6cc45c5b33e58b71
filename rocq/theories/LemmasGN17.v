(** Proofs: the split step: rest, clocks. *)
From Coq Require Import Reals List Arith Bool Lia Lra FunctionalExtensionality.
From Verif Require Import Num Outcome ModelSWE LemmasSWE LemmasPart ModelShape ModelBasis ModelJac ModelStepper ModelStep ModelIHDG ModelCond SpecShape SpecBasis SpecStepper SpecStep SpecStage SpecCond
  LemmasRK LemmasStep LemmasStage3 LemmasStage4 LemmasCond ModelGN SpecGN LemmasGN1 LemmasGN2 LemmasGN3 LemmasGN4 LemmasGN5 LemmasGN6 LemmasGN7 LemmasGN8 LemmasGN10 LemmasGN11 LemmasGN12
  LemmasBasis4 ModelInit SpecRest LemmasRest1 LemmasRest2 LemmasRest3 LemmasRest5 LemmasGN9 LemmasGN13 LemmasGN14 LemmasGN15 LemmasGN16 LemmasRK2.
Import ListNotations.
Open Scope R_scope.

(** ** A level bed under water of constant depth *)
Section Level.
  Context (i : input) (C : conforming i) (P : in_sph i = None) (x zb : R) (HZ : forall e v, (e < in_n i)%nat -> (v < 3)%nat -> in_z i e v = zb) (HD : 0 < x + zb) (GW : good_weights (in_rule1 i)).
  Notation m := (init_mesh i).
  Lemma level_B : forall e z, (e < in_n i)%nat -> LemmasRest2.B i e (fst z) (snd z) = zb.
  Proof. intros e [a b] He. unfold LemmasRest2.B. cbn [vmsum GetPsi fst snd]. rewrite !HZ by (assumption || lia). field. Qed.
  Lemma level_aux : forall e gp, (e < m_n m)%nat -> (gp < ngp2 m)%nat -> bath (m_aux m e gp) = zb.
  Proof.
    intros e gp He Hg. cbn [m_aux init_mesh]. unfold init_aux. cbn [bath]. rewrite (value_bath i C e _ He); [apply level_B; exact He|]. exact (cf_off i C gp Hg).
  Qed.
  Lemma level_faux : forall e b gp, (e < m_n m)%nat -> (b < 3)%nat -> (gp < ngp1 m)%nat -> bath (m_faux m e b gp) = zb.
  Proof. intros e b gp He Hb Hg. cbn [m_faux init_mesh]. rewrite (faux_value i C P e b gp He Hb Hg). cbn [bath]. apply level_B. exact He. Qed.
  Lemma own_lt : forall s gp, (gp < ngp1 m)%nat -> (own m s gp < ngp1 m)%nat.
  Proof. intros s gp Hg. unfold own. unfold ngp1 in *. destruct (snd s); lia. Qed.
  Lemma mean_const : forall v k gp y, (k < n_edges m)%nat -> (gp < ngp1 m)%nat -> (forall e b g, (e < m_n m)%nat -> (b < 3)%nat -> (g < ngp1 m)%nat -> v e b g = y) -> mean m v k gp = y.
  Proof.
    intros v k gp y Hk Hg H. unfold mean.
    rewrite (lsum_ext _ (edge_sides m k) _ (fun _ => y)) by (intros s Hs; destruct (LemmasGN13.side_in i C k s Hk Hs); apply H; [assumption|assumption|apply own_lt; exact Hg]).
    unfold edge_sides. unfold n_edges in Hk. destruct (nth_error (m_intfaces m) k) eqn:E; [unfold lsum; cbn; lra|].
    destruct (nth_error (m_bounds m) (k - length (m_intfaces m))) eqn:E2; [unfold lsum; cbn; lra|]. apply nth_error_None in E. apply nth_error_None in E2. lia.
  Qed.
  (** Whatever the momentum, wherever it is wet. *)
  Theorem level_water_solvable : forall q wet D, (forall e d, (e < m_n m)%nat -> (d < ndof m)%nat -> q e 0%nat d = if Nat.eqb d 0 then x else 0) ->
    slopes_of m q (fun e gp => bath (m_aux m e gp)) (fun e b gp => bath (m_faux m e b gp)) D ->
    solvable m alpha tau wet (depth m q (fun e gp => bath (m_aux m e gp))) (bed m D) (mean m (fdepth m q (fun e b gp => bath (m_faux m e b gp)))) (fbed m D).
  Proof.
    intros q wet D HQ SD.
    assert (VR : forall e z, (e < m_n m)%nat -> val m (q e 0%nat) z = x).
    { intros e z He. set (q' := fun (e v : nat) => match v with 0%nat => q e 0%nat | _ => fun _ => 0 end).
      exact (val_rest i C x q' (fun e' He' v d Hv Hd => match v return q' e' v d = if (Nat.eqb v 0 && Nat.eqb d 0)%bool then x else 0 with 0%nat => HQ e' d He' Hd | S _ => eq_refl end) e 0 z He ltac:(lia)). }
    assert (RB : forall a e j, (a < 2)%nat -> (e < m_n m)%nat -> (j < ndof m)%nat -> r_b D a e j = 0).
    { intros a e j Ha He Hj. apply (derivative_const i C _ _ a (r_b D a) zb (so_b _ _ _ _ _ SD a Ha) Ha); [exact level_aux|exact level_faux|exact He|exact Hj]. }
    apply (level_solvable i C alpha tau (x + zb)).
    - unfold alpha. lra.
    - unfold tau. lra.
    - exact HD.
    - intros gp Hg. exact (proj1 (GW gp Hg)).
    - intros gp Hg. exact (proj2 (GW gp Hg)).
    - intros e gp He Hg. unfold depth, elt_val. rewrite (VR e _ He), level_aux by assumption. reflexivity.
    - intros e gp a He Hg Ha. unfold bed, elt_val. rewrite val_zero; [ring|]. intros j Hj. apply RB; assumption.
    - intros k gp Hk Hg. apply mean_const; [exact Hk|exact Hg|]. intros e b g He Hb Hg'. unfold fdepth, face_val. rewrite (VR e _ He), level_faux by assumption. reflexivity.
    - intros k gp a Hk Hg Ha. unfold fbed. rewrite (mean_const _ k gp 0 Hk Hg); [ring|]. intros e b g He Hb Hg'. unfold face_val. apply val_zero. intros j Hj. apply RB; assumption.
  Qed.
  Lemma level_rest_solvable : rest_solvable i x.
  Proof. intros q wet D HQ SD. apply level_water_solvable; [|exact SD]. intros e d He Hd. exact (HQ e He 0%nat d ltac:(lia) Hd). Qed.
End Level.

(** ** Clocks *)
Definition ticked (s s' : stepper) : Prop := st_nstages s' = st_nstages s /\ st_dt s' = st_dt s /\ st_stage s' = 0%nat /\ st_step s' = (st_step s + 1)%nat /\ st_t s' = st_t s + st_dt s /\
  st_has_ramp s' = st_has_ramp s /\ st_order s' = st_order s /\ st_ramp_duration s' = st_ramp_duration s.
Definition partway (s s' : stepper) (j : nat) : Prop := st_nstages s' = st_nstages s /\ st_dt s' = st_dt s /\ st_stage s' = j /\ st_step s' = st_step s /\ st_t s' = st_t s /\
  st_has_ramp s' = st_has_ramp s /\ st_order s' = st_order s /\ st_ramp_duration s' = st_ramp_duration s.
Lemma incr_all : forall s, let s' := stepper_incr s in let g := Nat.modulo (st_stage s + 1) (st_nstages s) in
  st_nstages s' = st_nstages s /\ st_dt s' = st_dt s /\ st_stage s' = g /\ st_step s' = (if Nat.eqb g 0 then st_step s + 1 else st_step s)%nat /\
  st_t s' = (if Nat.eqb g 0 then st_t s + st_dt s else st_t s) /\ st_has_ramp s' = st_has_ramp s /\ st_order s' = st_order s /\ st_ramp_duration s' = st_ramp_duration s.
Proof. intros s. unfold stepper_incr. cbv zeta. destruct (st_has_ramp s) eqn:E; cbn [st_nstages st_dt st_stage st_step st_t st_has_ramp st_order st_ramp_duration]; rewrite ?E; repeat apply conj; reflexivity. Qed.
Lemma incr_partway : forall s s' j, partway s s' j -> (j + 1 < st_nstages s)%nat -> partway s (stepper_incr s') (j + 1).
Proof.
  intros s s' j (A1 & A2 & A3 & A4 & A5 & A6 & A7 & A8) H. destruct (incr_all s') as (B1 & B2 & B3 & B4 & B5 & B6 & B7 & B8). rewrite A1, A3, Nat.mod_small in * by lia.
  replace (Nat.eqb (j + 1) 0) with false in * by (symmetry; apply Nat.eqb_neq; lia). unfold partway. rewrite B1, B2, B3, B4, B5, B6, B7, B8. repeat apply conj; assumption || reflexivity.
Qed.
Lemma incr_ticked : forall s s' j, partway s s' j -> (j + 1 = st_nstages s)%nat -> ticked s (stepper_incr s').
Proof.
  intros s s' j (A1 & A2 & A3 & A4 & A5 & A6 & A7 & A8) H. destruct (incr_all s') as (B1 & B2 & B3 & B4 & B5 & B6 & B7 & B8). rewrite A1, A3 in *. rewrite H in *. rewrite Nat.mod_same in * by lia.
  cbn [Nat.eqb] in *. unfold ticked. rewrite B1, B2, B3, B4, B5, B6, B7, B8, A2, A4, A5, A6, A7, A8. repeat apply conj; reflexivity.
Qed.
(** Any loop over the stages whose body advances the stepper once. *)
Lemma loop_ticked : forall (X : Type) (f : X * stepper -> outcome (X * stepper)), (forall a s a' s', f (a, s) = Ok (a', s') -> s' = stepper_incr s) ->
  forall a s a' s', (0 < st_nstages s)%nat -> st_stage s = 0%nat -> ofold (fun y _ => f y) (seq 0 (st_nstages s)) (a, s) = Ok (a', s') -> ticked s s'.
Proof.
  intros X f Hf a s a' s' Hn E0 H.
  assert (G : forall j o y p, (j < st_nstages s)%nat -> ofold (fun y _ => f y) (seq o j) (a, s) = Ok (y, p) -> partway s p j).
  { induction j as [|j IH]; intros o y p Hj E.
    - cbn in E. injection E as <- <-. unfold partway. repeat apply conj; assumption || reflexivity.
    - rewrite seq_S, ofold_app in E. destruct (ofold (fun y0 _ => f y0) (seq o j) (a, s)) as [[y1 p1]| |] eqn:E1; cbn [bind ofold] in E; try discriminate.
      destruct (f (y1, p1)) as [[y2 p2]| |] eqn:E2; cbn [bind] in E; try discriminate. injection E as <- <-. rewrite (Hf _ _ _ _ E2). replace (S j) with (j + 1)%nat by lia.
      apply incr_partway; [|lia]. apply (IH o y1 p1); [lia|exact E1]. }
  replace (st_nstages s) with (S (st_nstages s - 1)) in H by lia. rewrite seq_S, ofold_app in H.
  destruct (ofold (fun y _ => f y) (seq 0 (st_nstages s - 1)) (a, s)) as [[y1 p1]| |] eqn:E1; cbn [bind ofold] in H; try discriminate.
  destruct (f (y1, p1)) as [[y2 p2]| |] eqn:E2; cbn [bind] in H; try discriminate. injection H as <- <-. rewrite (Hf _ _ _ _ E2).
  apply (incr_ticked s p1 (st_nstages s - 1)); [|lia]. apply (G _ 0%nat y1 p1); [lia|exact E1].
Qed.
Lemma step_ticked : forall m c st s st' s', (0 < st_nstages s)%nat -> st_stage s = 0%nat -> step_serial m c (st, s) = Ok (st', s') -> ticked s s'.
Proof.
  intros m c st s st' s' Hn E0 H. apply (loop_ticked _ (stage_serial m c)) with (a := st) (a' := st'); [|exact Hn|exact E0|exact H].
  clear. intros a s a' s' H. unfold stage_serial in H. cbv zeta in H. set (st2 := fold_left _ _ _) in H.
  destruct (if c_wd c then _ else _) as [s3| |]; cbn [bind] in H; try discriminate.
  destruct (if c_sl c then _ else _) as [s4| |]; cbn [bind] in H; try discriminate. injection H as _ <-. reflexivity.
Qed.
Section Split.
  Context (m : mesh) (c : config) (disp : nat -> bool) (troubled : nat -> bool).
  Context (inverse : nat -> (nat -> nat -> R) -> nat -> nat -> R) (solve_dense : nat -> (nat -> nat -> R) -> (nat -> R) -> nat -> R)
          (solve_sparse : nat -> (nat -> nat -> R) -> (nat -> R) -> nat -> R).
  Notation corr := (correction m c disp inverse solve_dense solve_sparse troubled).
  Notation gstep := (step_gn m c disp inverse solve_dense solve_sparse troubled).
  Lemma corr_ticked : forall g s g' s', (0 < st_nstages s)%nat -> st_stage s = 0%nat -> corr (g, s) = Ok (g', s') -> ticked s s'.
  Proof.
    intros g s g' s' Hn E0 H. apply (loop_ticked _ (correction_stage m c disp inverse solve_dense solve_sparse troubled)) with (a := g) (a' := g'); [|exact Hn|exact E0|exact H].
    clear. intros [a nb] s [a' nb'] s' H. unfold correction_stage in H. destruct (dc_blocks _ _ _ _); cbn [bind] in H; try discriminate.
    destruct (solve_dc _ _ _ _ _ _ _); cbn [bind] in H; try discriminate. injection H as _ _ <-. reflexivity.
  Qed.
  (** A split step runs the first stepper through two of its steps, the second through one. *)
  Lemma split_ticked : forall g s1 s2 g' s1' s2', (0 < st_nstages s1)%nat -> (0 < st_nstages s2)%nat -> st_stage s1 = 0%nat -> st_stage s2 = 0%nat ->
    gstep (g, s1, s2) = Ok (g', s1', s2') -> (exists s, ticked s1 s /\ ticked s s1') /\ ticked s2 s2'.
  Proof.
    intros [st nb] s1 s2 g' s1' s2' H1 H2 K1 K2 H. unfold step_gn in H.
    destruct (step_serial m c (st, s1)) as [[a pa]| |] eqn:E1; cbn [bind fst snd] in H; try discriminate.
    destruct (corr ((a, nb), s2)) as [[[b nb'] pb]| |] eqn:E2; cbn [bind fst snd] in H; try discriminate.
    destruct (step_serial m c (b, pa)) as [[e pe]| |] eqn:E3; cbn [bind fst snd] in H; try discriminate. injection H as _ <- <-.
    pose proof (step_ticked m c st s1 a pa H1 K1 E1) as T1. split; [exists pa; split; [exact T1|]|exact (corr_ticked _ _ _ _ H2 K2 E2)].
    destruct T1 as (A1 & _ & A3 & _). apply (step_ticked m c b pa e pe); [rewrite A1; exact H1|exact A3|exact E3].
  Qed.
  Theorem split_clocks : forall N o g s1 s2 g' s1' s2', (0 < st_nstages s1)%nat -> (0 < st_nstages s2)%nat -> st_stage s1 = 0%nat -> st_stage s2 = 0%nat ->
    ofold (fun s _ => gstep s) (seq o N) (g, s1, s2) = Ok (g', s1', s2') ->
    st_stage s1' = 0%nat /\ st_step s1' = (st_step s1 + 2 * N)%nat /\ st_t s1' = st_t s1 + INR N * (2 * st_dt s1) /\
    st_stage s2' = 0%nat /\ st_step s2' = (st_step s2 + N)%nat /\ st_t s2' = st_t s2 + INR N * st_dt s2.
  Proof.
    induction N as [|N IH]; intros o g s1 s2 g' s1' s2' H1 H2 K1 K2 H.
    - cbn in H. injection H as <- <- <-. cbn [INR]. repeat apply conj; (assumption || lia || lra).
    - cbn [seq ofold] in H. destruct (gstep (g, s1, s2)) as [[[g1 p1] p2]| |] eqn:E; cbn [bind] in H; try discriminate.
      destruct (split_ticked g s1 s2 g1 p1 p2 H1 H2 K1 K2 E) as ((s & T1 & T2) & T3).
      destruct T1 as (A1 & A2 & A3 & A4 & A5 & _). destruct T2 as (B1 & B2 & B3 & B4 & B5 & _). destruct T3 as (D1 & D2 & D3 & D4 & D5 & _).
      destruct (IH (S o) g1 p1 p2 g' s1' s2' ltac:(lia) ltac:(lia) B3 D3 H) as (I1 & I2 & I3 & I4 & I5 & I6).
      rewrite S_INR. split; [exact I1|]. split; [rewrite I2; lia|]. split; [rewrite I3, B5, A5, B2, A2; ring|]. split; [exact I4|]. split; [rewrite I5; lia|]. rewrite I6, D5, D2. ring.
  Qed.
End Split.

(** ** Rest through split steps *)
Section RestRun.
  Context (i : input) (C : conforming i) (cfg : config) (disp : nat -> bool) (troubled : nat -> bool).
  Notation m := (init_mesh i).
  Context (inverse : nat -> (nat -> nat -> R) -> nat -> nat -> R) (solve_dense : nat -> (nat -> nat -> R) -> (nat -> R) -> nat -> R)
          (solve_sparse : nat -> (nat -> nat -> R) -> (nat -> R) -> nat -> R).
  Context (OI : inverse_ok inverse) (OD : solver_ok solve_dense) (OS : solver_ok solve_sparse).
  Context (NL : forall f, In f (in_intfaces i) -> i_kind f = Internal) (x : R) (U : unforced i x) (SV : rest_solvable i x).
  Context (Sb : c_wd cfg = true -> submerged i x (c_h_o cfg + c_thr cfg)).
  Context (n p : nat) (E : rk_table n p = Some (c_A cfg, c_B cfg)) (HI : In (n, p) exact_schemes).
  Notation gstep := (step_gn m cfg disp inverse solve_dense solve_sparse troubled).
  Lemma row_one : forall k, (k < n)%nat -> rsum (S k) (fun s => Q2R (ModelStepper.entry (c_A cfg) k s)) = 1.
  Proof.
    intros k Hk. pose proof (br_rec (ModelStepper.entry (c_A cfg)) (ModelStepper.entry (c_B cfg)) n 1 k Hk) as B. rewrite (br_exact_all n p _ _ E HI), Rmult_1_r in B by lia. rewrite B. apply rsum_ext. intros s Hs.
    rewrite (br_exact_all n p _ _ E HI) by lia. ring.
  Qed.
  Lemma step_gn_rest : forall st nb s1 s2, st_nstages s1 = n -> st_nstages s2 = n -> st_stage s1 = 0%nat -> st_stage s2 = 0%nat -> calm i x 0 st -> nb_ok i cfg nb ->
    exists st' nb' s1' s2', gstep ((st, nb), s1, s2) = Ok ((st', nb'), s1', s2') /\ st_nstages s1' = n /\ st_nstages s2' = n /\ st_stage s1' = 0%nat /\ st_stage s2' = 0%nat /\ calm i x 0 st' /\ nb_ok i cfg nb'.
  Proof.
    intros st nb s1 s2 N1 N2 K1 K2 H HN. pose proof (table_pos _ _ _ _ E) as Hn.
    destruct (step_exact i cfg x st s1 p C U Sb ltac:(rewrite N1; exact E) ltac:(rewrite N1; exact HI) K1 H) as (a & pa & E1 & Na & Ka & Ha). rewrite N1 in Na.
    destruct (correction_rest i C cfg disp troubled inverse solve_dense solve_sparse OI OD OS NL n Hn row_one x SV a nb s2 N2 K2 Ha HN) as (b & nb' & pb & E2 & Nb & Kb & Hb & HN').
    destruct (step_exact i cfg x b pa p C U Sb ltac:(rewrite Na; exact E) ltac:(rewrite Na; exact HI) Ka Hb) as (e & pe & E3 & Ne & Ke & He). rewrite Na in Ne.
    exists e, nb', pe, pb. unfold step_gn. rewrite E1. cbn [bind fst snd]. rewrite E2. cbn [bind fst snd]. rewrite E3. cbn [bind fst snd]. repeat apply conj; assumption || reflexivity.
  Qed.
  Theorem run_gn_rest : forall N o st nb s1 s2, st_nstages s1 = n -> st_nstages s2 = n -> st_stage s1 = 0%nat -> st_stage s2 = 0%nat -> calm i x 0 st -> nb_ok i cfg nb ->
    exists st' nb' s1' s2', ofold (fun s _ => gstep s) (seq o N) ((st, nb), s1, s2) = Ok ((st', nb'), s1', s2') /\ calm i x 0 st'.
  Proof.
    induction N as [|N IH]; intros o st nb s1 s2 N1 N2 K1 K2 H HN.
    - exists st, nb, s1, s2. split; [reflexivity|exact H].
    - destruct (step_gn_rest st nb s1 s2 N1 N2 K1 K2 H HN) as (a & nb1 & p1 & p2 & E1 & A1 & A2 & A3 & A4 & A5 & A6). cbn [seq ofold]. rewrite E1. cbn [bind]. apply IH; assumption.
  Qed.
End RestRun.

(** Proofs: the forcing of a split run. *)
From Coq Require Import ZArith NArith List Bool Arith Reals QArith Qreals Lia Lra.
From Verif Require Import Num Outcome ModelStepper ModelRun ModelGN SpecRun ModelSplitMet SpecSplitMet LemmasPart LemmasStepper LemmasRun3 LemmasGN17.
Import ListNotations.
Open Scope R_scope.

(** ** The calls of a run *)
Definition call_at (s : stepper) (i : nat) : pcall := (st_dt s, (N.of_nat (st_step s), i, st_t s + st_dt s * Q2R (drk_of (st_nstages s) (st_order s) i))).
Definition calls_upto (s : stepper) (j : nat) : list pcall := map (call_at s) (seq 0 j).
Definition calls_from (s : stepper) : list pcall := calls_upto s (st_nstages s).
Lemma calls_upto_S : forall s j, calls_upto s (S j) = calls_upto s j ++ [call_at s j].
Proof. intros s j. unfold calls_upto. rewrite seq_S, map_app. reflexivity. Qed.

Section Calls.
  Context (files : N -> option (list (N * reading))) (freq : N) (nodes : list N).
  Notation pc := (parse_call files freq nodes).
  Lemma call_partway : forall s s' j, partway s s' j -> call_of s' = call_at s j.
  Proof. intros s s' j (A1 & A2 & A3 & A4 & A5 & _ & A7 & _). unfold call_of, call_at, time_at_stage. rewrite A1, A2, A3, A4, A5, A7. reflexivity. Qed.

  Lemma phase_calls : forall a s, (0 < st_nstages s)%nat -> st_stage s = 0%nat ->
    exists s', ticked s s' /\ phase files freq nodes (a, s) = do a' <- ofold pc (calls_from s) a ; Ok (a', s').
  Proof.
    intros a s Hn E0.
    assert (G : forall j, (j < st_nstages s)%nat -> exists p, partway s p j /\
      ofold (fun y _ => phase_stage files freq nodes y) (seq 0 j) (a, s) =
      do a' <- ofold pc (calls_upto s j) a ; Ok (a', p)).
    { induction j as [|j IH]; intros Hj.
      - exists s. split; [|reflexivity]. unfold partway. repeat apply conj; assumption || reflexivity.
      - destruct IH as (p & P & E); [lia|]. exists (stepper_incr p). replace (S j) with (j + 1)%nat by lia. split; [apply incr_partway; [exact P|lia]|].
        replace (j + 1)%nat with (S j) by lia. rewrite seq_S, calls_upto_S, !ofold_app, E. destruct (ofold pc (calls_upto s _) a) as [a'| |]; cbn [bind ofold]; try reflexivity.
        unfold phase_stage. cbn [fst snd]. rewrite (call_partway s p j P). destruct (pc a' _); reflexivity. }
    destruct (G (st_nstages s - 1)%nat) as (p & P & E); [lia|]. exists (stepper_incr p). split; [apply (incr_ticked s p (st_nstages s - 1)); [exact P|lia]|].
    unfold phase, calls_from. cbn [snd]. replace (st_nstages s) with (S (st_nstages s - 1)) by lia.
    rewrite seq_S, calls_upto_S, !ofold_app, E. destruct (ofold pc (calls_upto s _) a) as [a'| |]; cbn [bind ofold]; try reflexivity.
    unfold phase_stage. cbn [fst snd]. rewrite (call_partway s p _ P). destruct (pc a' _); reflexivity.
  Qed.

  Definition stage_time (n p : nat) (i : nat) : R := Q2R (drk_of n p i).
  Definition at_step (dt : R) (n p : nat) (k : nat) (s : stepper) : Prop :=
    st_nstages s = n /\ st_order s = p /\ st_dt s = dt /\ st_stage s = 0%nat /\ st_step s = k /\ st_t s = INR k * dt.
  Lemma at_next : forall dt n p k s s', at_step dt n p k s -> ticked s s' -> at_step dt n p (k + 1) s'.
  Proof.
    intros dt n p k s s' (A1 & A2 & A3 & A4 & A5 & A6) (B1 & B2 & B3 & B4 & B5 & _ & B7 & _). unfold at_step.
    rewrite B1, B2, B3, B4, B5, B7, A1, A2, A3, A5, A6, plus_INR. repeat apply conj; try reflexivity. cbn [INR]. ring.
  Qed.
  Lemma calls_at : forall dt n p k s, at_step dt n p k s -> calls_from s = step_at dt n (stage_time n p) k.
  Proof. intros dt n p k s (A1 & A2 & A3 & A4 & A5 & A6). unfold calls_from, calls_upto, call_at, step_at. rewrite A1, A2, A3, A5, A6. reflexivity. Qed.
  Lemma phase_at : forall dt n p k a s, (0 < n)%nat -> at_step dt n p k s ->
    exists s', at_step dt n p (k + 1) s' /\ phase files freq nodes (a, s) = do a' <- ofold pc (step_at dt n (stage_time n p) k) a ; Ok (a', s').
  Proof.
    intros dt n p k a s Hn A. destruct (phase_calls a s) as (s' & T & E); [destruct A as (-> & _); exact Hn|apply A|].
    exists s'. split; [exact (at_next _ _ _ _ _ _ A T)|]. rewrite <- (calls_at _ _ _ _ _ A). exact E.
  Qed.
  Definition one_split (dt : R) (n p k : nat) : list pcall :=
    step_at (dt / 2) n (stage_time n p) (2 * k) ++ step_at dt n (stage_time n p) k ++ step_at (dt / 2) n (stage_time n p) (2 * k + 1).
  Lemma split_at : forall dt n p k a s1 s2, (0 < n)%nat -> at_step (dt / 2) n p (2 * k) s1 -> at_step dt n p k s2 ->
    exists s1' s2', at_step (dt / 2) n p (2 * (k + 1)) s1' /\ at_step dt n p (k + 1) s2' /\
      split_step files freq nodes (a, s1, s2) = do a' <- ofold pc (one_split dt n p k) a ; Ok (a', s1', s2').
  Proof.
    intros dt n p k a s1 s2 Hn A1 A2.
    destruct (phase_at _ _ _ _ a s1 Hn A1) as (t1 & B1 & E1). unfold split_step. rewrite E1. clear E1. unfold one_split. rewrite !ofold_app.
    destruct (ofold pc (step_at (dt / 2) n (stage_time n p) (2 * k)) a) as [a1| |]; cbn [bind fst snd].
    2,3: exists (Stepper n p (dt / 2) (2 * (k + 1)) 0 0 (INR (2 * (k + 1)) * (dt / 2)) false 0 0), (Stepper n p dt (k + 1) 0 0 (INR (k + 1) * dt) false 0 0);
      unfold at_step; cbn [st_nstages st_order st_dt st_stage st_step st_t]; repeat apply conj; reflexivity.
    rewrite ofold_app. destruct (phase_at _ _ _ _ a1 s2 Hn A2) as (t2 & B2 & E2). rewrite E2. clear E2.
    assert (B0 : at_step (dt / 2) n p (2 * (k + 1)) (Stepper n p (dt / 2) (2 * (k + 1)) 0 0 (INR (2 * (k + 1)) * (dt / 2)) false 0 0))
      by (unfold at_step; cbn [st_nstages st_order st_dt st_stage st_step st_t]; repeat apply conj; reflexivity).
    destruct (ofold pc (step_at dt n (stage_time n p) k) a1) as [a2| |]; cbn [bind fst snd]; try (eexists; exists t2; split; [exact B0|split; [exact B2|reflexivity]]).
    destruct (phase_at _ _ _ _ a2 t1 Hn B1) as (t3 & B3 & E3). rewrite E3. clear E3. replace (2 * k + 1 + 1)%nat with (2 * (k + 1))%nat in B3 by lia.
    exists t3, t2. split; [exact B3|]. split; [exact B2|]. destruct (ofold pc (step_at (dt / 2) n (stage_time n p) (2 * k + 1)) a2) as [a3| |]; reflexivity.
  Qed.
  Theorem run_calls_eq : forall N n p dt hr rd, (0 < n)%nat ->
    exists s1 s2, split_run files freq nodes N (strang_steppers n p dt hr rd) =
      do a <- ofold pc (split_calls dt n (stage_time n p) N) (fun _ => None, []) ; Ok (a, s1, s2).
  Proof.
    intros N n p dt hr rd Hn. unfold split_run, split_calls.
    assert (G : exists s1 s2, at_step (dt / 2) n p (2 * N) s1 /\ at_step dt n p N s2 /\
      ofold (fun s _ => split_step files freq nodes s) (seq 0 N) ((fun _ => None, []), fst (strang_steppers n p dt hr rd), snd (strang_steppers n p dt hr rd)) =
      do a <- ofold pc (flat_map (one_split dt n p) (seq 0 N)) (fun _ => None, []) ; Ok (a, s1, s2)).
    { induction N as [|N IH].
      - eexists. eexists. split; [|split; [|reflexivity]]; unfold at_step, strang_steppers, set_dt, stepper_init; cbn; repeat apply conj; try reflexivity; ring.
      - destruct IH as (s1 & s2 & A1 & A2 & E). rewrite seq_S, flat_map_app, !ofold_app, E. cbn [Nat.add flat_map]. rewrite app_nil_r.
        destruct (ofold pc (flat_map (one_split dt n p) (seq 0 N)) (fun _ => None, [])) as [a| |]; cbn [bind ofold].
        2,3: eexists (Stepper n p (dt / 2) (2 * S N) 0 0 (INR (2 * S N) * (dt / 2)) false 0 0), (Stepper n p dt (S N) 0 0 (INR (S N) * dt) false 0 0);
          unfold at_step; cbn [st_nstages st_order st_dt st_stage st_step st_t]; repeat apply conj; reflexivity.
        destruct (split_at dt n p N a s1 s2 Hn A1 A2) as (s1' & s2' & B1 & B2 & E2). replace (S N) with (N + 1)%nat by lia.
        exists s1', s2'. split; [exact B1|]. split; [exact B2|]. rewrite E2. destruct (ofold pc (one_split dt n p N) a); reflexivity. }
    destruct G as (s1 & s2 & _ & _ & E). exists s1, s2. exact E.
  Qed.
End Calls.

Lemma step_at_in : forall dt n d k c, In c (step_at dt n d k) -> fst (fst (snd c)) = N.of_nat k.
Proof. intros dt n d k c H. unfold step_at in H. apply in_map_iff in H. destruct H as (i & <- & _). reflexivity. Qed.
Lemma step_at_cons : forall dt n d k, (0 < n)%nat -> exists t rest, step_at dt n d k = (dt, (N.of_nat k, 0%nat, t)) :: rest /\
  forall c, In c rest -> fst (fst (snd c)) = N.of_nat k /\ snd (fst (snd c)) <> 0%nat.
Proof.
  intros dt n d k H. destruct n as [|n]; [lia|]. unfold step_at. cbn [seq map]. eexists. eexists. split; [reflexivity|].
  intros c Hc. apply in_map_iff in Hc. destruct Hc as (i & <- & Hi). apply in_seq in Hi. cbn. split; [reflexivity|lia].
Qed.
Lemma split_app : forall dt n d k N, (k < N)%nat -> exists rest, split_calls dt n d N =
  split_calls dt n d k ++ (step_at (dt / 2) n d (2 * k) ++ step_at dt n d k ++ step_at (dt / 2) n d (2 * k + 1)) ++ rest.
Proof.
  intros dt n d k N H. unfold split_calls. replace N with (k + S (N - k - 1))%nat by lia. rewrite seq_app, flat_map_app. cbn [seq flat_map Nat.add]. eexists. reflexivity.
Qed.
Lemma split_in : forall dt n d k c, In c (split_calls dt n d k) -> (fst (fst (snd c)) < N.of_nat (2 * k))%N.
Proof.
  intros dt n d k c H. unfold split_calls in H. apply in_flat_map in H. destruct H as (j & Hj & H). apply in_seq in Hj.
  apply in_app_or in H. destruct H as [H|H]; [|apply in_app_or in H; destruct H as [H|H]]; apply step_at_in in H; rewrite H; lia.
Qed.

(** ** Snapshots further apart than a step *)
Section Sparse.
  Context (files : N -> option (list (N * reading))) (freq : N) (nodes : list N).
  Hypothesis Hf : (2 <= freq)%N.
  Hypothesis H32 : (2 * freq < two32)%N.
  Hypothesis F0 : files 0%N <> None.
  Hypothesis F1 : files freq <> None.
  Hypothesis F2 : files (2 * freq)%N <> None.
  Hypothesis Hn : nodes <> [].
  Notation pc := (parse_call files freq nodes).
  Definition soft {A : Type} (P : A -> Prop) (x : outcome A) : Prop := match x with Ok a => P a | UB => True | Throw => False end.
  Definition no0 (a : mstate) : Prop := fst a 0%N = None.

  Lemma load_soft : forall st k, files k <> None -> soft (fun st' => forall j, j <> k -> st' j = st j) (load_file files st k).
  Proof.
    intros st k H. unfold load_file. destruct (st k); [cbn; auto|]. destruct (files k) as [[|r rows]|]; [cbn; auto| |contradiction]. cbn [soft].
    intros j Hj. unfold updN. destruct (N.eqb_spec j k); [contradiction|reflexivity].
  Qed.
  Lemma interp_soft : forall dt t st step, soft (fun _ => True) (interpolate_meteo freq dt t nodes st step).
  Proof.
    intros dt t st step. unfold interpolate_meteo. cbv zeta.
    match goal with |- soft _ (ofold ?f _ _) => assert (G : forall vs acc, soft (fun _ => True) (ofold f vs acc)) end; [|apply G].
    induction vs as [|v vs IH]; intros acc; [exact I|]. cbn [ofold].
    unfold interp_node at 1. destruct (st (step - step mod freq)%N) as [d0|]; cbn [bind]; [|exact I]. destruct (st (uint32 _)) as [d1|]; cbn [bind]; [|exact I].
    destruct (d0 v) as [x|]; cbn [bind]; [|exact I]. destruct (d1 v) as [y|]; cbn [bind]; [|exact I]. apply IH.
  Qed.
  Lemma call_soft : forall a dt step stage t, (step < freq)%N -> soft (fun _ => True) (pc a (dt, (step, stage, t))).
  Proof.
    intros a dt step stage t Hs. unfold parse_call, parse_input. cbn [fst snd]. destruct (N.eqb_spec freq 0); [lia|].
    assert (P : soft (fun _ => True) (if (step mod freq =? 0)%N && (stage =? 0)%nat then parse_meteo files freq (fst a) step else Ok (fst a))).
    { destruct (N.eqb_spec (step mod freq) 0) as [E|]; cbn [andb]; [|exact I]. rewrite N.mod_small in E by lia. subst step. destruct (stage =? 0)%nat; [|exact I].
      unfold parse_meteo. pose proof (load_soft (updN (fst a) (uint32 (0 + two32 - freq)) None) 0 F0) as L. destruct (load_file files _ 0%N) as [st2| |]; cbn [bind]; [|destruct L|exact I].
      unfold uint32. rewrite N.mod_small by lia. pose proof (load_soft st2 freq F1) as L2. cbn [N.add]. destruct (load_file files st2 freq); [exact I|destruct L2|exact I]. }
    destruct (if _ && _ then _ else _) as [st'| |]; cbn [bind]; [|destruct P|exact I].
    pose proof (interp_soft dt t st' step) as L. destruct (interpolate_meteo freq dt t nodes st' step); cbn [bind]; [exact I|destruct L|exact I].
  Qed.
  Lemma drop_soft : forall a dt t, soft no0 (pc a (dt, (freq, 0%nat, t))).
  Proof.
    intros a dt t. unfold parse_call, parse_input. cbn [fst snd]. destruct (N.eqb_spec freq 0); [lia|]. rewrite N.mod_same by assumption. cbn [N.eqb Nat.eqb andb].
    unfold parse_meteo, uint32. replace (freq + two32 - freq)%N with two32 by lia. rewrite N.mod_same by discriminate.
    rewrite (N.mod_small (freq + freq)) by lia. pose proof (load_soft (updN (fst a) 0 None) freq F1) as L.
    destruct (load_file files _ freq) as [st2| |]; cbn [bind soft] in *; [|destruct L|exact I].
    assert (F2' : files (freq + freq)%N <> None) by (replace (freq + freq)%N with (2 * freq)%N by lia; exact F2).
    pose proof (load_soft st2 _ F2') as L2. destruct (load_file files st2 (freq + freq)) as [st3| |]; cbn [bind soft] in *; [|destruct L2|exact I].
    pose proof (interp_soft dt t st3 freq) as L3. destruct (interpolate_meteo freq dt t nodes st3 freq); cbn [bind soft] in *; [|destruct L3|exact I].
    unfold no0. cbn [fst]. rewrite L2, L by lia. unfold updN. reflexivity.
  Qed.
  Lemma keep_soft : forall a dt step stage t, no0 a -> (freq <= step < 2 * freq)%N -> (step = freq -> stage <> 0%nat) -> soft no0 (pc a (dt, (step, stage, t))).
  Proof.
    intros a dt step stage t H0 Hs Hk. unfold parse_call, parse_input. cbn [fst snd]. destruct (N.eqb_spec freq 0); [lia|].
    replace ((step mod freq =? 0)%N && (stage =? 0)%nat) with false.
    - cbn [bind]. pose proof (interp_soft dt t (fst a) step) as L. destruct (interpolate_meteo freq dt t nodes (fst a) step); cbn [bind soft] in *; [exact H0|destruct L|exact I].
    - symmetry. apply andb_false_iff. destruct (N.eq_dec step freq) as [E|E]; [right; apply Nat.eqb_neq, Hk, E|]. left. apply N.eqb_neq.
      replace step with ((step - freq) + 1 * freq)%N by lia. rewrite N.mod_add by assumption. rewrite N.mod_small by lia. lia.
  Qed.
  Lemma stale_ub : forall a dt step stage t, no0 a -> (0 < step < freq)%N -> pc a (dt, (step, stage, t)) = UB.
  Proof.
    intros a dt step stage t H0 Hs. unfold parse_call, parse_input. cbn [fst snd]. destruct (N.eqb_spec freq 0); [lia|]. rewrite N.mod_small by lia.
    destruct (N.eqb_spec step 0); [lia|]. cbn [andb bind]. unfold interpolate_meteo. rewrite N.mod_small by lia. replace (step - step)%N with 0%N by lia. cbv zeta.
    destruct nodes as [|v vs]; [contradiction|]. cbn [ofold]. unfold interp_node. rewrite H0. reflexivity.
  Qed.

  Lemma fold_soft : forall (P : mstate -> Prop) (l : list pcall), (forall a c, In c l -> P a -> soft P (pc a c)) -> forall a, P a -> soft P (ofold pc l a).
  Proof.
    intros P l. induction l as [|c l IH]; intros H a Ha; [exact Ha|]. cbn [ofold]. pose proof (H a c (or_introl eq_refl) Ha) as S1.
    destruct (pc a c) as [a'| |]; cbn [bind soft] in *; [|destruct S1|exact I]. apply IH; [|exact S1]. intros; apply H; [right; assumption|assumption].
  Qed.
  Lemma fold_ub : forall (pre : list pcall) (x : pcall) (mid : list pcall) (y : pcall) (post : list pcall) a, (forall c, In c pre -> (fst (fst (snd c)) < freq)%N) -> (exists dt t, x = (dt, (freq, 0%nat, t))) ->
    (forall c, In c mid -> (freq <= fst (fst (snd c)) < 2 * freq)%N /\ (fst (fst (snd c)) = freq -> snd (fst (snd c)) <> 0%nat)) ->
    (0 < fst (fst (snd y)) < freq)%N -> ofold pc (pre ++ x :: mid ++ y :: post) a = UB.
  Proof.
    intros pre x mid y post a Hp (dtx & tx & ->) Hm Hy. rewrite ofold_app.
    pose proof (fold_soft (fun _ => True) pre) as P. specialize (P ltac:(intros b [dt [[st sg] t]] Hc _; apply call_soft; exact (Hp _ Hc)) a I).
    destruct (ofold pc pre a) as [b| |]; cbn [bind]; [|destruct P|reflexivity]. clear P. cbn [ofold]. pose proof (drop_soft b dtx tx) as D.
    destruct (pc b _) as [b1| |]; cbn [bind soft] in *; [|destruct D|reflexivity]. rewrite ofold_app.
    pose proof (fold_soft no0 mid) as P. specialize (P ltac:(intros e [dt [[st sg] t]] Hc H0; destruct (Hm _ Hc) as [M1 M2]; apply keep_soft; assumption) b1 D).
    destruct (ofold pc mid b1) as [b2| |]; cbn [bind soft] in *; [|destruct P|reflexivity]. destruct y as [dty [[sty sgy] ty]]. cbn [ofold].
    rewrite stale_ub; [reflexivity|exact P|exact Hy].
  Qed.

  Theorem sparse_ub : forall dt n d N a, (0 < n)%nat -> (freq + 1 < N.of_nat (2 * N))%N -> ofold pc (split_calls dt n d N) a = UB.
  Proof.
    intros dt n d N a H0 HN. destruct (Nat.Even_or_Odd (N.to_nat freq)) as [[k Ek]|[k Ek]].
    - destruct (split_app dt n d k N) as (rest & ->); [lia|].
      destruct (step_at_cons (dt / 2) n d (2 * k) H0) as (t1 & r1 & E1 & R1). destruct (step_at_cons dt n d k H0) as (t2 & r2 & E2 & R2). rewrite E1, E2.
      rewrite <- !app_assoc. cbn [app]. apply fold_ub.
      + intros c Hc. apply split_in in Hc. lia.
      + exists (dt / 2), t1. replace (N.of_nat (2 * k)) with freq by lia. reflexivity.
      + intros c Hc. destruct (R1 c Hc) as [Q1 Q2]. split; [rewrite Q1; lia|intros _; exact Q2].
      + cbn [fst snd]. lia.
    - destruct (split_app dt n d k (k + 1)) as (rest1 & F1'); [lia|]. destruct (split_app dt n d (k + 1) N) as (rest & ->); [lia|].
      replace (split_calls dt n d (k + 1)) with (split_calls dt n d k ++ (step_at (dt / 2) n d (2 * k) ++ step_at dt n d k ++ step_at (dt / 2) n d (2 * k + 1))).
      2:{ unfold split_calls at 2. rewrite seq_app, flat_map_app. cbn [seq flat_map Nat.add]. rewrite app_nil_r. reflexivity. }
      destruct (step_at_cons (dt / 2) n d (2 * k + 1) H0) as (t1 & r1 & E1 & R1). destruct (step_at_cons dt n d (k + 1) H0) as (t2 & r2 & E2 & R2). rewrite E1, E2.
      match goal with |- ofold pc ?l a = UB => replace l with ((split_calls dt n d k ++ step_at (dt / 2) n d (2 * k) ++ step_at dt n d k) ++
        (dt / 2, (N.of_nat (2 * k + 1), 0%nat, t1)) :: (r1 ++ step_at (dt / 2) n d (2 * (k + 1))) ++ (dt, (N.of_nat (k + 1), 0%nat, t2)) ::
        (r2 ++ step_at (dt / 2) n d (2 * (k + 1) + 1) ++ rest)) end.
      2:{ do 3 (rewrite <- ?app_assoc; cbn [app]). reflexivity. }
      apply fold_ub.
      + intros c Hc. apply in_app_or in Hc. destruct Hc as [Hc|Hc]; [apply split_in in Hc; lia|]. apply in_app_or in Hc. destruct Hc as [Hc|Hc]; apply step_at_in in Hc; lia.
      + exists (dt / 2), t1. replace (N.of_nat (2 * k + 1)) with freq by lia. reflexivity.
      + intros c Hc. apply in_app_or in Hc. destruct Hc as [Hc|Hc]; [destruct (R1 c Hc) as [Q1 Q2]; split; [lia|auto]|]. apply step_at_in in Hc. split; [lia|lia].
      + cbn [fst snd]. lia.
  Qed.
End Sparse.

(** Proofs: the forcing of a split run while the snapshots are at hand. *)
From Coq Require Import ZArith NArith List Bool Arith Reals QArith Qreals Lia Lra.
From Verif Require Import Num Outcome ModelStepper ModelRun ModelGN SpecRun ModelSplitMet SpecSplitMet LemmasPart LemmasStepper LemmasRun3 LemmasSplitMet.
Import ListNotations.
Open Scope R_scope.

Section Held.
  Context (files : N -> option (list (N * reading))) (freq : N) (nodes : list N) (M : nat).
  Hypothesis Hf : (freq <> 0)%N.
  Hypothesis H32 : (N.of_nat M + freq < two32)%N.
  Hypothesis Hc : files_complete files freq nodes M.
  Notation pc := (parse_call files freq nodes).
  Notation ld := (loaded files).
  Definition faithful (st : store) : Prop := forall k, st k = None \/ st k = ld k.
  Definition has (st : store) (k : N) : Prop := st k = ld k.

  Lemma file_there : forall s, (s < N.of_nat M)%N -> (s mod freq = 0)%N -> (exists r, files s = Some r) /\ exists r, files (s + freq)%N = Some r.
  Proof.
    intros s Hs E. apply N.mod_divide in E; [|exact Hf]. destruct E as [j E]. subst s.
    split; [destruct (Hc j) as (r & R & _); [lia|]; exists r; exact R|]. destruct (Hc (j + 1)%N) as (r & R & _); [lia|]. exists r. rewrite <- R. f_equal. lia.
  Qed.
  Lemma enter : forall st s, faithful st -> (s < N.of_nat M)%N -> (s mod freq = 0)%N ->
    exists st', parse_meteo files freq st s = Ok st' /\ faithful st' /\ has st' s /\ has st' (s + freq) /\
      forall j, j <> uint32 (s + two32 - freq) -> has st j -> has st' j.
  Proof.
    intros st s Fs Hs Es. destruct (file_there s Hs Es) as [(r0 & R0) (r1 & R1)]. unfold parse_meteo. set (e := uint32 (s + two32 - freq)). unfold uint32. rewrite (N.mod_small (s + freq)) by lia.
    assert (F1 : faithful (updN st e None)) by (intros k; unfold updN; destruct (k =? e)%N; auto).
    destruct (load_file_ok files (updN st e None) s r0 R0 (F1 s)) as (st2 & E2 & W2). rewrite E2. cbn [bind].
    assert (F2 : faithful st2) by (intros k; rewrite W2; destruct (N.eqb_spec k s) as [->|]; auto).
    destruct (load_file_ok files st2 (s + freq)%N r1 R1 (F2 _)) as (st3 & E3 & W3). exists st3. split; [exact E3|]. unfold has, faithful.
    split; [intros k; rewrite W3; destruct (N.eqb_spec k (s + freq)) as [->|]; auto|].
    split; [rewrite W3; destruct (N.eqb_spec s (s + freq)); [lia|rewrite W2, N.eqb_refl; reflexivity]|].
    split; [rewrite W3, N.eqb_refl; reflexivity|]. intros j Hj H. rewrite W3. destruct (N.eqb_spec j (s + freq)) as [->|]; [reflexivity|].
    rewrite W2. destruct (N.eqb_spec j s) as [->|]; [reflexivity|]. unfold updN. destruct (N.eqb_spec j e); [contradiction|exact H].
  Qed.

  Lemma interpolate_ext : forall dt t st st' step, let s0 := (step - step mod freq)%N in st s0 = st' s0 -> st (uint32 (s0 + freq)) = st' (uint32 (s0 + freq)) ->
    interpolate_meteo freq dt t nodes st step = interpolate_meteo freq dt t nodes st' step.
  Proof.
    intros dt t st st' step s0 E0 E1. unfold interpolate_meteo. cbv zeta. fold s0.
    match goal with |- ofold ?f _ _ = ofold ?g _ _ => assert (G : forall vs acc, ofold f vs acc = ofold g vs acc) end; [|apply G].
    induction vs as [|v vs IH]; intros acc; [reflexivity|]. cbn [ofold]. unfold interp_node at 1 3. rewrite E0, E1.
    destruct (st' s0) as [d0|]; cbn [bind]; [|reflexivity]. destruct (st' (uint32 (s0 + freq))) as [d1|]; cbn [bind]; [|reflexivity].
    destruct (d0 v); cbn [bind]; [|reflexivity]. destruct (d1 v); cbn [bind]; [|reflexivity]. apply IH.
  Qed.
  Lemma interpolate_has : forall st k i t dt, 0 < dt -> (k < M)%nat -> has st (base freq (N.of_nat k)) -> has st (base freq (N.of_nat k) + freq) ->
    exists v, interpolate_meteo freq dt t nodes st (N.of_nat k) = Ok v /\ forcing_ok files freq dt nodes (N.of_nat k, i, t) v.
  Proof.
    intros st k i t dt Hdt Hk A B. set (b := base freq (N.of_nat k)) in *.
    set (st' := fun j => if ((j =? b) || (j =? b + freq))%N then ld j else None).
    pose proof (base_le freq Hf (N.of_nat k)) as Bl. fold b in Bl.
    rewrite (interpolate_ext dt t st st' (N.of_nat k)).
    - apply (interpolate_ok files freq dt nodes Hf Hdt M ltac:(lia) st' k i t); [lia|exact Hc|]. intros j. reflexivity.
    - fold (base freq (N.of_nat k)). fold b. unfold st'. rewrite N.eqb_refl. exact A.
    - fold (base freq (N.of_nat k)). fold b. unfold uint32. rewrite N.mod_small by lia. unfold st'. rewrite N.eqb_refl, orb_true_r. exact B.
  Qed.

  (** A state of the run: the store is faithful and all values handed out were right for the stepper that asked. *)
  Definition served (a : mstate) : Prop := faithful (fst a) /\ forall c v, In (c, v) (snd a) -> forcing_ok files freq (fst c) nodes (snd c) v.
  Definition says (l : list pcall) (a b : mstate) : Prop := map fst (snd b) = map fst (snd a) ++ l.

  Lemma call_held : forall a dt k i t, served a -> 0 < dt -> (k < M)%nat -> has (fst a) (base freq (N.of_nat k)) -> has (fst a) (base freq (N.of_nat k) + freq) ->
    ((N.of_nat k mod freq =? 0)%N && (i =? 0)%nat = false) ->
    exists b, pc a (dt, (N.of_nat k, i, t)) = Ok b /\ served b /\ fst b = fst a /\ says [(dt, (N.of_nat k, i, t))] a b.
  Proof.
    intros a dt k i t [S1 S2] Hdt Hk A B E. unfold parse_call, parse_input. cbn [fst snd]. destruct (N.eqb_spec freq 0); [lia|]. rewrite E. cbn [bind].
    destruct (interpolate_has (fst a) k i t dt Hdt Hk A B) as (v & Ev & Fv). rewrite Ev. cbn [bind fst snd]. eexists. split; [reflexivity|]. split.
    - split; [exact S1|]. cbn [snd]. intros c w H. apply in_app_or in H. destruct H as [H|[H|[]]]; [exact (S2 c w H)|]. injection H as <- <-. exact Fv.
    - split; [reflexivity|]. unfold says. cbn [snd]. rewrite map_app. reflexivity.
  Qed.
  Lemma call_enter : forall a dt k t, served a -> 0 < dt -> (k < M)%nat -> (N.of_nat k mod freq = 0)%N ->
    exists b, pc a (dt, (N.of_nat k, 0%nat, t)) = Ok b /\ served b /\ has (fst b) (N.of_nat k) /\ has (fst b) (N.of_nat k + freq) /\ says [(dt, (N.of_nat k, 0%nat, t))] a b /\
      forall j, j <> uint32 (N.of_nat k + two32 - freq) -> has (fst a) j -> has (fst b) j.
  Proof.
    intros a dt k t [S1 S2] Hdt Hk E. unfold parse_call, parse_input. cbn [fst snd]. destruct (N.eqb_spec freq 0); [lia|]. rewrite E. cbn [N.eqb Nat.eqb andb].
    destruct (enter (fst a) (N.of_nat k) S1 ltac:(lia) E) as (st' & Ep & F' & A & B & K). rewrite Ep. cbn [bind].
    destruct (interpolate_has st' k 0%nat t dt Hdt Hk) as (v & Ev & Fv); [rewrite (mod_base _ Hf _ E); exact A|rewrite (mod_base _ Hf _ E); exact B|].
    rewrite Ev. cbn [bind fst snd]. eexists. split; [reflexivity|]. split.
    - split; [exact F'|]. cbn [snd]. intros c w H. apply in_app_or in H. destruct H as [H|[H|[]]]; [exact (S2 c w H)|]. injection H as <- <-. exact Fv.
    - split; [exact A|]. split; [exact B|]. split; [unfold says; cbn [snd]; rewrite map_app; reflexivity|exact K].
  Qed.
  Lemma says_trans : forall l m a b c, says l a b -> says m b c -> says (l ++ m) a c.
  Proof. intros l m a b c A B. unfold says in *. rewrite B, A, app_assoc. reflexivity. Qed.

  (** Calls at stages that load nothing. *)
  Lemma calls_held : forall dt k d l a, served a -> 0 < dt -> (k < M)%nat -> has (fst a) (base freq (N.of_nat k)) -> has (fst a) (base freq (N.of_nat k) + freq) ->
    (forall i, In i l -> (N.of_nat k mod freq =? 0)%N && (i =? 0)%nat = false) ->
    exists b, ofold pc (map (fun i => (dt, (N.of_nat k, i, INR k * dt + dt * d i))) l) a = Ok b /\ served b /\ fst b = fst a /\
      says (map (fun i => (dt, (N.of_nat k, i, INR k * dt + dt * d i))) l) a b.
  Proof.
    intros dt k d l. induction l as [|i l IH]; intros a S1 Hdt Hk A B E.
    - exists a. split; [reflexivity|]. split; [exact S1|]. split; [reflexivity|]. unfold says. rewrite app_nil_r. reflexivity.
    - cbn [map ofold]. destruct (call_held a dt k i (INR k * dt + dt * d i) S1 Hdt Hk A B (E i (or_introl eq_refl))) as (b & Eb & Sb & Fb & Lb). rewrite Eb. cbn [bind].
      destruct (IH b Sb Hdt Hk) as (b2 & Eb2 & Sb2 & Fb2 & Lb2); [rewrite Fb; exact A|rewrite Fb; exact B|intros; apply E; right; assumption|].
      exists b2. split; [exact Eb2|]. split; [exact Sb2|]. split; [rewrite Fb2; exact Fb|]. exact (says_trans [_] _ _ _ _ Lb Lb2).
  Qed.
  (** A step at which files are loaded. *)
  Lemma step_enter : forall dt n d k a, served a -> 0 < dt -> (0 < n)%nat -> (k < M)%nat -> (N.of_nat k mod freq = 0)%N ->
    exists b, ofold pc (step_at dt n d k) a = Ok b /\ served b /\ has (fst b) (N.of_nat k) /\ has (fst b) (N.of_nat k + freq) /\ says (step_at dt n d k) a b /\
      forall j, j <> uint32 (N.of_nat k + two32 - freq) -> has (fst a) j -> has (fst b) j.
  Proof.
    intros dt n d k a S1 Hdt Hn Hk E. destruct n as [|n]; [lia|]. unfold step_at. cbn [seq map ofold].
    destruct (call_enter a dt k (INR k * dt + dt * d 0%nat) S1 Hdt Hk E) as (b & Eb & Sb & A & B & Lb & K). rewrite Eb. cbn [bind].
    destruct (calls_held dt k d (seq 1 n) b Sb Hdt Hk) as (b2 & Eb2 & Sb2 & Fb2 & Lb2).
    - rewrite (mod_base _ Hf _ E). exact A.
    - rewrite (mod_base _ Hf _ E). exact B.
    - intros i Hi. apply in_seq in Hi. rewrite andb_comm. destruct (Nat.eqb_spec i 0); [lia|reflexivity].
    - exists b2. split; [exact Eb2|]. split; [exact Sb2|]. rewrite Fb2. split; [exact A|]. split; [exact B|]. split; [exact (says_trans [_] _ _ _ _ Lb Lb2)|exact K].
  Qed.
  (** A step at which none are. *)
  Lemma step_held : forall dt n d k a, served a -> 0 < dt -> (k < M)%nat -> (N.of_nat k mod freq <> 0)%N -> has (fst a) (base freq (N.of_nat k)) -> has (fst a) (base freq (N.of_nat k) + freq) ->
    exists b, ofold pc (step_at dt n d k) a = Ok b /\ served b /\ fst b = fst a /\ says (step_at dt n d k) a b.
  Proof.
    intros dt n d k a S1 Hdt Hk E A B. apply calls_held; try assumption. intros i _. destruct (N.eqb_spec (N.of_nat k mod freq) 0); [contradiction|reflexivity].
  Qed.
End Held.

(** ** A file for every step *)
Section Dense.
  Context (files : N -> option (list (N * reading))) (nodes : list N) (M : nat).
  Hypothesis H32 : (N.of_nat M + 1 < two32)%N.
  Hypothesis Hc : files_complete files 1 nodes M.
  Notation pc := (parse_call files 1 nodes).
  Lemma dense_step : forall dt n d k a, served files 1 nodes a -> 0 < dt -> (0 < n)%nat -> (k < M)%nat ->
    exists b, ofold pc (step_at dt n d k) a = Ok b /\ served files 1 nodes b /\ says (step_at dt n d k) a b.
  Proof.
    intros dt n d k a S1 Hdt Hn Hk. destruct (step_enter files 1 nodes M ltac:(discriminate) H32 Hc dt n d k a S1 Hdt Hn Hk) as (b & A & B & _ & _ & C & _); [apply N.mod_1_r|].
    exists b. auto.
  Qed.
  Lemma dense_split : forall dt n d N, 0 < dt -> (0 < n)%nat -> (2 * N <= M)%nat ->
    exists b, ofold pc (split_calls dt n d N) (fun _ => None, []) = Ok b /\ served files 1 nodes b /\ map fst (snd b) = split_calls dt n d N.
  Proof.
    intros dt n d N Hdt Hn. induction N as [|N IH]; intros HN.
    - exists (fun _ => None, []). split; [reflexivity|]. split; [|reflexivity]. split; [intros k; left; reflexivity|intros c v []].
    - destruct IH as (b & E & Sb & L); [lia|]. unfold split_calls. rewrite seq_S, flat_map_app. cbn [flat_map Nat.add]. rewrite app_nil_r, ofold_app.
      fold (split_calls dt n d N). rewrite E. cbn [bind]. rewrite !ofold_app.
      destruct (dense_step (dt / 2) n d (2 * N) b Sb ltac:(lra) Hn ltac:(lia)) as (b1 & E1 & S1 & L1). rewrite E1. cbn [bind]. rewrite ofold_app.
      destruct (dense_step dt n d N b1 S1 ltac:(lra) Hn ltac:(lia)) as (b2 & E2 & S2 & L2). rewrite E2. cbn [bind].
      destruct (dense_step (dt / 2) n d (2 * N + 1) b2 S2 ltac:(lra) Hn ltac:(lia)) as (b3 & E3 & S3 & L3). rewrite E3.
      exists b3. split; [reflexivity|]. split; [exact S3|]. unfold says in *. rewrite L3, L2, L1, L, <- !app_assoc. reflexivity.
  Qed.
End Dense.

(** ** Few enough split steps *)
Section Short.
  Context (files : N -> option (list (N * reading))) (freq : N) (nodes : list N) (M : nat).
  Hypothesis Hf : (2 <= freq)%N.
  Hypothesis H32 : (N.of_nat M + freq < two32)%N.
  Hypothesis Hc : files_complete files freq nodes M.
  Hypothesis HM : (N.of_nat M <= freq + 1)%N.
  Notation pc := (parse_call files freq nodes).
  Definition both (a : mstate) : Prop := has files (fst a) 0 /\ has files (fst a) freq.
  Let Hf0 : (freq <> 0)%N. Proof. lia. Qed.
  Lemma short_step : forall dt n d k a, served files freq nodes a -> 0 < dt -> (0 < n)%nat -> (N.of_nat k < freq)%N -> (k < M)%nat -> (k = 0%nat \/ both a) ->
    exists b, ofold pc (step_at dt n d k) a = Ok b /\ served files freq nodes b /\ both b /\ says (step_at dt n d k) a b.
  Proof.
    intros dt n d k a S1 Hdt Hn Hk HkM K. destruct (Nat.eq_dec k 0) as [->|Nk].
    - destruct (step_enter files freq nodes M Hf0 H32 Hc dt n d 0 a S1 Hdt Hn HkM) as (b & E & Sb & A & B & L & _); [apply N.mod_0_l, Hf0|].
      exists b. split; [exact E|]. split; [exact Sb|]. split; [split; [exact A|exact B]|exact L].
    - destruct K as [K|[A B]]; [contradiction|]. assert (Eb : base freq (N.of_nat k) = 0%N) by (unfold base; rewrite N.mod_small by lia; lia).
      destruct (step_held files freq nodes M Hf0 H32 Hc dt n d k a S1 Hdt HkM) as (b & E & Sb & F & L); [rewrite N.mod_small by lia; lia|rewrite Eb; exact A|rewrite Eb; exact B|].
      exists b. split; [exact E|]. split; [exact Sb|]. split; [unfold both; rewrite F; split; assumption|exact L].
  Qed.
  (** Split steps whose half steps stay below the period. *)
  Lemma short_split : forall dt n d N, 0 < dt -> (0 < n)%nat -> (2 * N <= M)%nat -> (N.of_nat (2 * N) <= freq)%N ->
    exists b, ofold pc (split_calls dt n d N) (fun _ => None, []) = Ok b /\ served files freq nodes b /\ (N = 0%nat \/ both b) /\ map fst (snd b) = split_calls dt n d N.
  Proof.
    intros dt n d N Hdt Hn. induction N as [|N IH]; intros HN HNf.
    - exists (fun _ => None, []). split; [reflexivity|]. split; [|split; [left; reflexivity|reflexivity]]. split; [intros k; left; reflexivity|intros c v []].
    - destruct IH as (b & E & Sb & K & L); [lia|lia|]. unfold split_calls. rewrite seq_S, flat_map_app. cbn [flat_map Nat.add]. rewrite app_nil_r, ofold_app.
      fold (split_calls dt n d N). rewrite E. cbn [bind]. rewrite !ofold_app.
      destruct (short_step (dt / 2) n d (2 * N) b Sb ltac:(lra) Hn ltac:(lia) ltac:(lia)) as (b1 & E1 & S1 & K1 & L1); [destruct K; [left; lia|right; assumption]|]. rewrite E1. cbn [bind]. rewrite ofold_app.
      destruct (short_step dt n d N b1 S1 ltac:(lra) Hn ltac:(lia) ltac:(lia) (or_intror K1)) as (b2 & E2 & S2 & K2 & L2). rewrite E2. cbn [bind].
      destruct (short_step (dt / 2) n d (2 * N + 1) b2 S2 ltac:(lra) Hn ltac:(lia) ltac:(lia) (or_intror K2)) as (b3 & E3 & S3 & K3 & L3). rewrite E3.
      exists b3. split; [reflexivity|]. split; [exact S3|]. split; [right; exact K3|]. unfold says in *. rewrite L3, L2, L1, L, <- !app_assoc. reflexivity.
  Qed.
  Lemma short_all : forall dt n d N, 0 < dt -> (0 < n)%nat -> M = (2 * N)%nat ->
    exists b, ofold pc (split_calls dt n d N) (fun _ => None, []) = Ok b /\ served files freq nodes b /\ map fst (snd b) = split_calls dt n d N.
  Proof.
    intros dt n d N Hdt Hn EM. destruct (N.le_gt_cases (N.of_nat (2 * N)) freq) as [H|H].
    - destruct (short_split dt n d N Hdt Hn ltac:(lia) H) as (b & E & Sb & _ & L). exists b. auto.
    - destruct N as [|N]; [lia|]. destruct (short_split dt n d N Hdt Hn ltac:(lia) ltac:(lia)) as (b & E & Sb & K & L).
      unfold split_calls. rewrite seq_S, flat_map_app. cbn [flat_map Nat.add]. rewrite app_nil_r, ofold_app.
      fold (split_calls dt n d N). rewrite E. cbn [bind]. rewrite !ofold_app.
      destruct (short_step (dt / 2) n d (2 * N) b Sb ltac:(lra) Hn ltac:(lia) ltac:(lia)) as (b1 & E1 & S1 & K1 & L1); [destruct K; [left; lia|right; assumption]|]. rewrite E1. cbn [bind]. rewrite ofold_app.
      destruct (short_step dt n d N b1 S1 ltac:(lra) Hn ltac:(lia) ltac:(lia) (or_intror K1)) as (b2 & E2 & S2 & K2 & L2). rewrite E2. cbn [bind].
      destruct (step_enter files freq nodes M Hf0 H32 Hc (dt / 2) n d (2 * N + 1) b2 S2 ltac:(lra) Hn ltac:(lia)) as (b3 & E3 & S3 & _ & _ & L3 & _).
      { replace (N.of_nat (2 * N + 1)) with freq by lia. apply N.mod_same, Hf0. }
      rewrite E3. exists b3. split; [reflexivity|]. split; [exact S3|]. unfold says in *. rewrite L3, L2, L1, L, <- !app_assoc. reflexivity.
  Qed.
End Short.

(** ** What time the values are for *)
Lemma NtoR_of_nat : forall k, NtoR (N.of_nat k) = INR k.
Proof. intros k. unfold NtoR. rewrite nat_N_Z. symmetry. apply INR_IZR_INZ. Qed.
Lemma served_at : forall files freq nodes (dt D : R) lam k i d v, (freq <> 0)%N -> 0 < dt -> 0 < lam -> D = lam * dt -> 0 <= d <= 1 ->
  forcing_ok files freq dt nodes (N.of_nat k, i, INR k * dt + dt * d) v -> snapshots_at files freq D nodes (lam * (INR k * dt + dt * d)) v.
Proof.
  intros files freq nodes dt D lam k i d v Hf Hdt Hl HD Hd (j & Hj & Hm & H). split; [exact Hm|]. exists j. cbv zeta.
  assert (A : NtoR (j * freq) <= INR k /\ INR k + 1 <= NtoR (j * freq + freq)).
  { rewrite <- NtoR_of_nat. unfold NtoR. split; [apply IZR_le; lia|]. rewrite <- plus_IZR. apply IZR_le. lia. }
  destruct A as [A1 A2]. rewrite HD. set (t0 := NtoR (j * freq)) in *. set (t1 := NtoR (j * freq + freq)) in *. clearbody t0 t1.
  split.
  - assert (B1 : t0 * dt <= INR k * dt + dt * d) by nra. assert (B2 : INR k * dt + dt * d <= t1 * dt) by nra.
    replace (t0 * (lam * dt)) with (lam * (t0 * dt)) by ring. replace (t1 * (lam * dt)) with (lam * (t1 * dt)) by ring. split; apply Rmult_le_compat_l; lra.
  - intros w r Hr. destruct (H w r Hr) as (r0 & r1 & a & b & E0 & E1 & Ra & Rb & Lx & Ly & Lp). exists r0, r1, a, b.
    assert (G : forall x y z, on_line (t0 * dt) x (t1 * dt) y (INR k * dt + dt * d) z -> on_line (t0 * (lam * dt)) x (t1 * (lam * dt)) y (lam * (INR k * dt + dt * d)) z).
    { unfold on_line. intros x y z Hz. transitivity (lam * ((z - x) * (t1 * dt - t0 * dt))); [ring|]. rewrite Hz. ring. }
    repeat apply conj; try assumption; apply G; assumption.
Qed.
Lemma step_at_shape : forall dt n d k c, In c (step_at dt n d k) -> exists i, (i < n)%nat /\ c = (dt, (N.of_nat k, i, INR k * dt + dt * d i)).
Proof. intros dt n d k c H. apply in_map_iff in H. destruct H as (i & <- & Hi). apply in_seq in Hi. exists i. split; [lia|reflexivity]. Qed.
Lemma stage_time_zero : forall n p i, (i < n)%nat -> stage_time n p i = 0.
Proof. intros n p i H. unfold stage_time. rewrite drk_zero by exact H. unfold Q2R. cbn. lra. Qed.

Lemma log_times : forall files freq nodes D n p N (b : mstate), (freq <> 0)%N -> 0 < D -> served files freq nodes b -> map fst (snd b) = split_calls D n (stage_time n p) N ->
  forall dt step stage t v, In ((dt, (step, stage, t)), v) (snd b) ->
  (dt = D /\ snapshots_at files freq D nodes t v) \/ (dt = D / 2 /\ snapshots_at files freq D nodes (2 * t) v).
Proof.
  intros files freq nodes D n p N b Hf HD [_ Sv] L dt step stage t v Hin.
  assert (I : In (dt, (step, stage, t)) (split_calls D n (stage_time n p) N)) by (rewrite <- L; apply (in_map fst) in Hin; exact Hin).
  pose proof (Sv _ _ Hin) as F. cbn [fst snd] in F. unfold split_calls in I. apply in_flat_map in I. destruct I as (k & _ & I).
  assert (Z : forall i, (i < n)%nat -> 0 <= stage_time n p i <= 1) by (intros i Hi; rewrite stage_time_zero by exact Hi; lra).
  apply in_app_or in I. destruct I as [I|I]; [|apply in_app_or in I; destruct I as [I|I]]; apply step_at_shape in I; destruct I as (i & Hi & E); injection E as -> -> -> ->.
  - right. split; [reflexivity|]. apply (served_at files freq nodes (D / 2) D 2 (2 * k) i (stage_time n p i)); [exact Hf|lra|lra|lra|apply Z, Hi|exact F].
  - left. split; [reflexivity|]. replace (INR k * D + D * stage_time n p i) with (1 * (INR k * D + D * stage_time n p i)) by ring.
    apply (served_at files freq nodes D D 1 k i (stage_time n p i)); [exact Hf|lra|lra|lra|apply Z, Hi|exact F].
  - right. split; [reflexivity|]. apply (served_at files freq nodes (D / 2) D 2 (2 * k + 1) i (stage_time n p i)); [exact Hf|lra|lra|lra|apply Z, Hi|exact F].
Qed.

(** ** The results for runs *)
Theorem split_run_ok : forall files freq nodes n p D hr rd N, (freq <> 0)%N -> 0 < D -> (0 < n)%nat -> (N.of_nat (2 * N) + freq < two32)%N ->
  files_complete files freq nodes (2 * N) -> freq = 1%N \/ (N.of_nat (2 * N) <= freq + 1)%N ->
  exists a s1 s2, split_run files freq nodes N (strang_steppers n p D hr rd) = Ok (a, s1, s2) /\
    map fst (snd a) = split_calls D n (stage_time n p) N /\
    forall dt step stage t v, In ((dt, (step, stage, t)), v) (snd a) ->
      (dt = D /\ snapshots_at files freq D nodes t v) \/ (dt = D / 2 /\ snapshots_at files freq D nodes (2 * t) v).
Proof.
  intros files freq nodes n p D hr rd N Hf HD Hn H32 Hc Hs.
  assert (G : exists b, ofold (parse_call files freq nodes) (split_calls D n (stage_time n p) N) (fun _ => None, []) = Ok b /\ served files freq nodes b /\ map fst (snd b) = split_calls D n (stage_time n p) N).
  { destruct (N.eq_dec freq 1) as [->|N1]; [apply (dense_split files nodes (2 * N)); auto|]. destruct Hs as [Hs|Hs]; [contradiction|].
    apply (short_all files freq nodes (2 * N)); auto. lia. }
  destruct G as (b & E & Sb & L). destruct (run_calls_eq files freq nodes N n p D hr rd Hn) as (s1 & s2 & Er). rewrite E in Er. cbn [bind] in Er.
  exists b, s1, s2. split; [exact Er|]. split; [exact L|]. intros. apply (log_times files freq nodes D n p N b Hf HD Sb L _ step stage); assumption.
Qed.
Theorem split_run_ub : forall files freq nodes n p D hr rd N, (2 <= freq)%N -> (0 < n)%nat -> (2 * freq < two32)%N ->
  (forall j, (j <= 2)%N -> files (j * freq)%N <> None) -> nodes <> [] -> (freq + 1 < N.of_nat (2 * N))%N ->
  split_run files freq nodes N (strang_steppers n p D hr rd) = UB.
Proof.
  intros files freq nodes n p D hr rd N Hf Hn H32 Hfi Hno HN. destruct (run_calls_eq files freq nodes N n p D hr rd Hn) as (s1 & s2 & ->).
  rewrite (sparse_ub files freq nodes Hf H32); [reflexivity| | | |exact Hno|exact Hn|exact HN].
  - apply (Hfi 0%N). lia.
  - pose proof (Hfi 1%N ltac:(lia)) as H. rewrite N.mul_1_l in H. exact H.
  - apply Hfi. lia.
Qed.

(** Files for the steps of the run and no more: the half steps ask for files of twice as many. *)
Theorem split_run_throw : forall files nodes n p D hr rd N, 0 < D -> (0 < n)%nat -> (1 <= N)%nat -> (N.of_nat N + 1 < two32)%N ->
  files_complete files 1 nodes N -> files (N.of_nat N + 1)%N = None ->
  split_run files 1 nodes N (strang_steppers n p D hr rd) = Throw.
Proof.
  intros files nodes n p D hr rd N HD Hn HN H32 Hc Hmiss. destruct (run_calls_eq files 1 nodes N n p D hr rd Hn) as (s1 & s2 & ->). set (d := stage_time n p).
  assert (Bad : forall dt a rest, served files 1 nodes a -> ofold (parse_call files 1 nodes) (step_at dt n d N ++ rest) a = Throw).
  { intros dt a rest [Fa _]. destruct n as [|n0]; [lia|]. unfold step_at. cbn [seq map app ofold]. unfold parse_call at 1, parse_input. cbn [fst snd N.eqb Pos.eqb]. rewrite N.mod_1_r. cbn [N.eqb Nat.eqb andb].
    unfold parse_meteo. set (e := uint32 (N.of_nat N + two32 - 1)). destruct (Hc (N.of_nat N)) as (r0 & R0 & _); [lia|]. rewrite N.mul_1_r in R0.
    assert (F1 : faithful files (updN (fst a) e None)) by (intros k; unfold updN; destruct (k =? e)%N; auto).
    destruct (load_file_ok files _ (N.of_nat N) r0 R0 (F1 _)) as (st2 & E2 & W2). rewrite E2. cbn [bind]. unfold uint32. rewrite N.mod_small by lia.
    assert (Z : st2 (N.of_nat N + 1)%N = None).
    { rewrite W2. destruct (N.eqb_spec (N.of_nat N + 1) (N.of_nat N)); [lia|]. destruct (F1 (N.of_nat N + 1)%N) as [K|K]; [exact K|]. rewrite K. unfold loaded. rewrite Hmiss. reflexivity. }
    unfold load_file. rewrite Z, Hmiss. reflexivity. }
  destruct (Nat.Even_or_Odd N) as [[k Ek]|[k Ek]].
  - destruct (split_app D n d k N) as (rest & ->); [lia|]. rewrite ofold_app.
    destruct (dense_split files nodes N H32 Hc D n d k HD Hn ltac:(lia)) as (b & E & Sb & _). rewrite E. cbn [bind]. rewrite <- app_assoc. rewrite <- Ek. rewrite Bad by exact Sb. reflexivity.
  - destruct (split_app D n d k N) as (rest & ->); [lia|]. rewrite ofold_app.
    destruct (dense_split files nodes N H32 Hc D n d k HD Hn ltac:(lia)) as (b & E & Sb & _). rewrite E. cbn [bind]. rewrite <- !app_assoc, ofold_app.
    destruct (dense_step files nodes N H32 Hc (D / 2) n d (2 * k) b Sb ltac:(lra) Hn ltac:(lia)) as (b1 & E1 & S1 & _). rewrite E1. cbn [bind].
    rewrite ofold_app. destruct (dense_step files nodes N H32 Hc D n d k b1 S1 HD Hn ltac:(lia)) as (b2 & E2 & S2 & _). rewrite E2. cbn [bind].
    rewrite <- Ek. rewrite Bad by exact S2. reflexivity.
Qed.

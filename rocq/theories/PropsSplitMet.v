(** * C59: meteorological forcing of a split (Green-Naghdi) run. *)
From Coq Require Import ZArith NArith List Bool Arith Reals QArith Qreals Lia Lra.
From Verif Require Import Num Outcome ModelStepper ModelRun ModelGN SpecRun ModelSplitMet SpecSplitMet LemmasSplitMet2.
Import ListNotations.
Open Scope R_scope.

(** With a file for every step, or for a run short against the period, every call is
    served.  The whole steps get the values for their time t; the half steps those
    for time 2 t. *)
Theorem C59_served : forall files freq nodes n p D hr rd N, (freq <> 0)%N -> 0 < D -> (0 < n)%nat -> (N.of_nat (2 * N) + freq < two32)%N ->
  files_complete files freq nodes (2 * N) -> freq = 1%N \/ (N.of_nat (2 * N) <= freq + 1)%N ->
  exists a s1 s2, split_run files freq nodes N (strang_steppers n p D hr rd) = Ok (a, s1, s2) /\
    map fst (snd a) = split_calls D n (fun i => Q2R (drk_of n p i)) N /\
    forall dt step stage t v, In ((dt, (step, stage, t)), v) (snd a) ->
      (dt = D /\ snapshots_at files freq D nodes t v) \/ (dt = D / 2 /\ snapshots_at files freq D nodes (2 * t) v).
Proof. exact split_run_ok. Qed.
Print Assumptions C59_served.

(** In every other run that gets that far, the half steps drop the snapshot that the whole
    steps still interpolate from, and element 0 of an empty vector is read. *)
Theorem C59_dropped_refuted : forall files freq nodes n p D hr rd N, (2 <= freq)%N -> (0 < n)%nat -> (2 * freq < two32)%N ->
  (forall j, (j <= 2)%N -> files (j * freq)%N <> None) -> nodes <> [] -> (freq + 1 < N.of_nat (2 * N))%N ->
  split_run files freq nodes N (strang_steppers n p D hr rd) = UB.
Proof. exact split_run_ub. Qed.
Print Assumptions C59_dropped_refuted.

(** The period in steps is the least one covering the period in seconds (swe_parser.hpp
    lines 41-42): snapshots further apart than dt are enough for that. *)
Theorem C59_period_refuted : forall files period freq nodes n p D hr rd N, 0 < D -> least_cover period D freq -> D < period -> (0 < n)%nat -> (2 * freq < two32)%N ->
  (forall j, (j <= 2)%N -> files (j * freq)%N <> None) -> nodes <> [] -> (freq + 1 < N.of_nat (2 * N))%N ->
  split_run files freq nodes N (strang_steppers n p D hr rd) = UB.
Proof.
  intros files period freq nodes n p D hr rd N HD [C1 _] HP Hn H32 Hfi Hno HN. apply split_run_ub; try assumption.
  destruct (N.le_gt_cases 2 freq) as [|K]; [assumption|]. exfalso. assert (A : NtoR freq <= 1) by (unfold NtoR; apply IZR_le; lia).
  assert (NtoR freq * D <= 1 * D) by (apply Rmult_le_compat_r; lra). lra.
Qed.
Print Assumptions C59_period_refuted.

(** Files for the N steps of the run, as the shallow-water solvers need: the split run stops. *)
Theorem C59_runs_out_refuted : forall files nodes n p D hr rd N, 0 < D -> (0 < n)%nat -> (1 <= N)%nat -> (N.of_nat N + 1 < two32)%N ->
  files_complete files 1 nodes N -> files (N.of_nat N + 1)%N = None ->
  split_run files 1 nodes N (strang_steppers n p D hr rd) = Throw.
Proof. exact split_run_throw. Qed.
Print Assumptions C59_runs_out_refuted.

(** A wind stress growing by 1 a second, given every second. *)
Definition growing (k : N) : option (list (N * reading)) := Some [(7%N, Met (NtoR k) 0 0)].
Lemma growing_row : forall k r, row_of [(7%N, Met (NtoR k) 0 0)] 7%N r -> r = Met (NtoR k) 0 0.
Proof. intros k r (a & b & E & _). destruct a as [|x [|y a]]; cbn in E; try discriminate. injection E as -> _. reflexivity. Qed.
Lemma growing_complete : forall freq n, files_complete growing freq [7%N] n.
Proof. intros freq n j _. eexists. split; [reflexivity|]. intros v [<-|[]]. eexists. exists [], []. split; [reflexivity|]. intros x []. Qed.
Lemma growing_value : forall freq t vals, (freq <> 0)%N -> snapshots_at growing freq 1 [7%N] t vals -> exists r, vals = [(7%N, r)] /\ m_x r = t.
Proof.
  intros freq t vals Hf (E & j & _ & H). destruct vals as [|[v r] [|]]; cbn in E; try discriminate. injection E as ->. exists r. split; [reflexivity|].
  destruct (H 7%N r (or_introl eq_refl)) as (r0 & r1 & a & b & F0 & F1 & Ra & Rb & L & _). injection F0 as <-. injection F1 as <-.
  apply growing_row in Ra. apply growing_row in Rb. subst a b. unfold on_line in L. cbn [m_x] in L.
  assert (P : NtoR (j * freq + freq) - NtoR (j * freq) <> 0).
  { unfold NtoR. rewrite <- minus_IZR. apply IZR_neq. lia. }
  rewrite !Rmult_1_r in L. assert (Z : (NtoR (j * freq + freq) - NtoR (j * freq)) * (m_x r - t) = 0) by lra.
  apply Rmult_integral in Z. destruct Z; [contradiction|lra].
Qed.
Theorem C59_wrong_time_refuted : forall n p hr rd N, (0 < n)%nat -> (1 <= N)%nat -> (N.of_nat (2 * N) + 1 < two32)%N ->
  exists a s1 s2, split_run growing 1 [7%N] N (strang_steppers n p 1 hr rd) = Ok (a, s1, s2) /\
    (forall step stage t v, In ((1 / 2, (step, stage, t)), v) (snd a) -> exists r, v = [(7%N, r)] /\ m_x r = 2 * t) /\
    exists step stage t v, In ((1 / 2, (step, stage, t)), v) (snd a) /\ ~ snapshots_at growing 1 1 [7%N] t v.
Proof.
  intros n p hr rd N Hn HN H32. destruct (C59_served growing 1 [7%N] n p 1 hr rd N) as (a & s1 & s2 & E & L & T); [discriminate|lra|exact Hn|exact H32|apply growing_complete|auto|].
  exists a, s1, s2. split; [exact E|].
  assert (V : forall step stage t v, In ((1 / 2, (step, stage, t)), v) (snd a) -> exists r, v = [(7%N, r)] /\ m_x r = 2 * t).
  { intros step stage t v Hin. destruct (T _ _ _ _ _ Hin) as [[K _]|[_ K]]; [lra|]. apply (growing_value 1); [discriminate|exact K]. }
  split; [exact V|].
  assert (I : In (1 / 2, (1%N, 0%nat, INR 1 * (1 / 2) + 1 / 2 * Q2R (drk_of n p 0))) (map fst (snd a))).
  { rewrite L. unfold split_calls. apply in_flat_map. exists 0%nat. split; [apply in_seq; lia|]. apply in_or_app. right. apply in_or_app. right.
    unfold step_at. apply in_map_iff. exists 0%nat. split; [reflexivity|]. apply in_seq. lia. }
  apply in_map_iff in I. destruct I as ([c v] & Ec & I). cbn in Ec. subst c. exists 1%N, 0%nat, (INR 1 * (1 / 2) + 1 / 2 * Q2R (drk_of n p 0)), v. split; [exact I|].
  intros K. destruct (V _ _ _ _ I) as (r & Er & Hr). destruct (growing_value 1 _ _ ltac:(discriminate) K) as (r' & Er' & Hr'). rewrite Er in Er'. injection Er' as <-.
  pose proof (LemmasSplitMet2.stage_time_zero n p 0 Hn) as Z. unfold LemmasSplitMet.stage_time in Z. rewrite Z in *. cbn [INR] in *. lra.
Qed.
Print Assumptions C59_wrong_time_refuted.

(** Snapshots three steps apart: two split steps run, three do not. *)
Example split_met_ex : (exists a s1 s2, split_run growing 3 [7%N] 2 (strang_steppers 2 2 1 false 0) = Ok (a, s1, s2) /\ length (snd a) = 12%nat) /\
  split_run growing 3 [7%N] 3 (strang_steppers 2 2 1 false 0) = UB.
Proof.
  split.
  - destruct (C59_served growing 3 [7%N] 2 2 1 false 0 2) as (a & s1 & s2 & E & L & _); [discriminate|lra|lia|unfold two32; lia|apply growing_complete|right; lia|].
    exists a, s1, s2. split; [exact E|]. rewrite <- (map_length fst), L. reflexivity.
  - apply C59_dropped_refuted; [lia|lia|unfold two32; lia|discriminate|discriminate|lia].
Qed.

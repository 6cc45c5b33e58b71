From Coq Require Import ZArith NArith List Bool Arith Reals String Ascii DecimalString DecimalN DecimalFacts Lia Lra.
From Verif Require Import Num Outcome ModelStepper LemmasStepper ModelRun SpecRun.
Import ListNotations.

(** ** C20 *)
Lemma ushort_small : forall x, (x < 2 ^ 16)%N -> ushort x = x.
Proof. intros x H. apply N.mod_small, H. Qed.

Lemma tag_lor : forall i e, (e < 256)%N -> N.lor (N.shiftl i 8) e = (i * 256 + e)%N.
Proof.
  intros i e H. rewrite <- N.lxor_lor, <- N.add_nocarry_lxor.
  - rewrite N.shiftl_mul_pow2. reflexivity.
  - apply N.bits_inj. intros k. rewrite N.land_spec, N.bits_0.
    destruct (N.lt_ge_cases k 8) as [L|L].
    + rewrite N.shiftl_spec_low by assumption. reflexivity.
    + assert (N.testbit e k = false) as ->; [|apply andb_false_r].
      rewrite <- (N.mod_small e (2 ^ 8)) by exact H. apply N.mod_pow2_bits_high, L.
  - apply N.bits_inj. intros k. rewrite N.land_spec, N.bits_0.
    destruct (N.lt_ge_cases k 8) as [L|L].
    + rewrite N.shiftl_spec_low by assumption. reflexivity.
    + assert (N.testbit e k = false) as ->; [|apply andb_false_r].
      rewrite <- (N.mod_small e (2 ^ 8)) by exact H. apply N.mod_pow2_bits_high, L.
Qed.

Lemma tag_value : forall i e, (i < 2 ^ 16)%N -> (e < 256)%N -> send_tag i e = (i * 256 + e)%N.
Proof.
  intros i e Hi He. unfold send_tag. rewrite !ushort_small by lia. apply tag_lor, He.
Qed.
Lemma tag_injective : forall i e i' e', (i < 256)%N -> (e < 256)%N -> (i' < 256)%N -> (e' < 256)%N ->
  send_tag i e = send_tag i' e' -> i = i' /\ e = e'.
Proof. intros i e i' e' H1 H2 H3 H4. rewrite !tag_value by lia. lia. Qed.

(** ** C22 *)
Lemma threads_cover : forall n T, (T <> 0)%N -> (T < two32)%N -> (n + T <= two32)%N ->
  (forall id u, (id < T)%N -> in_range (begin_sim_id n T id) (end_sim_id n T id) u -> (u < n)%N) /\
  (forall u, (u < n)%N -> exists id, (id < T)%N /\ in_range (begin_sim_id n T id) (end_sim_id n T id) u /\
     forall id', (id' < T)%N -> in_range (begin_sim_id n T id') (end_sim_id n T id') u -> id' = id).
Proof.
  intros n T HT HT2 HB. unfold in_range, begin_sim_id, end_sim_id, sim_per_thread, uint32.
  set (q := ((n + T - 1) / T)%N).
  assert (Q1 : (T * q <= n + T - 1)%N) by (apply N.mul_div_le, HT).
  assert (Q2 : (n + T - 1 < T * q + T)%N).
  { pose proof (N.mul_succ_div_gt (n + T - 1) T HT). fold q in H. lia. }
  assert (Q3 : (n <= T * q)%N) by lia.
  assert (QB : (q < two32)%N).
  { assert (1 * q <= T * q)%N by (apply N.mul_le_mono_r; lia). lia. }
  rewrite (N.mod_small q) by assumption.
  assert (B : forall id, (id <= T)%N -> (q * id < two32)%N).
  { intros id Hi. assert (q * id <= q * T)%N by (apply N.mul_le_mono_l; assumption). lia. }
  assert (NB : (n < two32)%N) by lia. rewrite (N.mod_small n) by assumption.
  assert (E : forall id, (id < T)%N -> ((q * ((id + 1) mod two32)) mod two32 = q * (id + 1))%N).
  { intros id Hi. rewrite (N.mod_small (id + 1)) by lia. apply N.mod_small, B. lia. }
  split.
  - intros id u Hi [_ H]. rewrite E in H by assumption. lia.
  - intros u Hu. assert (q <> 0)%N by nia.
    exists (u / q)%N. assert (U1 : (q * (u / q) <= u)%N) by (apply N.mul_div_le; assumption).
    assert (U2 : (u < q * N.succ (u / q))%N) by (apply N.mul_succ_div_gt; assumption).
    assert (UT : (u / q < T)%N) by (apply N.div_lt_upper_bound; lia).
    split; [assumption|]. split.
    + rewrite (N.mod_small (q * (u / q))) by (apply B; lia). rewrite E by assumption. lia.
    + intros id Hi [H1 H2]. rewrite (N.mod_small (q * id)) in H1 by (apply B; lia). rewrite E in H2 by assumption. nia.
Qed.

(** ** C23 *)
Lemma ceilR_spec : forall x, (IZR (ceilR x) - 1 < x <= IZR (ceilR x))%R.
Proof.
  intros x. unfold ceilR. destruct (archimed (- x)) as [A B]. rewrite minus_IZR. lra.
Qed.
Lemma ceilR_unique : forall x z, (IZR z - 1 < x <= IZR z)%R -> ceilR x = z.
Proof.
  intros x z H. pose proof (ceilR_spec x) as C.
  assert (A : (IZR (ceilR x) < IZR (z + 1))%R) by (rewrite plus_IZR; lra).
  assert (B : (IZR z < IZR (ceilR x + 1))%R) by (rewrite plus_IZR; lra).
  apply lt_IZR in A, B. lia.
Qed.

Lemma steps_cover : forall x dt n, (0 < dt)%R -> (0 <= x)%R -> steps_for x dt = Ok n -> least_cover x dt n.
Proof.
  intros x dt n Hd Hx H. unfold steps_for in H. destruct (Req_EM_T dt 0); [lra|].
  destruct ((0 <=? ceilR (x / dt))%Z && (ceilR (x / dt) <? 2 ^ 32)%Z) eqn:E; [|discriminate].
  injection H as <-. apply andb_true_iff in E. destruct E as [E _]. apply Z.leb_le in E.
  pose proof (ceilR_spec (x / dt)) as [C1 C2].
  assert (X : x = (x / dt * dt)%R) by (field; lra).
  split.
  - unfold NtoR. rewrite Z2N.id by assumption. rewrite X at 1. apply Rmult_le_compat_r; lra.
  - intros m Hm. assert ((x / dt <= NtoR m)%R).
    { apply Rmult_le_reg_r with dt; [assumption|]. lra. }
    unfold NtoR in *. assert ((IZR (ceilR (x / dt)) < IZR (Z.of_N m + 1))%R) as L by (rewrite plus_IZR; lra).
    apply lt_IZR in L. lia.
Qed.

Lemma steps_defined : forall x dt, (0 < dt)%R -> (0 <= x)%R -> (x <= (2 ^ 32 - 1) * dt)%R ->
  exists n, steps_for x dt = Ok n.
Proof.
  intros x dt Hd Hx Hb. unfold steps_for. destruct (Req_EM_T dt 0); [lra|].
  pose proof (ceilR_spec (x / dt)) as [C1 C2].
  assert (Q : (0 <= x / dt)%R) by (apply Rmult_le_pos; [assumption | left; apply Rinv_0_lt_compat; assumption]).
  assert (Q2 : (x / dt <= 2 ^ 32 - 1)%R) by (apply Rmult_le_reg_r with dt; [assumption|]; unfold Rdiv; rewrite Rmult_assoc, Rinv_l by lra; lra).
  assert (Z0 : (-1 < ceilR (x / dt))%Z) by (apply lt_IZR; lra).
  assert (Z1 : (ceilR (x / dt) < 2 ^ 32)%Z).
  { apply lt_IZR. replace (IZR (2 ^ 32)) with (2 ^ 32)%R; [lra|]. rewrite pow_IZR. reflexivity. }
  assert (G : ((0 <=? ceilR (x / dt))%Z && (ceilR (x / dt) <? 2 ^ 32)%Z) = true)
    by (apply andb_true_iff; split; [apply Z.leb_le; lia | apply Z.ltb_lt; lia]).
  rewrite G. eexists; reflexivity.
Qed.

Lemma steps_positive : forall x dt n, (0 < dt)%R -> (0 < x)%R -> steps_for x dt = Ok n -> (0 < n)%N.
Proof.
  intros x dt n Hd Hx H. apply steps_cover in H; [|assumption|lra]. destruct H as [H _].
  destruct n; [|lia]. unfold NtoR in H. cbn in H. lra.
Qed.

Lemma iter_add' : forall A (f : A -> A) m n x, Nat.iter m f (Nat.iter n f x) = Nat.iter (m + n) f x.
Proof.
  induction m as [|m IH]; intros n x; [reflexivity|].
  change (f (Nat.iter m f (Nat.iter n f x)) = f (Nat.iter (m + n) f x)). rewrite IH. reflexivity.
Qed.

Definition schedule (freq : N) (n : nat) : list nat :=
  filter (fun k => (N.of_nat k mod freq =? 0)%N) (seq 0 (S n)).

Lemma run_outputs_filter : forall ns p dt hr rd n freq, (ns <> 0)%nat -> (freq <> 0)%N ->
  run_outputs n freq (stepper_init ns p dt hr rd) = Ok (schedule freq n).
Proof.
  intros ns p dt hr rd n freq Hn Hf. unfold run_outputs, offer_output, write_guard.
  assert (F : (freq =? 0)%N = false) by (apply N.eqb_neq, Hf). rewrite F. cbn [bind].
  set (s0 := stepper_init ns p dt hr rd).
  assert (A : forall k, ofold (run_one_step freq) (seq 1 k) (s0, if (N.of_nat (st_step s0) mod freq =? 0)%N then [] ++ [st_step s0] else [])
    = Ok (Nat.iter (k * ns) stepper_incr s0, schedule freq k)).
  { induction k as [|k IH].
    - unfold schedule, s0. cbn [seq ofold Nat.mul filter stepper_init st_step N.of_nat app]. reflexivity.
    - rewrite seq_S.
      assert (OA : forall (A S : Type) (f : S -> A -> outcome S) l m s, ofold f (l ++ m) s = bind (ofold f l s) (ofold f m)).
      { intros A S0 f l m. induction l as [|a l IHl]; intros s; [reflexivity|]. cbn. destruct (f s a); cbn; [apply IHl|reflexivity|reflexivity]. }
      rewrite OA, IH. cbn [bind ofold]. unfold run_one_step. cbn [fst snd].
      destruct (incr_n_fields ns p dt hr rd (k * ns) Hn) as (NS & _). fold s0 in NS. unfold incr_n in NS. rewrite NS.
      rewrite iter_add'. replace (ns + k * ns)%nat with (S k * ns)%nat by ring.
      destruct (incr_n_fields ns p dt hr rd (S k * ns) Hn) as (_ & _ & _ & _ & _ & _ & ST & _). fold s0 in ST. unfold incr_n in ST.
      rewrite Nat.div_mul in ST by assumption.
      unfold offer_output, write_guard. rewrite F. cbn [bind]. rewrite ST.
      f_equal. f_equal. unfold schedule. rewrite (seq_S (S k) 0), filter_app. cbn [plus]. cbn [filter].
      destruct (N.of_nat (S k) mod freq =? 0)%N; [reflexivity | rewrite List.app_nil_r; reflexivity]. }
  rewrite A. reflexivity.
Qed.

Lemma schedule_multiples : forall f n, (f <> 0)%nat ->
  schedule (N.of_nat f) n = map (fun j => (j * f)%nat) (seq 0 (S (n / f))).
Proof.
  intros f n Hf. unfold schedule.
  assert (E : forall k, (N.of_nat k mod N.of_nat f =? 0)%N = (k mod f =? 0)%nat).
  { intros k. rewrite <- Nat2N.inj_mod. destruct (Nat.eqb_spec (k mod f) 0) as [->|N0]; [reflexivity|].
    apply N.eqb_neq. intros Z. apply N0. apply Nat2N.inj. rewrite Z. reflexivity. }
  induction n as [|n IH].
  - rewrite Nat.div_0_l by assumption. cbn [seq filter map]. rewrite E, Nat.mod_0_l by assumption. reflexivity.
  - rewrite seq_S, filter_app, IH. cbn [plus filter]. rewrite E.
    assert (D := Nat.div_mod (S n) f Hf). assert (D0 := Nat.div_mod n f Hf).
    assert (M := Nat.mod_upper_bound (S n) f Hf). assert (M0 := Nat.mod_upper_bound n f Hf).
    destruct (Nat.eqb_spec (S n mod f) 0) as [Z|Z].
    + assert (Q : (S n / f = S (n / f))%nat) by nia.
      rewrite Q. rewrite (seq_S (S (n / f))), map_app. cbn [map plus]. f_equal. f_equal. nia.
    + assert (Q : (S n / f = n / f)%nat) by nia. rewrite Q, List.app_nil_r. reflexivity.
Qed.
Lemma zero_period : steps_for 0 1 = Ok 0%N /\ forall n s, run_outputs n 0 s = UB.
Proof.
  split; [|reflexivity].
  unfold steps_for. destruct (Req_EM_T 1 0); [lra|].
  rewrite (ceilR_unique (0 / 1) 0) by (cbn; lra). reflexivity.
Qed.

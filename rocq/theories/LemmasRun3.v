From Coq Require Import ZArith NArith List Bool Arith Reals Lia Lra.
From Verif Require Import Num Outcome ModelRun SpecRun.
Import ListNotations.

Definition dict (rows : list (N * reading)) : N -> option reading :=
  fold_left (fun d r => updN d (fst r) (Some (snd r))) rows (fun _ => None).

Lemma dict_row : forall rows v r, row_of rows v r -> dict rows v = Some r.
Proof.
  intros rows v r (a & b & -> & H). unfold dict. rewrite fold_left_app. cbn [fold_left fst snd].
  match goal with |- context [fold_left ?f a ?z] => set (z0 := fold_left f a z) end.
  assert (E : updN z0 v (Some r) v = Some r) by (unfold updN; rewrite N.eqb_refl; reflexivity).
  revert E. generalize (updN z0 v (Some r)). clear z0.
  induction b as [|x b IH]; intros z E; [exact E|]. cbn [fold_left]. apply IH.
  - intros y Hy. apply H. right. exact Hy.
  - unfold updN. destruct (N.eqb_spec v (fst x)) as [K|]; [|exact E].
    exfalso. apply (H x); [left; reflexivity | symmetry; exact K].
Qed.

Lemma NtoR_add : forall a b, NtoR (a + b) = (NtoR a + NtoR b)%R.
Proof. intros a b. unfold NtoR. rewrite N2Z.inj_add, plus_IZR. reflexivity. Qed.
Lemma NtoR_pos : forall a, (a <> 0)%N -> (0 < NtoR a)%R.
Proof. intros a H. unfold NtoR. apply IZR_lt. lia. Qed.

Section Run.
  Variable files : N -> option (list (N * reading)).
  Variable freq : N.
  Variable dt : R.
  Variable nodes : list N.
  Hypothesis Hf : (freq <> 0)%N.
  Hypothesis Hdt : (0 < dt)%R.

  Definition loaded (k : N) : option (N -> option reading) :=
    match files k with Some [] => None | Some rows => Some (dict rows) | None => None end.
  Definition base (k : N) : N := (k - k mod freq)%N.
  Definition window (s : N) (st : store) : Prop :=
    forall j, st j = if ((j =? s) || (j =? s + freq))%N then loaded j else None.

  Lemma base_mult : forall k, exists j, base k = (j * freq)%N /\ (j * freq <= k < j * freq + freq)%N.
  Proof.
    intros k. unfold base. exists (k / freq)%N.
    pose proof (N.div_mod k freq Hf) as D. pose proof (N.mod_lt k freq Hf) as M.
    set (q := (k / freq)%N) in *. set (r := (k mod freq)%N) in *. clearbody q r. subst k. split; nia.
  Qed.
  Lemma base_le : forall k, (base k <= k < base k + freq)%N.
  Proof. intros k. destruct (base_mult k) as (j & -> & ?). lia. Qed.
  Lemma base_unique : forall k j, (j * freq <= k < j * freq + freq)%N -> base k = (j * freq)%N.
  Proof.
    intros k j H. destruct (base_mult k) as (i & -> & Hi). f_equal. nia.
  Qed.
  Lemma mod_base : forall k, (k mod freq = 0)%N -> base k = k.
  Proof. intros k H. unfold base. rewrite H. lia. Qed.
  Lemma base_keep : forall k, ((k + 1) mod freq <> 0)%N -> base (k + 1) = base k.
  Proof.
    intros k H. destruct (base_mult k) as (j & E & Hj). rewrite E. apply base_unique.
    split; [lia|]. assert (k + 1 <> j * freq + freq)%N; [|lia].
    intros K. apply H. rewrite K. replace (j * freq + freq)%N with ((j + 1) * freq)%N by ring. apply N.mod_mul, Hf.
  Qed.
  Lemma base_next : forall k, ((k + 1) mod freq = 0)%N -> (base k + freq = k + 1)%N.
  Proof.
    intros k H. destruct (base_mult k) as (j & E & Hj). rewrite E.
    apply N.mod_divide in H; [|exact Hf]. destruct H as [i Hi].
    assert (A : (j < i)%N) by (apply (N.mul_lt_mono_pos_r freq); lia).
    assert (B : (i < j + 2)%N) by (apply (N.mul_lt_mono_pos_r freq); lia).
    replace i with (j + 1)%N in Hi by lia. lia.
  Qed.

  Lemma load_file_ok : forall st k rows, files k = Some rows -> (st k = None \/ st k = loaded k) ->
    exists st', load_file files st k = Ok st' /\ forall j, st' j = if (j =? k)%N then loaded k else st j.
  Proof.
    intros st k rows E H. unfold load_file. unfold loaded in *. rewrite E in *.
    destruct (st k) as [d|] eqn:S0.
    - destruct H as [H|H]; [discriminate|]. exists st. split; [reflexivity|]. intros j.
      destruct (N.eqb_spec j k) as [->|]; [rewrite S0; exact H | reflexivity].
    - destruct rows as [|r rows].
      + exists st. split; [reflexivity|]. intros j. destruct (N.eqb_spec j k) as [->|]; [exact S0 | reflexivity].
      + eexists. split; [reflexivity|]. intros j. unfold updN. destruct (N.eqb_spec j k); reflexivity.
  Qed.

  Variable n : nat.
  Hypothesis Hn : (N.of_nat n + freq <= two32)%N.

  Lemma parse_meteo_ok : forall st s, (s mod freq = 0)%N -> (s < N.of_nat n)%N ->
    (exists r0, files s = Some r0) -> (exists r1, files (s + freq)%N = Some r1) ->
    ((s = 0%N /\ forall j, st j = None) \/ ((freq <= s)%N /\ window (s - freq) st)) ->
    exists st', parse_meteo files freq st s = Ok st' /\ window s st'.
  Proof.
    intros st s Hs Hlt (r0 & R0) (r1 & R1) Hw. unfold parse_meteo, uint32.
    rewrite (N.mod_small (s + freq)) by lia.
    set (e := ((s + two32 - freq) mod two32)%N).
    assert (P : forall j, updN st e None j = if (j =? s)%N then (if (s =? 0)%N then None else loaded s) else None).
    { intros j. unfold updN. destruct Hw as [[-> Hw]|[Hfs Hw]].
      - destruct (j =? e)%N; [destruct (j =? 0)%N; reflexivity|]. rewrite Hw. destruct (j =? 0)%N; reflexivity.
      - assert (e = s - freq)%N as ->.
        { unfold e. replace (s + two32 - freq)%N with ((s - freq) + 1 * two32)%N by lia.
          rewrite N.mod_add by discriminate. apply N.mod_small. lia. }
        destruct (N.eqb_spec s 0) as [|_]; [lia|].
        destruct (N.eqb_spec j (s - freq)) as [->|Nj].
        + destruct (N.eqb_spec (s - freq) s); [lia | reflexivity].
        + rewrite Hw. destruct (N.eqb_spec j (s - freq)); [lia|]. replace (s - freq + freq)%N with s by lia.
          cbn [orb]. destruct (N.eqb_spec j s) as [->|]; reflexivity. }
    destruct (load_file_ok (updN st e None) s r0 R0) as (st2 & E2 & W2).
    { rewrite P, N.eqb_refl. destruct (s =? 0)%N; auto. }
    rewrite E2. cbn [bind].
    assert (P2 : forall j, st2 j = if (j =? s)%N then loaded s else None).
    { intros j. rewrite W2. destruct (N.eqb_spec j s) as [->|Nj]; [reflexivity|]. rewrite P.
      destruct (N.eqb_spec j s); [contradiction | reflexivity]. }
    destruct (load_file_ok st2 (s + freq)%N r1 R1) as (st3 & E3 & W3).
    { rewrite P2. destruct (N.eqb_spec (s + freq) s); [lia | auto]. }
    exists st3. split; [exact E3|]. intros j. rewrite W3, P2.
    destruct (N.eqb_spec j (s + freq)) as [->|]; [rewrite orb_true_r; reflexivity|].
    rewrite orb_false_r. destruct (N.eqb_spec j s) as [->|]; reflexivity.
  Qed.

  Lemma interp_on_line : forall t0 t1 t a b, (t0 < t1)%R -> on_line t0 a t1 b t (interp1 ((t - t0) / (t1 - t0)) a b).
  Proof. intros t0 t1 t a b H. unfold on_line, interp1. field. lra. Qed.

  Lemma interpolate_ok : forall st k i t, (N.of_nat k < N.of_nat n)%N -> files_complete files freq nodes n ->
    window (base (N.of_nat k)) st ->
    exists v, interpolate_meteo freq dt t nodes st (N.of_nat k) = Ok v /\ forcing_ok files freq dt nodes (N.of_nat k, i, t) v.
  Proof.
    intros st k i t Hk Hc Hw. unfold interpolate_meteo. fold (base (N.of_nat k)).
    destruct (base_mult (N.of_nat k)) as (j & Ej & Hj). rewrite Ej in *.
    destruct (Hc j) as (rows0 & F0 & C0); [lia|].
    destruct (Hc (j + 1)%N) as (rows1 & F1 & C1); [lia|].
    replace ((j + 1) * freq)%N with (j * freq + freq)%N in F1 by ring.
    unfold uint32. rewrite (N.mod_small (j * freq + freq)) by lia.
    set (t0 := (NtoR (j * freq) * dt)%R). set (t1 := (NtoR (j * freq + freq) * dt)%R).
    assert (T : (t0 < t1)%R).
    { unfold t0, t1. rewrite NtoR_add. pose proof (NtoR_pos freq Hf). nra. }
    set (th := ((t - t0) / (t1 - t0))%R).
    assert (I : forall v, In v nodes -> exists a b, row_of rows0 v a /\ row_of rows1 v b /\
       interp_node st (j * freq) (j * freq + freq) th v = Ok (v, Met (interp1 th (m_x a) (m_x b)) (interp1 th (m_y a) (m_y b)) (interp1 th (m_p a) (m_p b)))).
    { intros v Hv. destruct (C0 v Hv) as (a & Ra). destruct (C1 v Hv) as (b & Rb). exists a, b. split; [assumption|]. split; [assumption|].
      unfold interp_node. rewrite !Hw, !N.eqb_refl, orb_true_r. cbn [orb]. unfold loaded. rewrite F0, F1.
      pose proof (dict_row _ _ _ Ra) as Da. pose proof (dict_row _ _ _ Rb) as Db.
      destruct rows0 as [|x0 rows0]; [discriminate Da|]. destruct rows1 as [|x1 rows1]; [discriminate Db|].
      rewrite Da, Db. reflexivity. }
    assert (L : forall vs acc, (forall v, In v vs -> In v nodes) ->
      exists w, ofold (fun acc node => do r <- interp_node st (j * freq) (j * freq + freq) th node ; Ok (acc ++ [r])) vs acc = Ok (acc ++ w) /\
        map fst w = vs /\ forall v r, In (v, r) w -> exists a b, row_of rows0 v a /\ row_of rows1 v b /\
          r = Met (interp1 th (m_x a) (m_x b)) (interp1 th (m_y a) (m_y b)) (interp1 th (m_p a) (m_p b))).
    { induction vs as [|v vs IH]; intros acc Hin.
      - exists []. rewrite app_nil_r. repeat split; intros ? ? [].
      - cbn [ofold]. destruct (I v (Hin v (or_introl eq_refl))) as (a & b & Ra & Rb & ->). cbn [bind].
        match goal with |- context [acc ++ [?p]] => set (pr := p) end.
        destruct (IH (acc ++ [pr])) as (w & -> & M & W); [intros; apply Hin; right; assumption|].
        exists (pr :: w). split; [rewrite <- app_assoc; reflexivity|]. split; [cbn; rewrite M; reflexivity|].
        intros v' r [E|E]; [|apply W, E]. injection E as <- <-. exists a, b. auto. }
    destruct (L nodes [] (fun v H => H)) as (w & -> & M & W). exists w. split; [reflexivity|].
    unfold forcing_ok. exists j. split; [exact Hj|]. split; [exact M|].
    intros v r Hr. destruct (W v r Hr) as (a & b & Ra & Rb & ->). exists rows0, rows1, a, b.
    repeat split; try assumption; cbn [m_x m_y m_p]; apply interp_on_line, T.
  Qed.

  (** State of the store after all calls of the first k steps. *)
  Definition after (k : nat) (st : store) : Prop :=
    match k with O => forall j, st j = None | S k' => window (base (N.of_nat k')) st end.

  Definition one_call (acc : store * list (list (N * reading))) (call : N * nat * R) :=
    do r <- parse_input files freq dt nodes (fst acc) call ; Ok (fst r, snd acc ++ [snd r]).

  Lemma one_call_eq : forall st out c, one_call (st, out) c = do r <- parse_input files freq dt nodes st c ; Ok (fst r, out ++ [snd r]).
  Proof. reflexivity. Qed.

  Lemma ofold_app : forall (A S : Type) (f : S -> A -> outcome S) l m s, ofold f (l ++ m) s = bind (ofold f l s) (ofold f m).
  Proof. intros A S0 f l m. induction l as [|a l IHl]; intros s; [reflexivity|]. cbn. destruct (f s a); cbn; [apply IHl|reflexivity|reflexivity]. Qed.

  Definition step_calls (ns : nat) (time : nat -> nat -> R) (k : nat) : list (N * nat * R) :=
    map (fun i => (N.of_nat k, i, time k i)) (seq 0 ns).

  (** The store when the first stage of step k has loaded its files. *)
  Lemma enter_step : forall k st, (k < n)%nat -> files_complete files freq nodes n -> after k st ->
    exists st', (if (N.of_nat k mod freq =? 0)%N && (0 =? 0)%nat then parse_meteo files freq st (N.of_nat k) else Ok st) = Ok st' /\
      window (base (N.of_nat k)) st'.
  Proof.
    intros k st Hk Hc Ha. rewrite andb_true_r. destruct (N.eqb_spec (N.of_nat k mod freq) 0) as [E|E].
    - rewrite (mod_base _ E). destruct (base_mult (N.of_nat k)) as (j & Ej & Hj). rewrite (mod_base _ E) in Ej.
      destruct (Hc j) as (r0 & F0 & _); [lia|]. destruct (Hc (j + 1)%N) as (r1 & F1 & _); [lia|].
      apply parse_meteo_ok; [exact E | lia | exists r0; rewrite Ej; exact F0 | exists r1; rewrite Ej; rewrite <- F1; f_equal; ring |].
      destruct k as [|k].
      + left. split; [reflexivity | exact Ha].
      + right. cbn [after] in Ha. assert (B : (base (N.of_nat k) + freq = N.of_nat (S k))%N).
        { rewrite Nat2N.inj_succ, <- N.add_1_r in *. apply base_next, E. }
        split; [lia|]. replace (N.of_nat (S k) - freq)%N with (base (N.of_nat k)) by lia. exact Ha.
    - exists st. split; [reflexivity|]. destruct k as [|k]; [exfalso; apply E; reflexivity|].
      cbn [after] in Ha. rewrite Nat2N.inj_succ, <- N.add_1_r in *. rewrite base_keep by exact E. exact Ha.
  Qed.

  Lemma later_stage : forall k i st t, (k < n)%nat -> (i <> 0)%nat -> files_complete files freq nodes n ->
    window (base (N.of_nat k)) st ->
    exists v, parse_input files freq dt nodes st (N.of_nat k, i, t) = Ok (st, v) /\ forcing_ok files freq dt nodes (N.of_nat k, i, t) v.
  Proof.
    intros k i st t Hk Hi Hc Hw. unfold parse_input. rewrite (proj2 (N.eqb_neq _ _) Hf), (proj2 (Nat.eqb_neq _ _) Hi), andb_false_r.
    cbn [bind]. destruct (interpolate_ok st k i t) as (v & -> & V); [lia | assumption | assumption |].
    exists v. split; [reflexivity | exact V].
  Qed.

  Lemma step_ok : forall ns time k st out, (k < n)%nat -> (ns <> 0)%nat -> files_complete files freq nodes n -> after k st ->
    exists st' v, ofold one_call (step_calls ns time k) (st, out) = Ok (st', out ++ v) /\ after (S k) st' /\
      Forall2 (forcing_ok files freq dt nodes) (step_calls ns time k) v.
  Proof.
    intros ns time k st out Hk Hns Hc Ha. destruct ns as [|ns]; [contradiction|].
    unfold step_calls. cbn [seq map ofold]. rewrite one_call_eq.
    destruct (enter_step k st Hk Hc Ha) as (st1 & E1 & W1).
    assert (P : exists v0, parse_input files freq dt nodes st (N.of_nat k, 0%nat, time k 0%nat) = Ok (st1, v0) /\
      forcing_ok files freq dt nodes (N.of_nat k, 0%nat, time k 0%nat) v0).
    { unfold parse_input. rewrite (proj2 (N.eqb_neq _ _) Hf). rewrite E1. cbn [bind].
      destruct (interpolate_ok st1 k 0 (time k 0%nat)) as (v & -> & V); [lia | assumption | assumption |].
      exists v. split; [reflexivity | exact V]. }
    destruct P as (v0 & -> & V0). cbn [bind fst snd].
    assert (Q : forall l out, (forall i, In i l -> i <> 0%nat) -> exists v,
      ofold one_call (map (fun i => (N.of_nat k, i, time k i)) l) (st1, out) = Ok (st1, out ++ v) /\
      Forall2 (forcing_ok files freq dt nodes) (map (fun i => (N.of_nat k, i, time k i)) l) v).
    { induction l as [|i l IH]; intros o Hl.
      - exists []. cbn. rewrite app_nil_r. auto.
      - cbn [map ofold]. rewrite one_call_eq.
        destruct (later_stage k i st1 (time k i)) as (v & -> & V); [assumption | apply Hl; left; reflexivity | assumption | assumption |].
        cbn [bind fst snd]. destruct (IH (o ++ [v])) as (w & -> & Wf); [intros; apply Hl; right; assumption|].
        exists (v :: w). rewrite <- app_assoc. auto. }
    destruct (Q (seq 1 ns) (out ++ [v0])) as (v & -> & V).
    { intros i Hi. apply in_seq in Hi. lia. }
    exists st1, (v0 :: v). rewrite <- app_assoc. repeat split; [exact W1 | constructor; assumption].
  Qed.

  Lemma steps_ok : forall ns time m, (m <= n)%nat -> (ns <> 0)%nat -> files_complete files freq nodes n ->
    exists st v, meteo_run files freq dt nodes (run_calls m ns time) = Ok (st, v) /\ after m st /\
      Forall2 (forcing_ok files freq dt nodes) (run_calls m ns time) v.
  Proof.
    intros ns time m Hm Hns Hc. induction m as [|m IH].
    - exists (fun _ => None), []. repeat split; constructor.
    - destruct IH as (st & v & E & A & F); [lia|].
      unfold run_calls. rewrite seq_S, flat_map_app. fold (run_calls m ns time).
      cbn [plus flat_map]. rewrite app_nil_r. fold (step_calls ns time m).
      unfold meteo_run. fold one_call. rewrite ofold_app. unfold meteo_run in E. fold one_call in E. rewrite E. cbn [bind].
      destruct (step_ok ns time m st v) as (st' & w & -> & A' & F'); [lia | assumption | assumption | assumption |].
      exists st', (v ++ w). repeat split; [exact A' | apply Forall2_app; assumption].
  Qed.
End Run.

Lemma meteo_run_ok : forall files freq dt nodes n ns time, (freq <> 0)%N -> (0 < dt)%R -> (N.of_nat n + freq <= two32)%N ->
  (ns <> 0)%nat -> files_complete files freq nodes n ->
  exists st v, meteo_run files freq dt nodes (run_calls n ns time) = Ok (st, v) /\
    Forall2 (forcing_ok files freq dt nodes) (run_calls n ns time) v /\
    exists j, forall k, st k <> None -> (k = j * freq \/ k = j * freq + freq)%N.
Proof.
  intros files freq dt nodes n ns time Hf Hdt Hn Hns Hc.
  destruct (steps_ok files freq dt nodes Hf Hdt n Hn ns time n (Nat.le_refl _) Hns Hc) as (st & v & E & A & F).
  exists st, v. split; [exact E|]. split; [exact F|]. destruct n as [|n].
  - exists 0%N. intros k Hk. exfalso. apply Hk, A.
  - cbn [after] in A. destruct (base_mult freq Hf (N.of_nat n)) as (j & Ej & _). exists j. intros k Hk.
    rewrite A, Ej in Hk. destruct (N.eqb_spec k (j * freq)); [left; assumption|].
    destruct (N.eqb_spec k (j * freq + freq)); [right; assumption|]. exfalso. apply Hk. reflexivity.
Qed.

(** The first file that is missing stops the run when its step comes up. *)
Lemma meteo_missing_file : forall files freq dt nodes n ns time m, (freq <> 0)%N -> (0 < dt)%R -> (N.of_nat n + freq <= two32)%N ->
  (ns <> 0)%nat -> (m < n)%nat -> (N.of_nat m mod freq = 0)%N -> files_complete files freq nodes m ->
  files (N.of_nat m + freq)%N = None \/ (m = 0%nat /\ files 0%N = None) ->
  meteo_run files freq dt nodes (run_calls n ns time) = Throw.
Proof.
  intros files freq dt nodes n ns time m Hf Hdt Hn Hns Hm Hmod Hc Hmiss.
  destruct (steps_ok files freq dt nodes Hf Hdt m ltac:(lia) ns time m (Nat.le_refl _) Hns Hc) as (st & v & E & A & _).
  assert (S : run_calls n ns time = run_calls m ns time ++ step_calls ns time m ++ flat_map (step_calls ns time) (seq (S m) (n - S m))).
  { unfold run_calls. replace n with (m + (1 + (n - 1 - m)))%nat by lia. rewrite seq_app, flat_map_app. f_equal.
    cbn [plus seq flat_map]. f_equal. replace (m + S (n - 1 - m) - S m)%nat with (n - 1 - m)%nat by lia. reflexivity. }
  rewrite S. unfold meteo_run. rewrite ofold_app. unfold meteo_run in E. rewrite E. cbn [bind].
  destruct ns as [|ns]; [contradiction|]. unfold step_calls at 1. cbn [seq map app ofold]. cbn [fst snd].
  unfold parse_input. rewrite (proj2 (N.eqb_neq _ _) Hf), Hmod. cbn [N.eqb Nat.eqb andb].
  assert (P : parse_meteo files freq st (N.of_nat m) = Throw); [|rewrite P; reflexivity].
  unfold parse_meteo, uint32. rewrite (N.mod_small (N.of_nat m + freq)) by lia.
  set (e := ((N.of_nat m + two32 - freq) mod two32)%N).
  unfold load_file at 1. set (st1 := updN st e None).
  assert (Z : forall st2, (st2 (N.of_nat m + freq)%N = None) -> files (N.of_nat m + freq)%N = None -> load_file files st2 (N.of_nat m + freq)%N = Throw).
  { intros st2 Z1 Z2. unfold load_file. rewrite Z1, Z2. reflexivity. }
  assert (N2 : st1 (N.of_nat m + freq)%N = None).
  { unfold st1, updN. destruct (_ =? e)%N; [reflexivity|]. destruct m as [|m].
    - apply A.
    - cbn [after] in A. rewrite A.
      assert (B : (base freq (N.of_nat m) + freq = N.of_nat (Datatypes.S m))%N).
      { rewrite Nat2N.inj_succ, <- N.add_1_r in *. apply base_next; assumption. }
      destruct (N.eqb_spec (N.of_nat (Datatypes.S m) + freq) (base freq (N.of_nat m))); [lia|].
      destruct (N.eqb_spec (N.of_nat (Datatypes.S m) + freq) (base freq (N.of_nat m) + freq)); [lia|]. reflexivity. }
  destruct (st1 (N.of_nat m)) eqn:E1.
  - cbn [bind]. destruct Hmiss as [H|[-> H]]; [apply Z; assumption|].
    exfalso. revert E1. unfold st1, updN. destruct (_ =? e)%N; [discriminate|]. cbn [after] in A. rewrite A. discriminate.
  - destruct (files (N.of_nat m)) as [[|r rows]|] eqn:F; [| |reflexivity]; cbn [bind];
    (destruct Hmiss as [H|[-> H]]; [apply Z; [|exact H] | cbn in F; rewrite H in F; discriminate]); [exact N2|].
    unfold updN. destruct (N.eqb_spec (N.of_nat m + freq) (N.of_nat m)); [lia | exact N2].
Qed.

Lemma on_line_between : forall t0 a t1 b t y, (t0 < t1)%R -> on_line t0 a t1 b t y ->
  (t = t0 -> y = a) /\ (t = t1 -> y = b) /\ ((t0 <= t <= t1)%R -> between a y b).
Proof.
  intros t0 a t1 b t y H L. unfold on_line, between in *. split; [|split].
  - intros ->. nra.
  - intros ->. apply Rmult_eq_reg_r with (t1 - t0)%R; lra.
  - intros Ht. assert (Y : y = (a + (t - t0) / (t1 - t0) * (b - a))%R).
    { apply Rmult_eq_reg_r with (t1 - t0)%R; [|lra]. field_simplify; lra. }
    set (th := ((t - t0) / (t1 - t0))%R) in *.
    assert (0 <= th)%R by (apply Rmult_le_pos; [lra | left; apply Rinv_0_lt_compat; lra]).
    assert (th <= 1)%R.
    { apply Rmult_le_reg_r with (t1 - t0)%R; [lra|]. unfold th, Rdiv. rewrite Rmult_assoc, Rinv_l by lra. lra. }
    unfold Rmin, Rmax. destruct (Rle_dec a b); nra.
Qed.

(** Stage times of a step lie inside its window. *)
Lemma stage_in_window : forall freq dt j step t, (0 < dt)%R -> (j * freq <= step < j * freq + freq)%N ->
  (NtoR step * dt <= t <= NtoR (step + 1) * dt)%R -> (NtoR (j * freq) * dt <= t <= NtoR (j * freq + freq) * dt)%R.
Proof.
  intros freq dt j step t Hd Hj Ht.
  assert (A : (NtoR (j * freq) <= NtoR step)%R) by (unfold NtoR; apply IZR_le; lia).
  assert (B : (NtoR (step + 1) <= NtoR (j * freq + freq))%R) by (unfold NtoR; apply IZR_le; lia).
  nra.
Qed.

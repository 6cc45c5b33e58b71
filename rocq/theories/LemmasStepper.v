From Coq Require Import ZArith QArith Qabs List Bool Arith Reals Qreals Lra Lia Psatz.
From Verif Require Import Num ModelSWE ModelStepper SpecStepper LemmasSWE.
Import ListNotations.

(** ** Clock and counters *)
Lemma stepper_incr_fields : forall s,
  st_nstages (stepper_incr s) = st_nstages s /\ st_order (stepper_incr s) = st_order s /\
  st_dt (stepper_incr s) = st_dt s /\ st_has_ramp (stepper_incr s) = st_has_ramp s /\
  st_ramp_duration (stepper_incr s) = st_ramp_duration s /\
  st_stage (stepper_incr s) = Nat.modulo (st_stage s + 1) (st_nstages s) /\
  st_timestamp (stepper_incr s) = (st_timestamp s + 1)%nat /\
  st_step (stepper_incr s) = (if Nat.eqb (Nat.modulo (st_stage s + 1) (st_nstages s)) 0 then st_step s + 1 else st_step s)%nat /\
  st_t (stepper_incr s) = (if Nat.eqb (Nat.modulo (st_stage s + 1) (st_nstages s)) 0 then st_t s + st_dt s else st_t s)%R.
Proof. intros s; unfold stepper_incr; destruct (st_has_ramp s); cbn; repeat split. Qed.

Definition incr_n (k : nat) (s : stepper) : stepper := Nat.iter k stepper_incr s.

Lemma div_mod_succ : forall k n, (n <> 0)%nat ->
  Nat.modulo (S k) n = Nat.modulo (Nat.modulo k n + 1) n /\
  Nat.div (S k) n = (if Nat.eqb (Nat.modulo (Nat.modulo k n + 1) n) 0 then Nat.div k n + 1 else Nat.div k n)%nat.
Proof.
  intros k n Hn.
  assert (E : Nat.modulo (S k) n = Nat.modulo (Nat.modulo k n + 1) n).
  { rewrite Nat.add_mod_idemp_l by assumption. f_equal; lia. }
  split; [exact E|]. rewrite <- E.
  pose proof (Nat.div_mod k n Hn) as D. pose proof (Nat.mod_upper_bound k n Hn) as U.
  destruct (Nat.eq_dec (Nat.modulo k n + 1) n) as [L|L].
  - assert (F : Nat.modulo (S k) n = 0%nat) by (rewrite E, L; apply Nat.mod_same; assumption).
    rewrite F; cbn [Nat.eqb]. symmetry. apply (Nat.div_unique (S k) n _ 0); lia.
  - assert (F : Nat.modulo (S k) n = (Nat.modulo k n + 1)%nat) by (rewrite E; apply Nat.mod_small; lia).
    rewrite F. replace (Nat.eqb (Nat.modulo k n + 1) 0) with false by (symmetry; apply Nat.eqb_neq; lia).
    symmetry. apply (Nat.div_unique (S k) n _ (Nat.modulo k n + 1)); lia.
Qed.

Lemma incr_n_fields : forall n p dt hr rd k, (n <> 0)%nat ->
  let s := incr_n k (stepper_init n p dt hr rd) in
  st_nstages s = n /\ st_order s = p /\ st_dt s = dt /\ st_has_ramp s = hr /\ st_ramp_duration s = rd /\
  st_stage s = Nat.modulo k n /\ st_step s = Nat.div k n /\ st_timestamp s = k /\
  st_t s = (INR (Nat.div k n) * dt)%R.
Proof.
  intros n p dt hr rd k Hn; induction k as [|k IH].
  - cbn. rewrite Nat.mod_0_l, Nat.div_0_l by assumption. repeat split; cbn; ring.
  - cbv zeta in IH |- *. destruct IH as (I1 & I2 & I3 & I4 & I5 & I6 & I7 & I8 & I9).
    change (incr_n (S k) (stepper_init n p dt hr rd)) with (stepper_incr (incr_n k (stepper_init n p dt hr rd))).
    set (s := incr_n k (stepper_init n p dt hr rd)) in *.
    destruct (stepper_incr_fields s) as (F1 & F2 & F3 & F4 & F5 & F6 & F7 & F8 & F9).
    rewrite F1, F2, F3, F4, F5, F6, F7, F8, F9, I1, I2, I3, I4, I5, I6, I7, I8, I9.
    destruct (div_mod_succ k n Hn) as [E1 E2]. rewrite E1, E2.
    repeat split; try lia.
    destruct (Nat.eqb (Nat.modulo (Nat.modulo k n + 1) n) 0); [|reflexivity]. rewrite plus_INR. cbn. ring.
Qed.

Definition all_schemes : list (nat * nat) :=
  [(1, 1); (2, 2); (3, 3); (4, 3); (5, 3); (6, 3); (7, 3); (8, 3); (5, 4); (6, 4); (7, 4); (8, 4)]%nat.

Lemma rk_table_in : forall n p A B, rk_table n p = Some (A, B) -> In (n, p) all_schemes.
Proof.
  intros n p A B H. unfold all_schemes.
  do 9 (destruct n as [|n]; [do 5 (destruct p as [|p]; [first [discriminate H | cbn [In]; tauto]|]); discriminate|]).
  discriminate.
Qed.

(** Property checked by computation for each scheme. *)
Lemma scheme_forall : forall (P : nat -> nat -> list (list Q) -> list (list Q) -> bool),
  forallb (fun np => match rk_table (fst np) (snd np) with Some (A, B) => P (fst np) (snd np) A B | None => false end)
    all_schemes = true ->
  forall n p A B, rk_table n p = Some (A, B) -> P n p A B = true.
Proof.
  intros P H n p A B E. rewrite forallb_forall in H.
  specialize (H (n, p) (rk_table_in n p A B E)). cbn [fst snd] in H. rewrite E in H. exact H.
Qed.

Lemma drk_zero : forall n p k, (k < n)%nat -> drk_of n p k = 0%Q.
Proof.
  intros n p k Hk. unfold drk_of. destruct (rk_table n p) as [[A B]|] eqn:E; [|reflexivity].
  pose proof (scheme_forall (fun n p A B => forallb (fun k =>
     let x := drk_loop n (crk_loop n (entry A) (entry B)) k in Z.eqb (Qnum x) 0 && Pos.eqb (Qden x) 1) (seq 0 n))
     ltac:(vm_compute; reflexivity) n p A B E) as H. cbv beta in H.
  rewrite forallb_forall in H. specialize (H k ltac:(apply in_seq; lia)).
  apply andb_true_iff in H as [H1 H2]. apply Z.eqb_eq in H1. apply Pos.eqb_eq in H2.
  destruct (drk_loop n _ k) as [a b]; cbn in *; subst; reflexivity.
Qed.

(** ** Ramp *)
Lemma tanhR_bounds : forall x, (0 <= x)%R -> (0 <= tanhR x < 1)%R.
Proof.
  intros x Hx. unfold tanhR.
  pose proof (exp_pos x). pose proof (exp_pos (- x)).
  assert (exp (- x) <= exp x)%R.
  { destruct (Rle_lt_or_eq_dec 0 x Hx) as [H1|H1]; [|subst; rewrite Ropp_0; lra].
    left; apply exp_increasing; lra. }
  split.
  - apply Rmult_le_pos; [lra|]. left; apply Rinv_0_lt_compat; lra.
  - apply Rmult_lt_reg_r with (exp x + exp (- x))%R; [lra|].
    unfold Rdiv. rewrite Rmult_assoc, Rinv_l by lra. lra.
Qed.

Lemma stage_lt : forall n p dt hr rd k, (n <> 0)%nat ->
  (st_stage (incr_n k (stepper_init n p dt hr rd)) < n)%nat.
Proof.
  intros n p dt hr rd k Hn. destruct (incr_n_fields n p dt hr rd k Hn) as (_&_&_&_&_&E&_).
  cbv zeta in E. rewrite E. apply Nat.mod_upper_bound; assumption.
Qed.

(** The reported stage time is always the time of the last completed step. *)
Lemma reported_time : forall n p dt hr rd k, (n <> 0)%nat ->
  time_at_stage (incr_n k (stepper_init n p dt hr rd)) = (INR (Nat.div k n) * dt)%R.
Proof.
  intros n p dt hr rd k Hn. unfold time_at_stage.
  pose proof (stage_lt n p dt hr rd k Hn) as L.
  destruct (incr_n_fields n p dt hr rd k Hn) as (E1&E2&E3&_&_&_&_&_&E9). cbv zeta in *.
  rewrite E1, E2, E3, E9, drk_zero by assumption. rewrite RMicromega.Q2R_0. ring.
Qed.

Lemma ramp_value : forall n p dt rd k, (n <> 0)%nat ->
  let s := incr_n (S k) (stepper_init n p dt true rd) in
  st_ramp s = tanhR (2 * (time_at_stage s / 86400) / rd).
Proof.
  intros n p dt rd k Hn s. unfold s.
  change (incr_n (S k) (stepper_init n p dt true rd)) with (stepper_incr (incr_n k (stepper_init n p dt true rd))).
  set (u := incr_n k (stepper_init n p dt true rd)).
  destruct (incr_n_fields n p dt true rd k Hn) as (E1&E2&E3&E4&E5&_). cbv zeta in *. fold u in E1, E2, E3, E4, E5.
  unfold stepper_incr. rewrite E4. cbn [st_ramp]. rewrite E5. reflexivity.
Qed.

Lemma ramp_bounds : forall n p dt rd k, (n <> 0)%nat -> (0 <= dt)%R -> (0 < rd)%R ->
  (0 <= st_ramp (incr_n k (stepper_init n p dt true rd)) < 1)%R.
Proof.
  intros n p dt rd k Hn Hd Hr. destruct k as [|k]; [cbn; lra|].
  rewrite (ramp_value n p dt rd k Hn), (reported_time n p dt true rd (S k) Hn).
  apply tanhR_bounds.
  apply Rmult_le_pos; [|left; apply Rinv_0_lt_compat; assumption].
  pose proof (pos_INR (Nat.div (S k) n)).
  assert (0 <= INR (Nat.div (S k) n) * dt)%R by (apply Rmult_le_pos; assumption). lra.
Qed.

Lemma ramp_off : forall n p dt rd k, (n <> 0)%nat ->
  st_ramp (incr_n k (stepper_init n p dt false rd)) = 1%R.
Proof.
  intros n p dt rd k Hn. induction k as [|k IH]; [reflexivity|].
  change (incr_n (S k) (stepper_init n p dt false rd)) with (stepper_incr (incr_n k (stepper_init n p dt false rd))).
  destruct (incr_n_fields n p dt false rd k Hn) as (_&_&_&E4&_). cbv zeta in *.
  unfold stepper_incr. rewrite E4. cbn [st_ramp]. exact IH.
Qed.

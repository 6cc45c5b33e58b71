(** Properties C09-C12: explicit and implicit time steppers. *)
From Coq Require Import ZArith QArith Qabs List Bool Arith Reals Qreals Lra Lia.
From Verif Require Import Num ModelSWE ModelStepper SpecStepper LemmasSWE LemmasStepper LemmasRK LemmasRK2.
Import ListNotations.

(** ** C09 *)
Theorem C09_step_stage_clock : forall n p dt hr rd k, (n <> 0)%nat ->
  let s := Nat.iter k stepper_incr (stepper_init n p dt hr rd) in
  st_step s = Nat.div k n /\ st_stage s = Nat.modulo k n /\ st_timestamp s = k /\
  st_t s = (INR (Nat.div k n) * dt)%R /\
  st_dt s = dt /\ st_nstages s = n /\ st_order s = p.
Proof.
  intros n p dt hr rd k Hn. destruct (incr_n_fields n p dt hr rd k Hn) as (?&?&?&?&?&?&?&?&?).
  repeat split; assumption.
Qed.
Print Assumptions C09_step_stage_clock.

Theorem C09_ramp : forall n p dt rd k, (n <> 0)%nat -> (0 <= dt)%R -> (0 < rd)%R ->
  (0 <= st_ramp (Nat.iter k stepper_incr (stepper_init n p dt true rd)) < 1)%R /\
  st_ramp (Nat.iter k stepper_incr (stepper_init n p dt false rd)) = 1%R /\
  (k <> 0%nat ->
   st_ramp (Nat.iter k stepper_incr (stepper_init n p dt true rd)) =
   tanhR (2 * ((INR (Nat.div k n) * dt) / 86400) / rd)).
Proof.
  intros n p dt rd k Hn Hd Hr. split; [exact (ramp_bounds n p dt rd k Hn Hd Hr)|].
  split; [exact (ramp_off n p dt rd k Hn)|].
  intros Hk. destruct k as [|k]; [congruence|].
  pose proof (ramp_value n p dt rd k Hn) as E. cbv zeta in E.
  rewrite (reported_time n p dt true rd (S k) Hn) in E. exact E.
Qed.
Print Assumptions C09_ramp.

Theorem C09_implicit_clock : forall n dt hr rd k, (n <> 0)%nat ->
  let s := Nat.iter k istepper_incr (istepper_init n dt hr rd) in
  is_step s = Nat.div k n /\ is_stage s = Nat.modulo k n /\ is_timestamp s = k /\
  itime_now s = (INR (Nat.div k n) * dt)%R /\ itime_next s = (INR (Nat.div k n + 1) * dt)%R.
Proof. exact incr_n_ifields. Qed.
Print Assumptions C09_implicit_clock.

(** With the single-stage schemes the implicit stepper accepts, the ramp used
    for the new time level of one step is the ramp of the old level of the
    next one, and both are the ramp function at the respective clock time. *)
Theorem C09_implicit_ramp : forall dt rd k, (0 < rd)%R ->
  let s := Nat.iter k istepper_incr (istepper_init 1 dt true rd) in
  is_ramp s = tanhR (2 * (itime_now s / 86400) / rd) /\
  is_ramp_next s = tanhR (2 * (itime_next s / 86400) / rd).
Proof. exact iramp_levels. Qed.
Print Assumptions C09_implicit_ramp.
(** The implicit stepper accepts exactly backward Euler (theta = 0) and, for one or
    two stages, the trapezoidal rule (theta = 1/2), each taken in one stage. *)
Theorem C09_implicit_scheme : forall order n k th, implicit_scheme order n = Some (k, th) <->
  (order = 1 /\ n = 1 /\ k = 1 /\ th = 0%Q)%nat \/ (order = 2 /\ (n = 1 \/ n = 2) /\ k = 1 /\ th = (1 # 2)%Q)%nat.
Proof. exact implicit_schemes. Qed.
Print Assumptions C09_implicit_scheme.

Example C09_ex : (let s := Nat.iter 11 stepper_incr (stepper_init 3 3 1 false 1) in
  (st_step s, st_stage s, st_timestamp s)) = (3%nat, 2%nat, 11%nat).
Proof. reflexivity. Qed.
Example C09_ex_t : st_t (Nat.iter 11 stepper_incr (stepper_init 3 3 (1/4) false 1)) = (3/4)%R.
Proof. destruct (C09_step_stage_clock 3 3 (1/4) false 1 11 ltac:(lia)) as (_&_&_&E&_). cbv zeta in E. rewrite E. cbn. lra. Qed.

(** ** C10 *)
Theorem C10_supported_schemes : forall n p, rk_table n p <> None <->
  In (n, p) [(1, 1); (2, 2); (3, 3); (4, 3); (5, 3); (6, 3); (7, 3); (8, 3); (5, 4); (6, 4); (7, 4); (8, 4)]%nat.
Proof. exact supported_schemes. Qed.
Print Assumptions C10_supported_schemes.

(** Coefficients are non-negative, a vanishing state weight has a vanishing
    right-hand-side weight, and each row of state weights sums to 1. *)
Theorem C10_coefficients : forall n p A B, rk_table n p = Some (A, B) -> forall k, (k < n)%nat ->
  (forall s, (s <= k)%nat ->
     (0 <= entry A k s)%Q /\ (0 <= entry B k s)%Q /\ (entry A k s == 0 -> entry B k s == 0)%Q) /\
  (Qabs (qsum (S k) (entry A k) - 1) <= 1 # 100000000000000)%Q.
Proof. exact coefficients. Qed.
Print Assumptions C10_coefficients.

(** What one pass over all stages computes, including the final swap: the
    right-hand side of stage k sees the state of stage k, and the new state
    is the last Shu-Osher combination. *)
Theorem C10_step_is_shu_osher : forall (I : Type) A B dt n (f : nat -> (I -> R) -> (I -> R))
    (st : (nat -> I -> R) * (nat -> I -> R)), (0 < n)%nat ->
  exists Qs : nat -> I -> R,
    Qs 0%nat = fst st 0%nat /\
    shu_osher (entry A) (entry B) dt n Qs (fun k => f k (Qs k)) /\
    fst (rk_step A B dt n (fun k arr => f k (arr k)) st) 0%nat = Qs n.
Proof. exact rk_step_local. Qed.
Print Assumptions C10_step_is_shu_osher.

(** A quantity whose spatial rate is zero in every stage. *)
Theorem C10_linear_invariant : forall (I : Type) (L : (I -> R) -> R) n p A B dt f
    (st : (nat -> I -> R) * (nat -> I -> R)),
  rk_table n p = Some (A, B) -> linear_functional L -> (forall k x, L (f k x) = 0%R) ->
  let new := fst (rk_step A B dt n (fun k arr => f k (arr k)) st) 0%nat in
  (Rabs (L new - L (fst st 0%nat)) <= Q2R (1 # 10000000000000) * Rabs (L (fst st 0%nat)))%R /\
  (In (n, p) [(1, 1); (2, 2); (3, 3); (4, 3); (6, 3); (7, 4); (8, 4)]%nat -> L new = L (fst st 0%nat)).
Proof. exact linear_invariant. Qed.
Print Assumptions C10_linear_invariant.

(** A quantity produced at constant rate c (rain, source) grows by dt*c. *)
Theorem C10_linear_balance : forall (I : Type) (L : (I -> R) -> R) n p A B dt f c
    (st : (nat -> I -> R) * (nat -> I -> R)),
  rk_table n p = Some (A, B) -> linear_functional L -> (forall k x, L (f k x) = c) -> (0 <= dt)%R ->
  let new := fst (rk_step A B dt n (fun k arr => f k (arr k)) st) 0%nat in
  (Rabs (L new - (L (fst st 0%nat) + dt * c))
   <= Q2R (1 # 10000000000000) * Rabs (L (fst st 0%nat)) + Q2R (1 # 10000000000) * (dt * Rabs c))%R.
Proof. exact linear_balance. Qed.
Print Assumptions C10_linear_balance.

(** Strong stability: any sublinear functional that forward Euler steps of
    size up to dtFE do not increase is not increased (beyond the coefficients'
    rounding) by a full step of size dt, for 3 dt <= dtFE; more precisely
    whenever dt b_ks <= dtFE a_ks for all coefficients. *)
Theorem C10_strong_stability : forall (I : Type) (N : (I -> R) -> R) n p A B dt dtFE f
    (st : (nat -> I -> R) * (nat -> I -> R)),
  rk_table n p = Some (A, B) -> sublinear N -> (0 <= N (fst st 0%nat))%R -> (0 <= dt)%R ->
  (forall k s, (k < n)%nat -> (s <= k)%nat -> (dt * Q2R (entry B k s) <= dtFE * Q2R (entry A k s))%R) ->
  (forall k x h, (0 <= h <= dtFE)%R -> (N (fun i => x i + h * f k x i) <= N x)%R) ->
  (N (fst (rk_step A B dt n (fun k arr => f k (arr k)) st) 0%nat)
   <= (1 + Q2R (1 # 10000000000000)) * N (fst st 0%nat))%R.
Proof. exact strong_stability. Qed.
Print Assumptions C10_strong_stability.
Theorem C10_strong_stability_cfl : forall n p A B dt dtFE,
  rk_table n p = Some (A, B) -> (0 <= dt)%R -> (3 * dt <= dtFE)%R ->
  forall k s, (k < n)%nat -> (s <= k)%nat -> (dt * Q2R (entry B k s) <= dtFE * Q2R (entry A k s))%R.
Proof. exact cfl3. Qed.
Print Assumptions C10_strong_stability_cfl.

Example C10_ex : qsum 2 (entry (fst rk_2_2) 1) = 1%Q /\ entry (snd rk_2_2) 1 0 = 0%Q /\ entry (snd rk_2_2) 1 1 = (1#2)%Q.
Proof. vm_compute. repeat split. Qed.

(** ** C11 *)
Theorem C11_order_conditions : forall n p A B, rk_table n p = Some (A, B) ->
  exists (r : nat -> Q) (M : nat -> nat -> Q),
    (forall (I : Type) dt (Qs sols : nat -> I -> R),
       shu_osher (entry A) (entry B) dt n Qs sols -> butcher_form r M dt n Qs sols) /\
    (forall k j, (j < n)%nat -> (k <= j)%nat -> (M k j == 0)%Q) /\
    (forall k, (k <= n)%nat -> (Qabs (r k - 1) <= 1 # 10000000000000)%Q) /\
    (forall e, In e (order_residuals M n p) -> (Qabs e <= rk_accuracy n p)%Q).
Proof. exact order_conditions. Qed.
Print Assumptions C11_order_conditions.

Theorem C11_linear_test : forall n p A B, rk_table n p = Some (A, B) ->
  exists P : list Q, length P = S n /\
    (forall (I : Type) dt lam (st : (nat -> I -> R) * (nat -> I -> R)) i,
       fst (rk_step A B dt n (fun k arr i => (lam * arr k i)%R) st) 0%nat i
       = (peval P (dt * lam) * fst st 0%nat i)%R) /\
    (forall d, (d <= p)%nat -> (Qabs (nth d P 0 - / qfact d) <= 1 # 10000000000)%Q).
Proof. exact linear_test. Qed.
Print Assumptions C11_linear_test.

(** Butcher tableau of the two-stage scheme (Heun) from the code's table. *)
Example C11_ex : (bM (entry (fst rk_2_2)) (entry (snd rk_2_2)) 2 2 0,
                  bM (entry (fst rk_2_2)) (entry (snd rk_2_2)) 2 2 1,
                  bM (entry (fst rk_2_2)) (entry (snd rk_2_2)) 2 1 0) = ((1#2)%Q, (1#2)%Q, 1%Q).
Proof. vm_compute. reflexivity. Qed.
(** The two-stage scheme does not satisfy a third-order condition. *)
Example C11_ex_neg : Qle_bool (Qabs (nth 3 (order_residuals (bM (entry (fst rk_2_2)) (entry (snd rk_2_2)) 2) 2 3) 0%Q)) (1 # 10000000000) = false.
Proof. vm_compute. reflexivity. Qed.

(** ** C12 *)
(** The reported time never advances inside a step. *)
Theorem C12_reported_time : forall n p dt hr rd k, (n <> 0)%nat ->
  time_at_stage (Nat.iter k stepper_incr (stepper_init n p dt hr rd)) = (INR (Nat.div k n) * dt)%R.
Proof. exact reported_time. Qed.
Print Assumptions C12_reported_time.

(** For y' = 1, y(0) = 0 the stage-1 state of every scheme with two or more
    stages is dt times a coefficient b00 >= 0.1, while the time reported in stage 1 is 0. *)
Theorem C12_stage_time_refuted : forall n p A B, rk_table n p = Some (A, B) -> (2 <= n)%nat ->
  forall dt hr rd, (0 < dt)%R ->
  exists Qs : nat -> unit -> R,
    (forall u, Qs 0%nat u = 0%R) /\
    shu_osher (entry A) (entry B) dt n Qs (fun _ _ => 1%R) /\
    Qs 1%nat tt <> time_at_stage (Nat.iter 1 stepper_incr (stepper_init n p dt hr rd)) /\
    (Qs 1%nat tt - time_at_stage (Nat.iter 1 stepper_incr (stepper_init n p dt hr rd)) >= dt / 10)%R.
Proof. exact stage_time_wrong. Qed.
Print Assumptions C12_stage_time_refuted.

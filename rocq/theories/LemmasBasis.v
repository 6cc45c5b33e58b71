(** Jacobi polynomials: the recurrence of the code gives the classical
    polynomials; derivatives; orthogonality and norms for b = 0. *)
From Coq Require Import ZArith Reals Lra Lia Arith List Bool.
From Coquelicot Require Import Coquelicot.
From Verif Require Import Num ModelSWE ModelBasis SpecBasis LemmasSWE.
Import ListNotations.
Open Scope R_scope.

(** ** Finite sums *)
Lemma bsum_ext : forall n f g, (forall i, (i < n)%nat -> f i = g i) -> bsum n f = bsum n g.
Proof. induction n as [|n IH]; intros f g H; cbn; [reflexivity|]. rewrite (IH f g), H by auto. reflexivity. Qed.
Lemma bsum_plus : forall n f g, bsum n (fun i => f i + g i) = bsum n f + bsum n g.
Proof. induction n as [|n IH]; intros f g; cbn; [ring|]. rewrite IH. ring. Qed.
Lemma bsum_scal : forall n c f, bsum n (fun i => c * f i) = c * bsum n f.
Proof. induction n as [|n IH]; intros c f; cbn; [ring|]. rewrite IH. ring. Qed.
Lemma bsum_0 : forall n, bsum n (fun _ => 0) = 0.
Proof. induction n as [|n IH]; cbn; [reflexivity|]. rewrite IH. ring. Qed.
Lemma bsum_shift : forall n f, bsum (S n) f = f 0%nat + bsum n (fun i => f (S i)).
Proof. induction n as [|n IH]; intros f; [cbn; ring|]. cbn [bsum] in *. rewrite IH. ring. Qed.
Lemma bsum_extend : forall m n f, (n <= m)%nat -> (forall j, (n <= j < m)%nat -> f j = 0) -> bsum m f = bsum n f.
Proof.
  induction m as [|m IH]; intros n f L H; [replace n with 0%nat by lia; reflexivity|].
  destruct (Nat.eq_dec n (S m)) as [->|N]; [reflexivity|].
  cbn [bsum]. rewrite (IH n), H by (try lia; intros; apply H; lia). ring.
Qed.
Lemma bsum_swap : forall n m (f : nat -> nat -> R), bsum n (fun i => bsum m (f i)) = bsum m (fun j => bsum n (fun i => f i j)).
Proof.
  induction n as [|n IH]; intros m f; cbn [bsum]; [rewrite bsum_0; reflexivity|]. rewrite IH, <- bsum_plus. reflexivity.
Qed.

(** ** Coefficients with a total convention outside the range *)
Definition ifact (k n : nat) : R := if (k <=? n)%nat then / INR (fact (n - k)) else 0.
Definition JC (n a b k : nat) : R :=
  (-1) ^ k * INR (fact (n + a)) * INR (fact (n + a + b + k)) /
  (INR (fact k) * INR (fact (a + k)) * INR (fact (n + a + b))) * ifact k n.

Lemma factS : forall n, INR (fact (S n)) = (INR n + 1) * INR (fact n).
Proof. intros n. rewrite fact_simpl, mult_INR, S_INR. ring. Qed.
Lemma fact_nz : forall n, INR (fact n) <> 0.
Proof. intros n. apply INR_fact_neq_0. Qed.

Lemma ifact_step : forall k n, (k <= S n)%nat -> ifact k n = (INR n + 1 - INR k) * ifact k (S n).
Proof.
  intros k n H. unfold ifact. destruct (Nat.leb_spec k n) as [L|L].
  - replace (k <=? S n)%nat with true by (symmetry; apply Nat.leb_le; lia).
    replace (S n - k)%nat with (S (n - k)) by lia. rewrite factS, minus_INR by exact L.
    assert (INR n - INR k + 1 <> 0).
    { pose proof (le_INR _ _ L). lra. }
    field. repeat split; try apply fact_nz; lra.
  - replace k with (S n) by lia. rewrite Nat.leb_refl, S_INR. ring.
Qed.

Lemma JC_coeff : forall n a b k, (k <= n)%nat -> JC n a b k = jacobi_coeff n a b k.
Proof.
  intros n a b k H. unfold JC, jacobi_coeff, ifact. apply Nat.leb_le in H. rewrite H.
  field. repeat split; apply fact_nz.
Qed.
Lemma JC_zero : forall n a b k, (n < k)%nat -> JC n a b k = 0.
Proof.
  intros n a b k H. unfold JC, ifact. destruct (Nat.leb_spec k n) as [L|L]; [lia|]. ring.
Qed.

Lemma classical_JC : forall n a b x m, (n < m)%nat ->
  jacobi_classical n a b x = bsum m (fun k => JC n a b k * ((1 - x) / 2) ^ k).
Proof.
  intros n a b x m H. rewrite (bsum_extend m (S n)) by (try lia; intros j Hj; rewrite JC_zero by lia; ring).
  apply bsum_ext. intros k Hk. rewrite JC_coeff by lia. reflexivity.
Qed.

Lemma ifact_step2 : forall k m, (k <= S (S m))%nat ->
  ifact k m = (INR m + 1 - INR k) * (INR m + 2 - INR k) * ifact k (S (S m)).
Proof.
  intros k m H. destruct (Nat.eq_dec k (S (S m))) as [->|N].
  - unfold ifact at 1. replace (S (S m) <=? m)%nat with false by (symmetry; apply Nat.leb_gt; lia).
    rewrite !S_INR. ring.
  - rewrite ifact_step by lia. rewrite (ifact_step k (S m)) by lia. rewrite S_INR. ring.
Qed.
Lemma ifact_SS : forall k n, ifact (S k) (S n) = ifact k n.
Proof. intros. reflexivity. Qed.

(** The three-term recurrence, coefficient by coefficient. *)
Lemma JC_recurrence : forall m a b k, (k <= S (S m))%nat ->
  let i := INR m + 1 in let A := INR a in let B := INR b in
  2 * (i + 1) * (i + A + B + 1) * (2 * i + A + B) * JC (S (S m)) a b k =
  ((2 * i + A + B + 1) * (A * A - B * B) + (2 * i + A + B) * (2 * i + A + B + 1) * (2 * i + A + B + 2)) * JC (S m) a b k
  - 2 * ((2 * i + A + B) * (2 * i + A + B + 1) * (2 * i + A + B + 2)) * (match k with 0%nat => 0 | S k' => JC (S m) a b k' end)
  - 2 * (i + A) * (i + B) * (2 * i + A + B + 2) * JC m a b k.
Proof.
  intros m a b k Hk. cbv zeta.
  pose proof (pos_INR m) as Pm. pose proof (pos_INR a) as Pa. pose proof (pos_INR b) as Pb. pose proof (pos_INR k) as Pk.
  unfold JC. rewrite (ifact_step2 k m) by lia. rewrite (ifact_step k (S m)) by lia.
  set (F := ifact k (S (S m))).
  replace (S (S m) + a)%nat with (S (S (m + a))) by lia.
  replace (S m + a)%nat with (S (m + a)) by lia.
  replace (S (S (m + a)) + b + k)%nat with (S (S (m + a + b + k))) by lia.
  replace (S (m + a) + b + k)%nat with (S (m + a + b + k)) by lia.
  replace (S (S (m + a)) + b)%nat with (S (S (m + a + b))) by lia.
  replace (S (m + a) + b)%nat with (S (m + a + b)) by lia.
  destruct k as [|k].
  - rewrite !Nat.add_0_r, !factS, !S_INR, !plus_INR. cbn [INR pow].
    pose proof (fact_nz (m + a)). pose proof (fact_nz (m + a + b)). pose proof (fact_nz a). pose proof (fact_nz 0).
    field. repeat split; try assumption; lra.
  - replace (S (m + a + b) + k)%nat with (S (m + a + b + k)) by lia.
    replace (m + a + b + S k)%nat with (S (m + a + b + k)) by lia.
    replace (a + S k)%nat with (S (a + k)) by lia.
    replace (ifact k (S m)) with F by (unfold F; rewrite ifact_SS; reflexivity).
    cbn [pow]. rewrite !factS, !S_INR, !plus_INR.
    rewrite S_INR in Pk.
    pose proof (fact_nz (m + a)). pose proof (fact_nz (m + a + b)). pose proof (fact_nz (a + k)).
    pose proof (fact_nz k). pose proof (pos_INR k).
    field. repeat split; try assumption; lra.
Qed.

(** Shifting a sum of powers by one power. *)
Lemma times_power : forall n c t, c n = 0 ->
  t * bsum (S n) (fun k => c k * t ^ k) = bsum (S n) (fun k => (match k with 0%nat => 0 | S k' => c k' end) * t ^ k).
Proof.
  intros n c t H. rewrite <- bsum_scal. rewrite (bsum_shift n (fun k => (match k with 0%nat => 0 | S k' => c k' end) * t ^ k)).
  cbn [bsum]. rewrite H, !Rmult_0_l, Rmult_0_r, Rplus_0_r, Rplus_0_l. apply bsum_ext. intros k Hk. cbn [pow]. ring.
Qed.

Lemma classical_recurrence : forall m a b x,
  let i := INR m + 1 in let A := INR a in let B := INR b in
  2 * (i + 1) * (i + A + B + 1) * (2 * i + A + B) * jacobi_classical (S (S m)) a b x =
  ((2 * i + A + B + 1) * (A * A - B * B) + (2 * i + A + B) * (2 * i + A + B + 1) * (2 * i + A + B + 2) * x)
     * jacobi_classical (S m) a b x
  - 2 * (i + A) * (i + B) * (2 * i + A + B + 2) * jacobi_classical m a b x.
Proof.
  intros m a b x. cbv zeta.
  rewrite !(classical_JC _ a b x (S (S (S m)))) by lia.
  set (t := (1 - x) / 2). assert (Ex : x = 1 - 2 * t) by (unfold t; field).
  set (c3 := (2 * (INR m + 1) + INR a + INR b) * (2 * (INR m + 1) + INR a + INR b + 1) * (2 * (INR m + 1) + INR a + INR b + 2)).
  set (c2 := (2 * (INR m + 1) + INR a + INR b + 1) * (INR a * INR a - INR b * INR b)).
  set (c4 := 2 * (INR m + 1 + INR a) * (INR m + 1 + INR b) * (2 * (INR m + 1) + INR a + INR b + 2)).
  rewrite Ex at 1. clear Ex.
  pose proof (times_power (S (S m)) (JC (S m) a b) t (JC_zero (S m) a b (S (S m)) ltac:(lia))) as TP.
  replace ((c2 + c3 * (1 - 2 * t)) * bsum (S (S (S m))) (fun k => JC (S m) a b k * t ^ k))
    with ((c2 + c3) * bsum (S (S (S m))) (fun k => JC (S m) a b k * t ^ k)
          - 2 * c3 * (t * bsum (S (S (S m))) (fun k => JC (S m) a b k * t ^ k))) by ring.
  rewrite TP. unfold Rminus. rewrite !Ropp_mult_distr_l, <- !bsum_scal, <- !bsum_plus.
  apply bsum_ext. intros k Hk.
  pose proof (JC_recurrence m a b k ltac:(lia)) as R. cbv zeta in R. fold c2 c3 c4 in R.
  rewrite <- Rmult_assoc, R. ring.
Qed.

Lemma classical_0 : forall a b x, jacobi_classical 0 a b x = 1.
Proof.
  intros. unfold jacobi_classical, jacobi_coeff. cbn [bsum pow Nat.add Nat.sub]. rewrite !Nat.add_0_r.
  change (INR (fact 0)) with 1. field. repeat split; try apply fact_nz.
Qed.
Lemma classical_1 : forall a b x, jacobi_classical 1 a b x = (INR a - INR b + (INR a + INR b + 2) * x) / 2.
Proof.
  intros. unfold jacobi_classical, jacobi_coeff. cbn [bsum pow Nat.sub Nat.add].
  rewrite !Nat.add_0_r. replace (a + 1)%nat with (S a) by lia. replace (a + b + 1)%nat with (S (a + b)) by lia.
  change (INR (fact 0)) with 1. change (INR (fact 1)) with 1. rewrite !factS, !S_INR, !plus_INR.
  pose proof (pos_INR a). pose proof (pos_INR b). pose proof (fact_nz a). pose proof (fact_nz (a + b)).
  field. repeat split; try assumption; lra.
Qed.

(** The code's recurrence gives the classical Jacobi polynomials; derivatives;
    orthogonality and norms for b = 0. *)
From Coq Require Import ZArith Reals Lra Lia Arith List Bool.
From Coquelicot Require Import Coquelicot.
From Verif Require Import Num ModelSWE ModelBasis SpecBasis LemmasSWE LemmasBasis.
Import ListNotations.
Open Scope R_scope.

(** ** No wrap-around *)
Lemma uint_small : forall z, (0 <= z < 2 ^ 32)%Z -> uint z = IZR z.
Proof. intros z H. unfold uint. rewrite Z.mod_small by exact H. reflexivity. Qed.

Lemma jacobi_first_ok : forall a b x, (b <= a)%nat -> (a + b <= 600)%nat ->
  jacobi_first (Z.of_nat a) (Z.of_nat b) x = jacobi_classical 1 a b x.
Proof.
  intros a b x H L. unfold jacobi_first. rewrite !uint_small by lia.
  rewrite classical_1, minus_IZR, !plus_IZR, <- !INR_IZR_INZ. reflexivity.
Qed.

Lemma prod3_small : forall x y w X Y W, (0 <= x <= X)%Z -> (0 <= y <= Y)%Z -> (0 <= w <= W)%Z ->
  (X * Y * W < 2 ^ 32)%Z -> (0 <= x * y * w < 2 ^ 32)%Z.
Proof.
  intros x y w X Y W Hx Hy Hw HB.
  assert (H1 : (0 <= x * y)%Z) by (apply Z.mul_nonneg_nonneg; lia).
  assert (H2 : (x * y <= X * Y)%Z) by (apply Z.mul_le_mono_nonneg; lia).
  split; [apply Z.mul_nonneg_nonneg; lia|].
  apply Z.le_lt_trans with (X * Y * W)%Z; [|exact HB]. apply Z.mul_le_mono_nonneg; lia.
Qed.

Lemma jacobi_next_ok : forall m a b x, (b <= a)%nat -> (S m + a + b <= 600)%nat ->
  jacobi_next (Z.of_nat a) (Z.of_nat b) (Z.of_nat (S m)) x (jacobi_classical (S m) a b x) (jacobi_classical m a b x)
  = jacobi_classical (S (S m)) a b x.
Proof.
  intros m a b x H L. unfold jacobi_next.
  set (za := Z.of_nat a). set (zb := Z.of_nat b). set (i := Z.of_nat (S m)).
  assert (B : (0 <= zb /\ zb <= za /\ 1 <= i /\ i + za + zb <= 600)%Z) by (unfold za, zb, i; lia).
  assert (U1 : (0 <= 2 * (i + 1) * (i + za + zb + 1) * (2 * i + za + zb) < 2 ^ 32)%Z).
  { apply prod3_small with (X := 1202%Z) (Y := 601%Z) (W := 1200%Z); [lia..|reflexivity]. }
  assert (U2 : (0 <= (2 * i + za + zb + 1) * (za * za - zb * zb) < 2 ^ 32)%Z).
  { replace ((2 * i + za + zb + 1) * (za * za - zb * zb))%Z
      with ((2 * i + za + zb + 1) * (za - zb) * (za + zb))%Z by ring.
    apply prod3_small with (X := 1201%Z) (Y := 600%Z) (W := 600%Z); [lia..|reflexivity]. }
  assert (U3 : (0 <= (2 * i + za + zb) * (2 * i + za + zb + 1) * (2 * i + za + zb + 2) < 2 ^ 32)%Z).
  { apply prod3_small with (X := 1200%Z) (Y := 1201%Z) (W := 1202%Z); [lia..|reflexivity]. }
  assert (U4 : (0 <= 2 * (i + za) * (i + zb) * (2 * i + za + zb + 2) < 2 ^ 32)%Z).
  { apply prod3_small with (X := 1200%Z) (Y := 600%Z) (W := 1202%Z); [lia..|reflexivity]. }
  rewrite (uint_small _ U1), (uint_small _ U2), (uint_small _ U3), (uint_small _ U4). clear U1 U2 U3 U4 B.
  assert (Ei : IZR i = INR m + 1) by (unfold i; rewrite <- INR_IZR_INZ, S_INR; reflexivity).
  assert (Ea : IZR za = INR a) by (unfold za; rewrite <- INR_IZR_INZ; reflexivity).
  assert (Eb : IZR zb = INR b) by (unfold zb; rewrite <- INR_IZR_INZ; reflexivity).
  rewrite !mult_IZR, !plus_IZR, !mult_IZR, ?minus_IZR, !mult_IZR, Ei, Ea, Eb.
  pose proof (classical_recurrence m a b x) as R. cbv zeta in R.
  pose proof (pos_INR m). pose proof (pos_INR a). pose proof (pos_INR b).
  match goal with |- ?N / ?D = ?P => assert (HD : D <> 0) end.
  { apply Rgt_not_eq. repeat apply Rmult_gt_0_compat; lra. }
  apply Rmult_eq_reg_r with (2 * (INR m + 1 + 1) * (INR m + 1 + INR a + INR b + 1) * (2 * (INR m + 1) + INR a + INR b)); [|exact HD].
  unfold Rdiv. rewrite Rmult_assoc, Rinv_l by exact HD. rewrite Rmult_1_r.
  rewrite (Rmult_comm (jacobi_classical (S (S m)) a b x)). rewrite R. reflexivity.
Qed.

Lemma jacobi_rows_inv : forall m a b x, (b <= a)%nat -> (S m + a + b <= 600)%nat ->
  jacobi_rows (S m) (Z.of_nat a) (Z.of_nat b) x ((m + 1) mod 3)%nat = jacobi_classical (S m) a b x /\
  jacobi_rows (S m) (Z.of_nat a) (Z.of_nat b) x (m mod 3)%nat = jacobi_classical m a b x.
Proof.
  induction m as [|m IH]; intros a b x H L.
  - unfold jacobi_rows. cbn -[jacobi_classical jacobi_first]. rewrite classical_0. split; [apply jacobi_first_ok; lia|reflexivity].
  - destruct (IH a b x H ltac:(lia)) as [I1 I2]. clear IH.
    assert (E : jacobi_rows (S (S m)) (Z.of_nat a) (Z.of_nat b) x =
      (let J := jacobi_rows (S m) (Z.of_nat a) (Z.of_nat b) x in
       upd J ((S m + 1) mod 3) (jacobi_next (Z.of_nat a) (Z.of_nat b) (Z.of_nat (S m)) x (J (S m mod 3)%nat) (J ((S m - 1) mod 3)%nat)))).
    { unfold jacobi_rows. replace (S (S m) - 1)%nat with (S m) by lia. replace (S m - 1)%nat with m by lia.
      rewrite seq_S, fold_left_app. cbn [fold_left Nat.add]. replace (S m - 1)%nat with m by lia. reflexivity. }
    rewrite E. cbv zeta. replace (S m - 1)%nat with m by lia.
    replace (m + 1)%nat with (S m) in I1 by lia. rewrite I1, I2, jacobi_next_ok by lia.
    split.
    + apply upd_same.
    + rewrite upd_other; [exact I1|].
      intros F. pose proof (Nat.div_mod (S m) 3 ltac:(lia)). pose proof (Nat.div_mod (S m + 1) 3 ltac:(lia)). lia.
Qed.

Lemma jacobi_ok : forall n a b x, (b <= a)%nat -> (n + a + b <= 600)%nat ->
  jacobi_polynomial n (Z.of_nat a) (Z.of_nat b) x = jacobi_classical n a b x.
Proof.
  intros n a b x H L. destruct n as [|[|n]].
  - rewrite classical_0. reflexivity.
  - apply jacobi_first_ok; lia.
  - unfold jacobi_polynomial. destruct (jacobi_rows_inv (S n) a b x H ltac:(lia)) as [I _].
    replace (S n + 1)%nat with (S (S n)) in I by lia. exact I.
Qed.

(** ** Derivatives *)
Lemma is_derive_c : forall (c x : R), is_derive (fun _ : R => c) x 0.
Proof. intros c x. exact (is_derive_const (V := R_NormedModule) c x). Qed.
Lemma is_derive_p : forall (f g : R -> R) (x u v : R),
  is_derive f x u -> is_derive g x v -> is_derive (fun y => f y + g y) x (u + v).
Proof. intros f g x u v Hf Hg. exact (is_derive_plus f g x u v Hf Hg). Qed.
Lemma is_derive_bsum : forall n (f : nat -> R -> R) (d : nat -> R) x,
  (forall k, (k < n)%nat -> is_derive (f k) x (d k)) -> is_derive (fun y => bsum n (fun k => f k y)) x (bsum n d).
Proof.
  induction n as [|n IH]; intros f d x H; cbn [bsum]; [apply is_derive_c|].
  apply is_derive_p; [apply IH; intros; apply H; lia|apply H; lia].
Qed.

Lemma coeff_derivative : forall n a b j, (j <= n)%nat ->
  - (INR j + 1) / 2 * jacobi_coeff (S n) a b (S j) = (INR n + INR a + INR b + 2) / 2 * jacobi_coeff n (S a) (S b) j.
Proof.
  intros n a b j H. unfold jacobi_coeff.
  replace (S n + a)%nat with (S (n + a)) by lia. replace (n + S a)%nat with (S (n + a)) by lia.
  replace (S (n + a) + b + S j)%nat with (S (S (n + a + b + j))) by lia.
  replace (S (n + a) + S b + j)%nat with (S (S (n + a + b + j))) by lia.
  replace (S n - S j)%nat with (n - j)%nat by lia. replace (a + S j)%nat with (S (a + j)) by lia.
  replace (S a + j)%nat with (S (a + j)) by lia.
  replace (S (n + a) + b)%nat with (S (n + a + b)) by lia. replace (S (n + a) + S b)%nat with (S (S (n + a + b))) by lia.
  rewrite (factS (S (n + a + b))), (factS j), S_INR, !plus_INR. cbn [pow].
  pose proof (fact_nz (n - j)). pose proof (fact_nz j). pose proof (fact_nz (S (a + j))). pose proof (fact_nz (S (n + a + b))).
  pose proof (pos_INR n). pose proof (pos_INR a). pose proof (pos_INR b). pose proof (pos_INR j).
  field. repeat split; try assumption; lra.
Qed.

Lemma classical_derivative : forall n a b x,
  is_derive (jacobi_classical (S n) a b) x ((INR n + INR a + INR b + 2) / 2 * jacobi_classical n (S a) (S b) x).
Proof.
  intros n a b x.
  assert (E : (INR n + INR a + INR b + 2) / 2 * jacobi_classical n (S a) (S b) x =
    bsum (S (S n)) (fun k => jacobi_coeff (S n) a b k * (INR k * ((1 - x) / 2) ^ (pred k) * (-1 / 2)))).
  { rewrite bsum_shift. change (INR 0) with 0. rewrite !Rmult_0_l, Rmult_0_r, Rplus_0_l.
    unfold jacobi_classical. rewrite <- bsum_scal. apply bsum_ext. intros k Hk.
    rewrite <- Rmult_assoc, <- coeff_derivative by lia. rewrite S_INR. cbn [pred]. field. }
  rewrite E. unfold jacobi_classical.
  apply (is_derive_bsum (S (S n)) (fun k y => jacobi_coeff (S n) a b k * ((1 - y) / 2) ^ k)).
  intros k Hk. auto_derive; [exact I|]. unfold Rdiv, Rminus. ring.
Qed.

Lemma classical_derivative_0 : forall a b x, is_derive (jacobi_classical 0 a b) x 0.
Proof.
  intros a b x. apply is_derive_ext with (f := fun _ => 1); [intros; rewrite classical_0; reflexivity|apply is_derive_c].
Qed.

Lemma jacobi_derivative_ok : forall n a b x, (b <= a)%nat -> (n + a + b + 2 <= 600)%nat ->
  is_derive (jacobi_polynomial n (Z.of_nat a) (Z.of_nat b)) x (jacobi_polynomial_derivative n (Z.of_nat a) (Z.of_nat b) x).
Proof.
  intros n a b x H L.
  apply is_derive_ext with (f := jacobi_classical n a b); [intros; symmetry; apply jacobi_ok; lia|].
  destruct n as [|n]; [apply classical_derivative_0|].
  replace (jacobi_polynomial_derivative (S n) (Z.of_nat a) (Z.of_nat b) x)
    with ((INR n + INR a + INR b + 2) / 2 * jacobi_classical n (S a) (S b) x); [apply classical_derivative|].
  assert (U : uint (Z.of_nat a + Z.of_nat b + Z.of_nat (S n) + 1) = INR n + INR a + INR b + 2).
  { rewrite uint_small by lia. rewrite !plus_IZR, <- !INR_IZR_INZ, S_INR. ring. }
  unfold jacobi_polynomial_derivative. destruct n as [|n].
  - rewrite classical_0, U. ring.
  - rewrite U. replace (Z.of_nat a + 1)%Z with (Z.of_nat (S a)) by lia. replace (Z.of_nat b + 1)%Z with (Z.of_nat (S b)) by lia.
    replace (S (S n) - 1)%nat with (S n) by lia. rewrite jacobi_ok by lia. ring.
Qed.

(** ** Finite differences *)
Fixpoint vanish (d : nat) (f : nat -> R) : Prop :=
  match d with 0%nat => forall k, f k = 0 | S e => vanish e (fun k => f (S k) - f k) end.
Lemma vanish_ext : forall d f g, (forall k, f k = g k) -> vanish d f -> vanish d g.
Proof.
  induction d as [|d IH]; intros f g E H; cbn in *; [intros k; rewrite <- E; apply H|].
  apply IH with (f := fun k => f (S k) - f k); [intros; rewrite !E; reflexivity|exact H].
Qed.
Lemma vanish_plus : forall d f g, vanish d f -> vanish d g -> vanish d (fun k => f k + g k).
Proof.
  induction d as [|d IH]; intros f g Hf Hg; cbn in *; [intros k; rewrite Hf, Hg; ring|].
  apply vanish_ext with (f := fun k => (f (S k) - f k) + (g (S k) - g k)); [intros; ring|]. apply IH; assumption.
Qed.
Lemma vanish_shift : forall d f, vanish d f -> vanish d (fun k => f (S k)).
Proof. induction d as [|d IH]; intros f H; cbn in *; [intros k; apply H|]. apply (IH _ H). Qed.
Lemma vanish_lin : forall d c f, vanish d f -> vanish (S d) (fun k => (INR k + c) * f k).
Proof.
  induction d as [|d IH]; intros c f H.
  - cbn in *. intros k. rewrite !H. ring.
  - apply vanish_ext with (f := fun k => (INR k + c) * (f (S k) - f k) + f (S k)) in IH || idtac.
    cbn [vanish]. change (vanish (S d) (fun k => (INR (S k) + c) * f (S k) - (INR k + c) * f k)).
    apply vanish_ext with (f := fun k => (INR k + c) * (f (S k) - f k) + f (S k)).
    { intros k. rewrite S_INR. ring. }
    apply vanish_plus; [apply IH; exact H|apply vanish_shift; exact H].
Qed.

Definition alt (n : nat) (f : nat -> R) : R := bsum (S n) (fun k => (-1) ^ k * Binomial.C n k * f k).
Lemma C_n_0 : forall n, Binomial.C n 0 = 1.
Proof. intros n. unfold Binomial.C. rewrite Nat.sub_0_r. change (INR (fact 0)) with 1. field. apply fact_nz. Qed.
Lemma C_n_n : forall n, Binomial.C n n = 1.
Proof. intros n. unfold Binomial.C. rewrite Nat.sub_diag. change (INR (fact 0)) with 1. field. apply fact_nz. Qed.

Lemma alt_S : forall n f, alt (S n) f = alt n (fun k => f k - f (S k)).
Proof.
  intros n f. unfold alt.
  rewrite bsum_shift, C_n_0. cbn [pow]. rewrite !Rmult_1_l.
  rewrite (bsum_ext (S n) (fun k => (-1) ^ k * Binomial.C n k * (f k - f (S k)))
             (fun k => (-1) ^ k * Binomial.C n k * f k + - 1 * ((-1) ^ k * Binomial.C n k * f (S k)))) by (intros; ring).
  rewrite bsum_plus, bsum_scal.
  rewrite (bsum_shift n (fun k => (-1) ^ k * Binomial.C n k * f k)), C_n_0. cbn [pow]. rewrite !Rmult_1_l.
  cbn [bsum]. rewrite !C_n_n.
  rewrite (bsum_ext n (fun i => -1 * (-1) ^ i * Binomial.C (S n) (S i) * f (S i))
             (fun i => (-1) * (-1) ^ i * Binomial.C n (S i) * f (S i) + - 1 * ((-1) ^ i * Binomial.C n i * f (S i)))).
  - rewrite bsum_plus, bsum_scal. ring.
  - intros i Hi. rewrite <- (pascal n i) by exact Hi. ring.
Qed.

Lemma alt_ext : forall n f g, (forall k, (k <= n)%nat -> f k = g k) -> alt n f = alt n g.
Proof. intros n f g H. apply bsum_ext. intros k Hk. rewrite H by lia. reflexivity. Qed.

Lemma alt_scal : forall n c f, alt n (fun k => c * f k) = c * alt n f.
Proof. intros n c f. unfold alt. rewrite <- bsum_scal. apply bsum_ext. intros. ring. Qed.

Lemma alt_vanish : forall n f, vanish n f -> alt n f = 0.
Proof.
  induction n as [|n IH]; intros f H.
  - unfold alt. cbn in *. rewrite H. ring.
  - rewrite alt_S, (alt_ext n _ (fun k => (-1) * (f (S k) - f k))) by (intros; ring).
    rewrite alt_scal, IH by exact H. ring.
Qed.

(** (n+a+k)! / (a+k)! / (a+j+k+1) is a product of n-1 factors linear in k. *)
Lemma ratio_vanish : forall m a, vanish (S m) (fun k => INR (fact (m + a + k)) / INR (fact (a + k))).
Proof.
  induction m as [|m IH]; intros a.
  - cbn [vanish Nat.add]. intros k. field. split; apply fact_nz.
  - apply vanish_ext with (f := fun k => (INR k + (INR m + INR a + 1)) * (INR (fact (m + a + k)) / INR (fact (a + k)))).
    { intros k. cbn [Nat.add]. rewrite factS, !plus_INR. field. apply fact_nz. }
    apply vanish_lin. apply IH.
Qed.
Lemma ratio_vanish_skip : forall n a j, (j < n)%nat ->
  vanish n (fun k => INR (fact (n + a + k)) / INR (fact (a + k)) / (INR a + INR j + INR k + 1)).
Proof.
  induction n as [|n IH]; intros a j H; [lia|].
  assert (P : forall k, INR a + INR j + INR k + 1 <> 0).
  { intros k. pose proof (pos_INR a). pose proof (pos_INR j). pose proof (pos_INR k). lra. }
  destruct (Nat.eq_dec j n) as [->|N].
  - apply vanish_ext with (f := fun k => INR (fact (n + a + k)) / INR (fact (a + k))); [|apply ratio_vanish].
    intros k. specialize (P k). cbn [Nat.add]. rewrite factS, !plus_INR. field. repeat split; first [apply fact_nz|lra].
  - apply vanish_ext with (f := fun k => (INR k + (INR n + INR a + 1)) *
      (INR (fact (n + a + k)) / INR (fact (a + k)) / (INR a + INR j + INR k + 1))).
    { intros k. specialize (P k). cbn [Nat.add]. rewrite factS, !plus_INR. field. repeat split; first [apply fact_nz|lra]. }
    apply vanish_lin. apply IH. lia.
Qed.

Lemma moment_zero : forall n a j, (j < n)%nat ->
  bsum (S n) (fun k => jacobi_coeff n a 0 k * (2 / (INR a + INR j + INR k + 1))) = 0.
Proof.
  intros n a j H.
  rewrite (bsum_ext (S n) _ (fun k => (2 / INR (fact n)) * ((-1) ^ k * Binomial.C n k *
      (INR (fact (n + a + k)) / INR (fact (a + k)) / (INR a + INR j + INR k + 1))))).
  - rewrite bsum_scal. fold (alt n (fun k => INR (fact (n + a + k)) / INR (fact (a + k)) / (INR a + INR j + INR k + 1))).
    rewrite alt_vanish by (apply ratio_vanish_skip; exact H). ring.
  - intros k Hk. unfold jacobi_coeff, Binomial.C. rewrite !Nat.add_0_r.
    pose proof (pos_INR a). pose proof (pos_INR j). pose proof (pos_INR k).
    field. repeat split; try apply fact_nz; lra.
Qed.

(** ** Integrals *)
Lemma int_power : forall m, is_RInt (fun x => ((1 - x) / 2) ^ m) (-1) 1 (2 / (INR m + 1)).
Proof.
  intros m. pose proof (pos_INR m) as P.
  replace (2 / (INR m + 1)) with (minus (- 2 / (INR m + 1) * ((1 - 1) / 2) ^ (S m)) (- 2 / (INR m + 1) * ((1 - -1) / 2) ^ (S m))).
  - apply (is_RInt_derive (fun x => - 2 / (INR m + 1) * ((1 - x) / 2) ^ (S m)) (fun x => ((1 - x) / 2) ^ m)).
    + intros x _. auto_derive; [exact I|]. rewrite Nat.pred_succ || idtac. cbn [pred].
      change (match m with 0%nat => 1 | S _ => INR m + 1 end) with (INR (S m)). rewrite ?S_INR.
      unfold Rdiv, Rminus. set (t := ((1 + - x) * / 2) ^ m). field. lra.
    + intros x _. apply (ex_derive_continuous (V := R_NormedModule)). auto_derive. exact I.
  - unfold minus, plus, opp; cbn -[INR pow]. replace ((1 - 1) / 2) with 0 by field. replace ((1 - -1) / 2) with 1 by field.
    rewrite pow1, pow_i by lia. field. lra.
Qed.

Lemma is_RInt_sc : forall (f : R -> R) (u w v c : R), is_RInt f u w v -> is_RInt (fun x => c * f x) u w (c * v).
Proof. intros f u w v c H. exact (is_RInt_scal f u w c v H). Qed.
Lemma is_RInt_pl : forall (f g : R -> R) (u w v1 v2 : R),
  is_RInt f u w v1 -> is_RInt g u w v2 -> is_RInt (fun x => f x + g x) u w (v1 + v2).
Proof. intros f g u w v1 v2 H1 H2. exact (is_RInt_plus f g u w v1 v2 H1 H2). Qed.
Lemma is_RInt_eq : forall (f g : R -> R) (u w v1 v2 : R),
  is_RInt f u w v1 -> (forall x, f x = g x) -> v1 = v2 -> is_RInt g u w v2.
Proof.
  intros f g u w v1 v2 H E ->. apply (is_RInt_ext f); [|exact H]. intros x _. apply E.
Qed.

Lemma is_RInt_bsum : forall n (f : nat -> R -> R) (v : nat -> R) u w,
  (forall k, (k < n)%nat -> is_RInt (f k) u w (v k)) -> is_RInt (fun y => bsum n (fun k => f k y)) u w (bsum n v).
Proof.
  induction n as [|n IH]; intros f v u w H; cbn [bsum].
  - pose proof (is_RInt_const u w (0 : R_NormedModule)) as Z. unfold scal in Z; cbn in Z; unfold mult in Z; cbn in Z.
    rewrite Rmult_0_r in Z. exact Z.
  - apply is_RInt_pl; [apply IH; intros; apply H; lia|apply H; lia].
Qed.

(** Weighted integral with weight ((1-x)/2)^a. *)
Definition wint (a : nat) (f : R -> R) (v : R) : Prop := is_RInt (fun x => ((1 - x) / 2) ^ a * f x) (-1) 1 v.

Lemma wint_moment : forall n a j,
  wint a (fun x => ((1 - x) / 2) ^ j * jacobi_classical n a 0 x)
    (bsum (S n) (fun k => jacobi_coeff n a 0 k * (2 / (INR a + INR j + INR k + 1)))).
Proof.
  intros n a j. unfold wint.
  apply is_RInt_eq with
    (f := fun x => bsum (S n) (fun k => jacobi_coeff n a 0 k * ((1 - x) / 2) ^ (a + j + k)))
    (v1 := bsum (S n) (fun k => jacobi_coeff n a 0 k * (2 / (INR a + INR j + INR k + 1)))).
  - apply (is_RInt_bsum (S n) (fun k x => jacobi_coeff n a 0 k * ((1 - x) / 2) ^ (a + j + k))).
    intros k Hk. apply is_RInt_sc. rewrite <- !plus_INR. apply int_power.
  - intros x. unfold jacobi_classical. rewrite <- !bsum_scal. apply bsum_ext. intros k Hk.
    rewrite !pow_add. ring.
  - reflexivity.
Qed.

Lemma wint_lower : forall n m a, (m < n)%nat -> wint a (fun x => jacobi_classical m a 0 x * jacobi_classical n a 0 x) 0.
Proof.
  intros n m a H. unfold wint.
  apply is_RInt_eq with
    (f := fun x => bsum (S m) (fun j => jacobi_coeff m a 0 j * (((1 - x) / 2) ^ a * (((1 - x) / 2) ^ j * jacobi_classical n a 0 x))))
    (v1 := bsum (S m) (fun j => jacobi_coeff m a 0 j * 0)).
  - apply (is_RInt_bsum (S m) (fun j x => jacobi_coeff m a 0 j * (((1 - x) / 2) ^ a * (((1 - x) / 2) ^ j * jacobi_classical n a 0 x)))).
    intros j Hj. apply is_RInt_sc. rewrite <- (moment_zero n a j) by lia. apply wint_moment.
  - intros x. unfold jacobi_classical at 2. rewrite !(Rmult_comm _ (jacobi_classical n a 0 x)). rewrite <- !Rmult_assoc.
    rewrite <- bsum_scal. apply bsum_ext. intros j Hj. ring.
  - rewrite (bsum_ext _ _ (fun _ => 0)) by (intros; ring). apply bsum_0.
Qed.

Lemma wint_orthogonal : forall n m a, n <> m -> wint a (fun x => jacobi_classical m a 0 x * jacobi_classical n a 0 x) 0.
Proof.
  intros n m a H. destruct (Nat.lt_ge_cases m n) as [L|L]; [apply wint_lower; exact L|].
  pose proof (wint_lower m n a ltac:(lia)) as W. unfold wint in *.
  apply is_RInt_eq with (1 := W); [intros; ring|reflexivity].
Qed.

(** Norms, by the recurrence. *)
Lemma wint_norm : forall n a,
  wint a (fun x => jacobi_classical n a 0 x * jacobi_classical n a 0 x) (2 / (2 * INR n + INR a + 1)).
Proof.
  intros n a. pose proof (pos_INR a) as Pa.
  induction n as [|n IH].
  - unfold wint. apply is_RInt_eq with (f := fun x => ((1 - x) / 2) ^ a) (v1 := 2 / (INR a + 1)).
    + apply int_power.
    + intros x. rewrite classical_0. ring.
    + change (INR 0) with 0. field. lra.
  - pose proof (pos_INR n) as Pn.
    (* <x P_{n+1}, P_n> from the recurrence at n+1 *)
    pose proof (wint_lower (S (S n)) n a ltac:(lia)) as O2. pose proof (wint_lower (S n) n a ltac:(lia)) as O1.
    set (i := INR n + 1) in *.
    set (c1 := 2 * (i + 1) * (i + INR a + 0 + 1) * (2 * i + INR a + 0)).
    set (c2 := (2 * i + INR a + 0 + 1) * (INR a * INR a - 0 * 0)).
    set (c3 := (2 * i + INR a + 0) * (2 * i + INR a + 0 + 1) * (2 * i + INR a + 0 + 2)).
    set (c4 := 2 * (i + INR a) * (i + 0) * (2 * i + INR a + 0 + 2)).
    assert (Hc3 : c3 <> 0) by (apply Rgt_not_eq; unfold c3, i; repeat apply Rmult_gt_0_compat; lra).
    assert (X : wint a (fun x => x * jacobi_classical (S n) a 0 x * jacobi_classical n a 0 x)
                  (c4 / c3 * (2 / (2 * INR n + INR a + 1)))).
    { unfold wint in *.
      apply is_RInt_eq with (1 := is_RInt_pl _ _ _ _ _ _ (is_RInt_sc _ _ _ _ (c1 / c3) O2)
                               (is_RInt_pl _ _ _ _ _ _ (is_RInt_sc _ _ _ _ (- c2 / c3) O1) (is_RInt_sc _ _ _ _ (c4 / c3) IH))).
      - intros x. pose proof (classical_recurrence n a 0 x) as R. cbv zeta in R. change (INR 0) with 0 in R. fold i in R.
        fold c1 c2 c3 c4 in R.
        replace (jacobi_classical (S (S n)) a 0 x) with
          (((c2 + c3 * x) * jacobi_classical (S n) a 0 x - c4 * jacobi_classical n a 0 x) / c1).
        + field. split; [exact Hc3|]. apply Rgt_not_eq. unfold c1, i. repeat apply Rmult_gt_0_compat; lra.
        + rewrite <- R. field. apply Rgt_not_eq. unfold c1, i. repeat apply Rmult_gt_0_compat; lra.
      - ring. }
    destruct n as [|n].
    + unfold wint in *. change (INR 0) with 0 in *.
      apply is_RInt_eq with (1 := is_RInt_pl _ _ _ _ _ _ (is_RInt_sc _ _ _ _ (INR a / 2) O1) (is_RInt_sc _ _ _ _ ((INR a + 2) / 2) X)).
      * intros x. rewrite classical_0, classical_1. change (INR 0) with 0. field.
      * unfold c4, c3, i. change (INR 1) with 1. field. repeat split; lra.
    + pose proof (wint_lower (S (S n)) n a ltac:(lia)) as O3. unfold wint in *.
      pose proof (pos_INR n) as Pn'.
      set (j := INR n + 1) in *.
      set (d1 := 2 * (j + 1) * (j + INR a + 0 + 1) * (2 * j + INR a + 0)).
      set (d2 := (2 * j + INR a + 0 + 1) * (INR a * INR a - 0 * 0)).
      set (d3 := (2 * j + INR a + 0) * (2 * j + INR a + 0 + 1) * (2 * j + INR a + 0 + 2)).
      set (d4 := 2 * (j + INR a) * (j + 0) * (2 * j + INR a + 0 + 2)).
      assert (Hd1 : d1 <> 0) by (apply Rgt_not_eq; unfold d1, j; repeat apply Rmult_gt_0_compat; lra).
      apply is_RInt_eq with (1 := is_RInt_pl _ _ _ _ _ _ (is_RInt_sc _ _ _ _ (d2 / d1) O1)
                               (is_RInt_pl _ _ _ _ _ _ (is_RInt_sc _ _ _ _ (d3 / d1) X) (is_RInt_sc _ _ _ _ (- d4 / d1) O3))).
      * intros x. pose proof (classical_recurrence n a 0 x) as R. cbv zeta in R. change (INR 0) with 0 in R. fold j in R.
        fold d1 d2 d3 d4 in R.
        assert (R' : jacobi_classical (S (S n)) a 0 x =
          ((d2 + d3 * x) * jacobi_classical (S n) a 0 x - d4 * jacobi_classical n a 0 x) / d1).
        { rewrite <- R. field. exact Hd1. }
        replace (jacobi_classical (S (S n)) a 0 x * jacobi_classical (S (S n)) a 0 x) with
          (jacobi_classical (S (S n)) a 0 x * (((d2 + d3 * x) * jacobi_classical (S n) a 0 x - d4 * jacobi_classical n a 0 x) / d1))
          by (rewrite <- R'; reflexivity).
        field. exact Hd1.
      * unfold d1, d3, c4, c3, i, j. rewrite !S_INR. field. repeat split; lra.
Qed.

(** Rounding to a number of digits. *)
From Coq Require Import Reals ZArith NArith List Bool Lia Lra.
From Verif Require Import ModelStream.
Import ListNotations.
Open Scope R_scope.

Definition nr (n : N) : R := IZR (Z.of_N n).
Lemma nr_plus : forall a b, nr (a + b) = nr a + nr b.
Proof. intros. unfold nr. rewrite N2Z.inj_add, plus_IZR. reflexivity. Qed.
Lemma nr_mult : forall a b, nr (a * b) = nr a * nr b.
Proof. intros. unfold nr. rewrite N2Z.inj_mul, mult_IZR. reflexivity. Qed.
Lemma nr_le : forall a b, (a <= b)%N <-> nr a <= nr b.
Proof. intros. unfold nr. split; [intros H; apply IZR_le; lia|intros H; apply le_IZR in H; lia]. Qed.
Lemma nr_lt : forall a b, (a < b)%N <-> nr a < nr b.
Proof. intros. unfold nr. split; [intros H; apply IZR_lt; lia|intros H; apply lt_IZR in H; lia]. Qed.
Lemma nr_inj : forall a b, nr a = nr b -> a = b.
Proof. intros a b H. unfold nr in H. apply eq_IZR in H. lia. Qed.
Lemma nr_pos : forall a, (0 < a)%N -> 0 < nr a.
Proof. intros a H. apply (nr_lt 0). exact H. Qed.
Lemma nr_nonneg : forall a, 0 <= nr a.
Proof. intros a. apply (nr_le 0). lia. Qed.

(** radix^k *)
Definition pw (r : N) (k : Z) : R := powerRZ (nr r) k.
Section Radix.
  Context (r : N) (Hr : (2 <= r)%N).
  Lemma nr_radix : 2 <= nr r. Proof. apply (nr_le 2). exact Hr. Qed.
  Lemma nr_radix_pos : 0 < nr r. Proof. pose proof nr_radix. lra. Qed.
  Lemma pw_pos : forall k, 0 < pw r k. Proof. intros k. apply powerRZ_lt, nr_radix_pos. Qed.
  Lemma pw_add : forall a b, pw r (a + b) = pw r a * pw r b.
  Proof. intros. apply powerRZ_add. pose proof nr_radix_pos. lra. Qed.
  Lemma pw_0 : pw r 0 = 1. Proof. reflexivity. Qed.
  Lemma pw_1 : pw r 1 = nr r. Proof. apply powerRZ_1. Qed.
  Lemma pw_succ : forall k, pw r (k + 1) = nr r * pw r k.
  Proof. intros. rewrite pw_add, pw_1. lra. Qed.
  Lemma pw_N : forall n, nr (r ^ n) = pw r (Z.of_N n).
  Proof.
    intros n. induction n as [|n IH] using N.peano_ind; [reflexivity|]. rewrite N.pow_succ_r', nr_mult, IH.
    replace (Z.of_N (N.succ n)) with (Z.of_N n + 1)%Z by lia. rewrite pw_succ. reflexivity.
  Qed.
  Lemma pw_split : forall k, pw r k * nr (r ^ Z.to_N (- k)) = nr (r ^ Z.to_N k).
  Proof.
    intros k. rewrite !pw_N, <- pw_add. f_equal. destruct (Z.le_gt_cases 0 k).
    - rewrite (Z2N.id k) by lia. replace (Z.to_N (- k)) with 0%N by lia. cbn. lia.
    - replace (Z.to_N k) with 0%N by lia. rewrite Z2N.id by lia. cbn. lia.
  Qed.
  Lemma pw_mono : forall a b, (a <= b)%Z -> pw r a <= pw r b.
  Proof.
    intros a b H. replace b with (a + Z.of_N (Z.to_N (b - a)))%Z by lia. rewrite pw_add, <- pw_N. pose proof (pw_pos a) as P.
    assert (1 <= nr (r ^ Z.to_N (b - a))). { change 1 with (nr 1). apply (nr_le 1). assert (r ^ Z.to_N (b - a) <> 0)%N by (apply N.pow_nonzero; lia). lia. }
    rewrite <- (Rmult_1_r (pw r a)) at 1. apply Rmult_le_compat_l; lra.
  Qed.
  Lemma pw_lt_inv : forall a b, pw r a < pw r b -> (a < b)%Z.
  Proof. intros a b H. destruct (Z.lt_ge_cases a b) as [|G]; [assumption|]. apply pw_mono in G. lra. Qed.
  Lemma radix_pow_pos : forall n, (0 < r ^ n)%N.
  Proof. intros n. assert (r ^ n <> 0)%N by (apply N.pow_nonzero; lia). lia. Qed.

  Lemma pow_le_spec : forall k a b, (0 < b)%N -> pow_le r k a b = true <-> pw r k <= nr a / nr b.
  Proof.
    intros k a b Hb. unfold pow_le. rewrite N.leb_le, nr_le, !nr_mult. rewrite <- pw_split. pose proof (nr_pos b Hb) as B. pose proof (nr_pos _ (radix_pow_pos (Z.to_N (- k)))) as P.
    set (q := nr (r ^ Z.to_N (- k))) in *. set (x := pw r k). clearbody q x. split; intros H.
    - apply (Rmult_le_reg_r (nr b)); [exact B|]. apply (Rmult_le_reg_r q); [exact P|]. unfold Rdiv. rewrite (Rmult_assoc (nr a)), Rinv_l, Rmult_1_r by lra. lra.
    - apply (Rmult_le_compat_r (nr b * q)) in H; [|nra]. unfold Rdiv in H. replace (nr a * / nr b * (nr b * q)) with (nr a * q) in H by (field; lra). lra.
  Qed.

  Lemma find_up_spec : forall a b, (0 < b)%N -> forall fuel k, pw r k <= nr a / nr b < pw r (k + Z.of_nat fuel) ->
    pw r (find_up r a b fuel k) <= nr a / nr b < pw r (find_up r a b fuel k + 1).
  Proof.
    intros a b Hb. induction fuel as [|f IH]; intros k [H1 H2]; cbn [find_up].
    - exfalso. cbn in H2. rewrite Z.add_0_r in H2. lra.
    - destruct (pow_le r (k + 1) a b) eqn:E.
      + apply pow_le_spec in E; [|exact Hb]. apply IH. split; [exact E|]. replace (k + 1 + Z.of_nat f)%Z with (k + Z.of_nat (S f))%Z by lia. exact H2.
      + split; [exact H1|]. destruct (Rlt_le_dec (nr a / nr b) (pw r (k + 1))) as [|G]; [assumption|]. apply pow_le_spec in G; [|exact Hb]. congruence.
  Qed.

  Lemma log2_pow : forall a, (0 < a)%N -> (a < r ^ (N.log2 a + 1))%N.
  Proof.
    intros a H. assert (a < 2 ^ (N.log2 a + 1))%N by (replace (N.log2 a + 1)%N with (N.succ (N.log2 a)) by lia; apply N.log2_spec; exact H).
    eapply N.lt_le_trans; [eassumption|]. apply N.pow_le_mono_l. exact Hr.
  Qed.
  Lemma leading_spec : forall a b, (0 < a)%N -> (0 < b)%N -> pw r (leading r a b) <= nr a / nr b < pw r (leading r a b + 1).
  Proof.
    intros a b Ha Hb. unfold leading. apply find_up_spec; [exact Hb|]. pose proof (nr_pos a Ha) as A. pose proof (nr_pos b Hb) as B. split.
    - apply pow_le_spec; [exact Hb|]. unfold pow_le. apply N.leb_le. rewrite Z.opp_involutive. replace (Z.to_N (- Z.of_N (N.log2 b + 1))) with 0%N by lia. rewrite N.pow_0_r, N2Z.id.
      pose proof (log2_pow b Hb). set (q := (r ^ (N.log2 b + 1))%N) in *. nia.
    - destruct (Rlt_le_dec (nr a / nr b) (pw r (- Z.of_N (N.log2 b + 1) + Z.of_nat (N.to_nat (N.log2 a + N.log2 b + 2))))) as [|G]; [assumption|exfalso].
      replace (- Z.of_N (N.log2 b + 1) + Z.of_nat (N.to_nat (N.log2 a + N.log2 b + 2)))%Z with (Z.of_N (N.log2 a + 1)) in G by lia. rewrite <- pw_N in G.
      pose proof (log2_pow a Ha) as L. apply nr_lt in L. assert (nr a / nr b <= nr a). { apply (Rmult_le_reg_r (nr b)); [exact B|]. unfold Rdiv. rewrite Rmult_assoc, Rinv_l by lra. assert (1 <= nr b) by (apply (nr_le 1); lia). nra. }
      lra.
  Qed.
  Lemma leading_unique : forall v j k, pw r j <= v < pw r (j + 1) -> pw r k <= v < pw r (k + 1) -> j = k.
  Proof. intros v j k A B. assert (j < k + 1)%Z by (apply pw_lt_inv; lra). assert (k < j + 1)%Z by (apply pw_lt_inv; lra). lia. Qed.
End Radix.

(** ** Rounding to an integer *)
Lemma nearest_error : forall a b, (0 < b)%N -> Rabs (nr a / nr b - nr (nearest a b)) <= / 2.
Proof.
  intros a b Hb. pose proof (nr_pos b Hb) as B. pose proof (N.div_mod a b ltac:(lia)) as E. pose proof (N.mod_lt a b ltac:(lia)) as M.
  unfold nearest. set (q := (a / b)%N) in *. set (s := (a mod b)%N) in *. assert (E' : nr a / nr b = nr q + nr s / nr b). { rewrite E, nr_plus, nr_mult. field. lra. }
  assert (D : forall x y, nr s * x <= nr b * y -> 0 < x -> nr s / nr b <= y / x). { intros x y H Hx. apply (Rmult_le_reg_r (nr b * x)); [nra|]. replace (nr s / nr b * (nr b * x)) with (nr s * x) by (field; lra). replace (y / x * (nr b * x)) with (nr b * y) by (field; lra). exact H. }
  assert (P : 0 <= nr s / nr b). { apply Rmult_le_pos; [apply nr_nonneg|]. left. apply Rinv_0_lt_compat. exact B. }
  assert (U : (b <= 2 * s)%N -> / 2 <= nr s / nr b). { intros H. apply nr_le in H. rewrite nr_mult in H. change (nr 2) with 2 in H. apply (Rmult_le_reg_r (nr b)); [exact B|]. unfold Rdiv. rewrite Rmult_assoc, Rinv_l by lra. lra. }
  assert (L : (2 * s <= b)%N -> nr s / nr b <= / 2). { intros H. apply nr_le in H. rewrite nr_mult in H. change (nr 2) with 2 in H. apply (Rmult_le_reg_r (nr b)); [exact B|]. unfold Rdiv. rewrite Rmult_assoc, Rinv_l by lra. lra. }
  assert (M' : nr s / nr b <= 1). { replace 1 with (1 / 1) by lra. apply D; [|lra]. apply nr_lt in M. lra. }
  rewrite E'. destruct (2 * s <? b)%N eqn:E1; [|destruct (b <? 2 * s)%N eqn:E2].
  - apply N.ltb_lt in E1. specialize (L ltac:(lia)). apply Rabs_le. lra.
  - apply N.ltb_lt in E2. specialize (U ltac:(lia)). rewrite nr_plus. change (nr 1) with 1. apply Rabs_le. lra.
  - apply N.ltb_ge in E1, E2. specialize (U E1). specialize (L E2). pose proof (N.mod_lt q 2 ltac:(lia)) as Q.
    rewrite nr_plus. assert (Q' : (q mod 2 = 0 \/ q mod 2 = 1)%N) by (generalize dependent (q mod 2)%N; intros; lia). apply Rabs_le. destruct Q' as [-> | ->]; [change (nr 0) with 0|change (nr 1) with 1]; lra.
Qed.
Lemma nearest_unique : forall a b m, (0 < b)%N -> Rabs (nr a / nr b - nr m) < / 2 -> nearest a b = m.
Proof.
  intros a b m Hb H. pose proof (nearest_error a b Hb) as E. set (n := nearest a b) in *. set (v := nr a / nr b) in *.
  assert (D : Rabs (nr n - nr m) < 1). { replace (nr n - nr m) with (- (v - nr n) + (v - nr m)) by lra. eapply Rle_lt_trans; [apply Rabs_triang|]. rewrite Rabs_Ropp. lra. }
  apply Rabs_def2 in D. destruct D as [D1 D2]. unfold nr in D1, D2. rewrite <- minus_IZR in D1, D2. apply lt_IZR in D1. assert (D3 : IZR (-1) < IZR (Z.of_N n - Z.of_N m)) by lra. apply lt_IZR in D3. lia.
Qed.
Lemma nearest_scale : forall a b c, (0 < b)%N -> (0 < c)%N -> nearest (a * c) (b * c) = nearest a b.
Proof.
  intros a b c Hb Hc. unfold nearest. rewrite N.div_mul_cancel_r by lia. rewrite N.mul_mod_distr_r by lia. set (s := (a mod b)%N). set (q := (a / b)%N).
  assert (E1 : (2 * (s * c) <? b * c)%N = (2 * s <? b)%N). { destruct (2 * s <? b)%N eqn:E; [apply N.ltb_lt in E; apply N.ltb_lt; nia|apply N.ltb_ge in E; apply N.ltb_ge; nia]. }
  assert (E2 : (b * c <? 2 * (s * c))%N = (b <? 2 * s)%N). { destruct (b <? 2 * s)%N eqn:E; [apply N.ltb_lt in E; apply N.ltb_lt; nia|apply N.ltb_ge in E; apply N.ltb_ge; nia]. }
  rewrite E1, E2. reflexivity.
Qed.
Lemma nearest_eq : forall a b a' b', (0 < b)%N -> (0 < b')%N -> (a * b' = a' * b)%N -> nearest a b = nearest a' b'.
Proof. intros a b a' b' Hb Hb' E. rewrite <- (nearest_scale a b b'), <- (nearest_scale a' b' b) by assumption. rewrite E. f_equal. lia. Qed.

(** ** Rounding to p digits *)
Section Digits.
  Context (r p : N) (Hr : (2 <= r)%N) (Hp : (0 < p)%N).
  Definition canonical (mk : N * Z) : Prop := (r ^ (p - 1) <= fst mk < r ^ p)%N.
  Definition real (mk : N * Z) : R := nr (fst mk) * pw r (snd mk).
  Let rpos := radix_pow_pos r Hr.

  Lemma scaled : forall a b k, (0 < b)%N -> nr (a * r ^ Z.to_N (- k)) / nr (b * r ^ Z.to_N k) = nr a / nr b / pw r k.
  Proof.
    intros a b k Hb. rewrite !nr_mult. rewrite <- (pw_split r Hr k). pose proof (nr_pos _ Hb). pose proof (pw_pos r Hr k). pose proof (nr_pos _ (rpos (Z.to_N (- k)))). field. repeat split; lra.
  Qed.
  Lemma pred_p : (r * r ^ (p - 1) = r ^ p)%N.
  Proof. replace p with (N.succ (p - 1)) at 2 by lia. rewrite N.pow_succ_r'. reflexivity. Qed.

  Lemma round_to_eq : forall a b a' b', (0 < a)%N -> (0 < b)%N -> (0 < a')%N -> (0 < b')%N -> (a * b' = a' * b)%N -> round_to r p a b = round_to r p a' b'.
  Proof.
    intros a b a' b' Ha Hb Ha' Hb' E. unfold round_to.
    assert (V : nr a / nr b = nr a' / nr b'). { apply f_equal with (f := nr) in E. rewrite !nr_mult in E. pose proof (nr_pos _ Hb). pose proof (nr_pos _ Hb'). apply (Rmult_eq_reg_r (nr b * nr b')); [|nra]. field_simplify; lra. }
    assert (L : leading r a b = leading r a' b'). { apply (leading_unique r Hr (nr a / nr b)); [apply leading_spec; assumption|rewrite V; apply leading_spec; assumption]. }
    rewrite <- L. set (k := (leading r a b - Z.of_N p + 1)%Z).
    rewrite (nearest_eq (a * r ^ Z.to_N (- k)) (b * r ^ Z.to_N k) (a' * r ^ Z.to_N (- k)) (b' * r ^ Z.to_N k)); [reflexivity| | |].
    - pose proof (rpos (Z.to_N k)). nia.
    - pose proof (rpos (Z.to_N k)). nia.
    - transitivity (a * b' * (r ^ Z.to_N (- k) * r ^ Z.to_N k))%N; [lia|]. rewrite E. lia.
  Qed.

  (** The scaled value lies between r^(p-1) and r^p. *)
  Lemma scaled_range : forall a b, (0 < a)%N -> (0 < b)%N -> let k := (leading r a b - Z.of_N p + 1)%Z in
    nr (r ^ (p - 1)) <= nr a / nr b / pw r k < nr (r ^ p).
  Proof.
    intros a b Ha Hb k. pose proof (leading_spec r Hr a b Ha Hb) as [L1 L2]. pose proof (pw_pos r Hr k) as K.
    replace (leading r a b) with (Z.of_N (p - 1) + k)%Z in L1 by lia. replace (leading r a b + 1)%Z with (Z.of_N p + k)%Z in L2 by lia. rewrite pw_add in L1, L2 by exact Hr. rewrite !pw_N by exact Hr.
    split.
    - apply (Rmult_le_reg_r (pw r k)); [exact K|]. replace (nr a / nr b / pw r k * pw r k) with (nr a / nr b); [exact L1|]. unfold Rdiv. rewrite (Rmult_assoc _ (/ pw r k)), Rinv_l by lra. lra.
    - apply (Rmult_lt_reg_r (pw r k)); [exact K|]. replace (nr a / nr b / pw r k * pw r k) with (nr a / nr b); [exact L2|]. unfold Rdiv. rewrite (Rmult_assoc _ (/ pw r k)), Rinv_l by lra. lra.
  Qed.
  Lemma nearest_range : forall v n lo hi, Rabs (v - nr n) <= / 2 -> nr lo <= v < nr hi -> (lo <= n <= hi)%N.
  Proof.
    intros v n lo hi H [L U]. unfold nr in *. assert (H' : Rabs (v - IZR (Z.of_N n)) < 1) by (eapply Rle_lt_trans; [exact H|lra]). apply Rabs_def2 in H'. destruct H' as [H1 H2].
    assert (A : IZR (Z.of_N lo) < IZR (Z.of_N n + 1)) by (rewrite plus_IZR; lra). assert (B : IZR (Z.of_N n) < IZR (Z.of_N hi + 1)) by (rewrite plus_IZR; lra).
    apply lt_IZR in A, B. lia.
  Qed.

  Lemma round_to_canonical : forall a b, (0 < a)%N -> (0 < b)%N -> canonical (round_to r p a b).
  Proof.
    intros a b Ha Hb. unfold round_to. set (k := (leading r a b - Z.of_N p + 1)%Z). assert (Bp : (0 < b * r ^ Z.to_N k)%N) by (pose proof (rpos (Z.to_N k)); nia).
    pose proof (nearest_error (a * r ^ Z.to_N (- k)) _ Bp) as E. rewrite scaled in E by exact Hb. pose proof (nearest_range _ _ _ _ E (scaled_range a b Ha Hb)) as [G1 G2].
    destruct (nearest _ _ =? r ^ p)%N eqn:Q; [|apply N.eqb_neq in Q]; unfold canonical; cbn [fst].
    - split; [lia|]. rewrite <- pred_p. pose proof (rpos (p - 1)). nia.
    - lia.
  Qed.
  Lemma round_to_error : forall a b, (0 < a)%N -> (0 < b)%N -> Rabs (nr a / nr b - real (round_to r p a b)) <= / 2 * pw r (snd (round_to r p a b)).
  Proof.
    intros a b Ha Hb. unfold round_to. set (k := (leading r a b - Z.of_N p + 1)%Z). assert (Bp : (0 < b * r ^ Z.to_N k)%N) by (pose proof (rpos (Z.to_N k)); nia).
    pose proof (nearest_error (a * r ^ Z.to_N (- k)) _ Bp) as E. rewrite scaled in E by exact Hb. set (n := nearest _ _) in *. pose proof (pw_pos r Hr k) as K.
    assert (E' : Rabs (nr a / nr b - nr n * pw r k) <= / 2 * pw r k).
    { replace (nr a / nr b - nr n * pw r k) with ((nr a / nr b / pw r k - nr n) * pw r k) by (generalize (nr a / nr b); intros; field; lra). rewrite Rabs_mult, (Rabs_pos_eq (pw r k)) by lra. apply Rmult_le_compat_r; lra. }
    destruct (n =? r ^ p)%N eqn:Q; unfold real; cbn [fst snd]; [|exact E']. apply N.eqb_eq in Q. rewrite Q in E'.
    replace (nr (r ^ (p - 1)) * pw r (k + 1)) with (nr (r ^ p) * pw r k) by (rewrite <- pred_p, nr_mult, pw_succ by exact Hr; lra).
    eapply Rle_trans; [exact E'|]. rewrite pw_succ by exact Hr. pose proof (nr_radix r Hr). nra.
  Qed.
  (** A canonical number near enough to a/b is the rounded value. *)
  Lemma round_to_unique : forall a b m k, (0 < a)%N -> (0 < b)%N -> canonical (m, k) ->
    (pw r (Z.of_N p - 1 + k) <= nr a / nr b /\ Rabs (nr a / nr b - real (m, k)) < / 2 * pw r k \/
     nr a / nr b < pw r (Z.of_N p - 1 + k) /\ m = (r ^ (p - 1))%N /\ Rabs (nr a / nr b - real (m, k)) < / 2 * pw r (k - 1)) ->
    round_to r p a b = (m, k).
  Proof.
    intros a b m k Ha Hb Cn H. unfold canonical in Cn. cbn [fst] in Cn. unfold real in H. cbn [fst snd] in H. set (v := nr a / nr b) in *.
    assert (Kp := pw_pos r Hr). assert (RP := nr_radix r Hr).
    assert (EP : pw r (Z.of_N p - 1 + k) = nr (r ^ (p - 1)) * pw r k) by (rewrite pw_N, <- pw_add by exact Hr; f_equal; lia).
    destruct H as [[H1 H2]|(H1 & Em & H2)].
    - assert (L : leading r a b = (Z.of_N p - 1 + k)%Z).
      { apply (leading_unique r Hr v); [apply leading_spec; assumption|]. split; [exact H1|]. apply Rabs_def2 in H2. destruct H2 as [H2 _].
        replace (Z.of_N p - 1 + k + 1)%Z with (Z.of_N p + k)%Z by lia. rewrite pw_add, <- pw_N by exact Hr.
        assert (Q : nr m + 1 <= nr (r ^ p)). { change 1 with (nr 1). rewrite <- nr_plus. apply nr_le. lia. } specialize (Kp k). nra. }
      unfold round_to. rewrite L. replace (Z.of_N p - 1 + k - Z.of_N p + 1)%Z with k by lia.
      assert (Nn : nearest (a * r ^ Z.to_N (- k)) (b * r ^ Z.to_N k) = m).
      { apply nearest_unique; [pose proof (rpos (Z.to_N k)); nia|]. rewrite scaled by exact Hb. fold v. specialize (Kp k).
        replace (v / pw r k - nr m) with ((v - nr m * pw r k) * / pw r k) by (field; lra). rewrite Rabs_mult, (Rabs_pos_eq (/ pw r k)) by (left; apply Rinv_0_lt_compat; lra).
        apply (Rmult_lt_reg_r (pw r k)); [exact Kp|]. rewrite Rmult_assoc, Rinv_l by lra. lra. }
      rewrite Nn. destruct (m =? r ^ p)%N eqn:Q; [apply N.eqb_eq in Q; lia|reflexivity].
    - subst m. rewrite EP in H1. set (j := (k - 1)%Z) in *. assert (Ek : pw r k = nr r * pw r j) by (rewrite <- pw_succ by exact Hr; f_equal; lia).
      assert (EP' : nr (r ^ (p - 1)) * pw r k = nr (r ^ p) * pw r j) by (rewrite Ek, <- pred_p, nr_mult; lra). rewrite EP' in *. specialize (Kp j). apply Rabs_def2 in H2. destruct H2 as [_ H2].
      assert (L : leading r a b = (Z.of_N p - 1 + j)%Z).
      { apply (leading_unique r Hr v); [apply leading_spec; assumption|]. replace (Z.of_N p - 1 + j + 1)%Z with (Z.of_N p + j)%Z by lia. rewrite (pw_add r Hr (Z.of_N p)), <- pw_N by exact Hr. split; [|exact H1].
        replace (Z.of_N p - 1 + j)%Z with (Z.of_N (p - 1) + j)%Z by lia. rewrite pw_add, <- pw_N by exact Hr.
        assert (Q : nr (r ^ (p - 1)) + 1 <= nr (r ^ p)). { change 1 with (nr 1). rewrite <- nr_plus. apply nr_le. rewrite <- pred_p. pose proof (rpos (p - 1)). nia. } nra. }
      unfold round_to. rewrite L. replace (Z.of_N p - 1 + j - Z.of_N p + 1)%Z with j by lia.
      assert (Nn : nearest (a * r ^ Z.to_N (- j)) (b * r ^ Z.to_N j) = (r ^ p)%N).
      { apply nearest_unique; [pose proof (rpos (Z.to_N j)); nia|]. rewrite scaled by exact Hb. fold v.
        assert (Q : v / pw r j * pw r j = v) by (field; lra). apply Rabs_def1; apply (Rmult_lt_reg_r (pw r j)); try exact Kp; rewrite Rmult_minus_distr_r, Q; nra. }
      rewrite Nn, N.eqb_refl. f_equal. lia.
  Qed.
End Digits.

(** ** Fifteen digits survive *)
Lemma frac_value : forall r m k, (2 <= r)%N -> nr (fst (frac m r k)) / nr (snd (frac m r k)) = nr m * pw r k.
Proof.
  intros r m k Hr. unfold frac. cbn [fst snd]. rewrite nr_mult, <- (pw_split r Hr k). pose proof (nr_pos _ (radix_pow_pos r Hr (Z.to_N (- k)))). field. lra.
Qed.
Lemma frac_pos : forall r m k, (2 <= r)%N -> (0 < m)%N -> (0 < fst (frac m r k))%N /\ (0 < snd (frac m r k))%N.
Proof. intros r m k Hr Hm. unfold frac. cbn [fst snd]. pose proof (radix_pow_pos r Hr (Z.to_N k)). pose proof (radix_pow_pos r Hr (Z.to_N (- k))). split; nia. Qed.
Lemma ten : (2 <= 10)%N. Proof. discriminate. Qed.
Lemma two : (2 <= 2)%N. Proof. discriminate. Qed.

(** Rounding a number of 15 decimal digits to 53 bits and back to 15 digits. *)
Lemma digits_survive : forall m k, canonical 10 15 (m, k) ->
  let bin := round_to 2 53 (fst (frac m 10 k)) (snd (frac m 10 k)) in
  round_to 10 15 (fst (frac (fst bin) 2 (snd bin))) (snd (frac (fst bin) 2 (snd bin))) = (m, k).
Proof.
  intros m k Cn bin. assert (Cn' := Cn). unfold canonical in Cn'. cbn [fst] in Cn'. assert (Hm : (0 < m)%N) by (change (10 ^ (15 - 1))%N with 100000000000000%N in Cn'; lia).
  destruct (frac_pos 10 m k ten Hm) as [Pa Pb]. pose proof (round_to_canonical 2 53 two eq_refl _ _ Pa Pb) as B. fold bin in B. pose proof (round_to_error 2 53 two eq_refl _ _ Pa Pb) as E. fold bin in E.
  rewrite frac_value in E by exact ten. unfold canonical in B. assert (Hb : (0 < fst bin)%N) by (change (2 ^ (53 - 1))%N with 4503599627370496%N in B; lia).
  destruct (frac_pos 2 (fst bin) (snd bin) two Hb) as [Pc Pd]. apply round_to_unique; try assumption; try exact ten; try reflexivity. rewrite frac_value by exact two.
  fold (real 2 bin). change (real 10 (m, k)) with (nr m * pw 10 k). set (d := real 2 bin) in *. set (v := nr m * pw 10 k) in *.
  assert (Eb : pw 2 (snd bin) * 4503599627370496 <= d). { unfold d, real. destruct B as [B _]. apply nr_le in B. change (nr (2 ^ (53 - 1))) with 4503599627370496 in B. pose proof (pw_pos 2 two (snd bin)). nra. }
  assert (Pv : 0 < pw 10 k) by (apply pw_pos; exact ten).
  (* |v - d| <= d / 2^53 *)
  assert (Ed : Rabs (v - d) * 9007199254740992 <= d) by lra.
  assert (M1 : nr m + 1 <= 1000000000000000). { change 1000000000000000 with (nr (10 ^ 15)). change 1 with (nr 1). rewrite <- nr_plus. apply nr_le. lia. }
  assert (M0 : 100000000000000 <= nr m). { change 100000000000000 with (nr (10 ^ (15 - 1))). apply nr_le. lia. }
  assert (Vu : v <= 1000000000000000 * pw 10 k) by (unfold v; nra).
  assert (V0 : 0 < v) by (apply Rmult_lt_0_compat; lra).
  assert (Dv : d <= v * 2). { destruct (Rle_or_lt d v) as [|G]; [lra|]. rewrite Rabs_left in Ed by lra. lra. }
  rewrite <- Rabs_Ropp in Ed. replace (- (v - d)) with (d - v) in Ed by lra.
  assert (EP : pw 10 (Z.of_N 15 - 1 + k) = 100000000000000 * pw 10 k). { replace (Z.of_N 15 - 1 + k)%Z with (Z.of_N 14 + k)%Z by lia. rewrite pw_add, <- pw_N by exact ten. reflexivity. }
  assert (EJ : pw 10 k = 10 * pw 10 (k - 1)). { replace k with (k - 1 + 1)%Z at 1 by lia. rewrite pw_succ by exact ten. reflexivity. }
  rewrite EP. destruct (Rle_or_lt (100000000000000 * pw 10 k) d) as [G|G].
  - left. split; [exact G|]. lra.
  - right. split; [exact G|]. rewrite Rabs_left in * by (unfold v; nra).
    assert (Em : m = (10 ^ (15 - 1))%N).
    { apply nr_inj. change (nr (10 ^ (15 - 1))) with 100000000000000. destruct (Rle_or_lt (nr m) 100000000000000) as [|Q]; [lra|exfalso].
      assert (Q' : 100000000000001 <= nr m). { change 100000000000001 with (nr (10 ^ (15 - 1) + 1)). apply nr_le. assert (10 ^ (15 - 1) < m)%N by (apply nr_lt; exact Q). lia. }
      unfold v in *. nra. }
    split; [exact Em|]. assert (Hv : v = 100000000000000 * pw 10 k) by (unfold v; rewrite Em; reflexivity). nra.
Qed.

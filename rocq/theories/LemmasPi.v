From Coq Require Import Reals Lia Lra Machin Ranalysis Rtrigo_facts.
From Verif Require Import ModelPi.
Open Scope R_scope.

Lemma pi_below : PI < code_pi.
Proof.
  destruct (PI_2_3_7_ineq 7) as [_ H]. unfold PI_2_3_7_tg, tg_alt, Ratan_seq in H. cbn [sum_f_R0 Nat.mul Nat.add pow INR] in H.
  unfold code_pi. lra.
Qed.
Lemma pi_close : code_pi < PI + 3 / 10000000000000.
Proof.
  destruct (PI_2_3_7_ineq 6) as [H _]. unfold PI_2_3_7_tg, tg_alt, Ratan_seq in H. cbn [sum_f_R0 Nat.mul Nat.add pow INR] in H.
  unfold code_pi. lra.
Qed.
Lemma sin_abs : forall x, Rabs (sin x) <= Rabs x.
Proof.
  assert (P : forall x, 0 <= x -> Rabs (sin x) <= x).
  { intros x Hx. destruct (Rle_lt_dec x 1) as [L | L].
    - destruct (Req_dec x 0) as [-> | N]; [rewrite sin_0, Rabs_R0; lra |].
      rewrite Rabs_pos_eq; [left; apply sin_lt_x; lra |]. apply sin_ge_0; [exact Hx |]. pose proof PI2_3_2. lra.
    - pose proof (SIN_bound x). apply Rabs_le. lra. }
  intros x. destruct (Rle_lt_dec 0 x) as [L | L]; [rewrite (Rabs_pos_eq x) by exact L; apply P; exact L |].
  rewrite (Rabs_left x) by exact L. rewrite <- (Rabs_Ropp (sin x)), <- sin_neg. apply P. lra.
Qed.
Lemma cos_lip : forall a b, Rabs (cos a - cos b) <= Rabs (a - b).
Proof.
  intros a b. rewrite form2. pose proof (sin_abs ((a - b) / 2)) as H. pose proof (SIN_bound ((a + b) / 2)) as S.
  replace (Rabs (a - b)) with (2 * Rabs ((a - b) / 2)) by (unfold Rdiv; rewrite Rabs_mult, (Rabs_pos_eq (/ 2)) by lra; field).
  rewrite !Rabs_mult. replace (Rabs (-2)) with 2 by (unfold Rabs; destruct (Rcase_abs (-2)); lra).
  assert (Rabs (sin ((a + b) / 2)) <= 1) by (apply Rabs_le; lra). pose proof (Rabs_pos (sin ((a - b) / 2))). pose proof (Rabs_pos (sin ((a + b) / 2))). nra.
Qed.
Lemma sin_lip : forall a b, Rabs (sin a - sin b) <= Rabs (a - b).
Proof.
  intros a b. rewrite <- !cos_shift. eapply Rle_trans; [apply cos_lip |]. replace (PI / 2 - a - (PI / 2 - b)) with (- (a - b)) by ring. rewrite Rabs_Ropp. lra.
Qed.
(** Degrees with the constant of the code. *)
Lemma deg_close : forall x, Rabs (x * code_pi / 180 - x * (PI / 180)) <= Rabs x * (2 / 1000000000000000).
Proof.
  intros x. replace (x * code_pi / 180 - x * (PI / 180)) with (x * ((code_pi - PI) / 180)) by field. rewrite Rabs_mult.
  pose proof pi_below. pose proof pi_close. apply Rmult_le_compat_l; [apply Rabs_pos |]. rewrite Rabs_pos_eq; lra.
Qed.

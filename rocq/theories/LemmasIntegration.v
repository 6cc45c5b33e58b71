(** Checking the quadrature tables by integer arithmetic. *)
From Coq Require Import ZArith QArith Reals Qreals List Arith Lia Lra Bool.
From Coquelicot Require Import Coquelicot.
From Verif Require Import ModelIntegration SpecBasis SpecIntegration LemmasBasis2.
Import ListNotations.
Open Scope R_scope.

(** ** Decimals as integers over a common denominator *)
Definition scaled (s : Z) (q : Q) : Z := (Qnum q * (s / Zpos (Qden q)))%Z.
Definition scale_ok (s : Z) (q : Q) : bool := (s mod Zpos (Qden q) =? 0)%Z.
Lemma scaled_value : forall s q, (s <> 0)%Z -> scale_ok s q = true -> Q2R q = IZR (scaled s q) / IZR s.
Proof.
  intros s [n d] Hs H. unfold scale_ok, scaled in *. cbn in *. apply Z.eqb_eq in H.
  assert (E : s = (Zpos d * (s / Zpos d))%Z) by (pose proof (Z.div_mod s (Zpos d) ltac:(lia)); lia).
  unfold Q2R. cbn. rewrite E at 2. rewrite !mult_IZR.
  assert (IZR (s / Zpos d) <> 0) by (apply not_0_IZR; intros X; rewrite X in E; lia).
  assert (IZR (Zpos d) <> 0) by (apply not_0_IZR; lia). field. split; assumption.
Qed.

(** ** Exact moments *)
(** (-1)^k *)
Definition altz (k : nat) : Z := if Nat.even k then 1%Z else (-1)%Z.
Lemma altz_pow : forall k, IZR (altz k) = (-1) ^ k.
Proof.
  unfold altz. induction k as [|k IH]; [reflexivity|]. rewrite Nat.even_succ, <- Nat.negb_even. cbn [pow]. rewrite <- IH.
  destruct (Nat.even k); cbn [negb]; lra.
Qed.
(** integral of x^k over [-1,1] *)
Definition mom (k : nat) : R := (1 - (-1) ^ S k) / INR (S k).
Lemma int_pow : forall (a b : R) k, is_RInt (fun x => x ^ k) a b ((b ^ S k - a ^ S k) / INR (S k)).
Proof.
  intros a b k. assert (N : INR (S k) <> 0) by (apply not_0_INR; discriminate).
  replace ((b ^ S k - a ^ S k) / INR (S k)) with (minus (b ^ S k / INR (S k)) (a ^ S k / INR (S k))).
  - apply (is_RInt_derive (fun x => x ^ S k / INR (S k)) (fun x => x ^ k)).
    + intros x _. auto_derive; [exact I|]. cbn [pred].
      change (match k with 0%nat => 1 | S _ => INR k + 1 end) with (INR (S k)). field. exact N.
    + intros x _. apply (ex_derive_continuous (V := R_NormedModule)). auto_derive. exact I.
  - unfold minus, plus, opp; cbn -[INR pow]. field. exact N.
Qed.
Lemma int_mom : forall k, is_RInt (fun x => x ^ k) (-1) 1 (mom k).
Proof.
  intros k. replace (mom k) with ((1 ^ S k - (-1) ^ S k) / INR (S k)) by (unfold mom; rewrite pow1; reflexivity). apply int_pow.
Qed.
(** integral of x^i y^j over the master triangle *)
Definition mom2 (i j : nat) : R := (-1) ^ S i / INR (S i) * (mom (S i + j) - mom j).
Definition inner2 (i j : nat) (y : R) : R := ((- y) ^ S i - (-1) ^ S i) / INR (S i) * y ^ j.
Lemma int_inner2 : forall i j y, is_RInt (fun x => x ^ i * y ^ j) (-1) (- y) (inner2 i j y).
Proof.
  intros i j y. apply is_RInt_eq with (f := fun x => y ^ j * x ^ i) (v1 := y ^ j * (((- y) ^ S i - (-1) ^ S i) / INR (S i))).
  - apply is_RInt_sc, int_pow.
  - intros. ring.
  - unfold inner2. ring.
Qed.
Lemma int_outer2 : forall i j, is_RInt (inner2 i j) (-1) 1 (mom2 i j).
Proof.
  intros i j. assert (N : INR (S i) <> 0) by (apply not_0_INR; discriminate).
  apply is_RInt_eq with (f := fun y => (-1) ^ S i / INR (S i) * (y ^ (S i + j) + (-1) * y ^ j)) (v1 := (-1) ^ S i / INR (S i) * (mom (S i + j) + (-1) * mom j)).
  - apply is_RInt_sc, is_RInt_pl; [apply int_mom|apply is_RInt_sc, int_mom].
  - intros y. unfold inner2. replace (- y) with ((-1) * y) by ring. rewrite Rpow_mult_distr, pow_add. field. exact N.
  - unfold mom2. ring.
Qed.

(** ** Rounded integer moments *)
(** A weight times a monomial, over the denominator [big]; the coordinates over [s]. *)
Section Rounded.
  Context (s big b : Z) (Hs : (0 < s)%Z) (Hbig : (0 < big)%Z) (Hb : (0 <= b)%Z).
  Notation zp := (Z * (Z * Z))%type.
  Notation rp := (R * (R * R))%type.
  Definition mono (i j : nat) (q : rp) : R := fst q * (fst (snd q) ^ i * snd (snd q) ^ j).
  Definition near (i j : nat) (e : Z) (z : zp) (q : rp) : Prop :=
    fst (snd q) = IZR (fst (snd z)) / IZR s /\ snd (snd q) = IZR (snd (snd z)) / IZR s
    /\ (Z.abs (fst (snd z)) <= b * s)%Z /\ (Z.abs (snd (snd z)) <= b * s)%Z
    /\ Rabs (IZR (fst z) - mono i j q * IZR big) <= IZR e.
  Definition mulx (z : zp) : zp := (fst z * fst (snd z) / s, snd z)%Z.
  Definition muly (z : zp) : zp := (fst z * snd (snd z) / s, snd z)%Z.
  Definition zsum (l : list zp) : Z := fold_right (fun z a => (fst z + a)%Z) 0%Z l.
  Definition msum (i j : nat) (l : list rp) : R := fold_right (fun q a => mono i j q + a) 0 l.
  Lemma round_near : forall p x e (v : R), (Z.abs x <= b * s)%Z -> (0 <= e)%Z -> Rabs (IZR p - v) <= IZR e ->
    Rabs (IZR (p * x / s) - v * (IZR x / IZR s)) <= IZR (b * e + 1).
  Proof.
    intros p x e v Hx He H.
    assert (S0 : 0 < IZR s) by (apply IZR_lt in Hs; exact Hs).
    pose proof (Z.div_mod (p * x) s ltac:(lia)) as D. pose proof (Z.mod_pos_bound (p * x) s Hs) as M.
    set (q := (p * x / s)%Z) in *. set (r := ((p * x) mod s)%Z) in *.
    assert (DR : IZR q = IZR p * (IZR x / IZR s) - IZR r / IZR s).
    { apply (f_equal IZR) in D. rewrite plus_IZR, !mult_IZR in D. apply (Rmult_eq_reg_l (IZR s)); [|lra].
      replace (IZR s * (IZR p * (IZR x / IZR s) - IZR r / IZR s)) with (IZR p * IZR x - IZR r) by (field; lra). lra. }
    assert (RB : Rabs (IZR r / IZR s) <= 1).
    { destruct M as [M0 M1]. apply IZR_le in M0. apply IZR_lt in M1.
      rewrite Rabs_right by (apply Rle_ge, Rle_mult_inv_pos; assumption).
      apply (Rmult_le_reg_r (IZR s)); [exact S0|]. replace (IZR r / IZR s * IZR s) with (IZR r) by (field; lra). lra. }
    assert (XB : Rabs (IZR x / IZR s) <= IZR b).
    { unfold Rdiv. rewrite Rabs_mult, (Rabs_right (/ _)) by (apply Rle_ge, Rlt_le, Rinv_0_lt_compat; exact S0).
      apply IZR_le in Hx. rewrite abs_IZR, mult_IZR in Hx.
      apply (Rmult_le_reg_r (IZR s)); [exact S0|]. replace (Rabs (IZR x) * / IZR s * IZR s) with (Rabs (IZR x)) by (field; lra). exact Hx. }
    rewrite DR, plus_IZR, mult_IZR.
    replace (IZR p * (IZR x / IZR s) - IZR r / IZR s - v * (IZR x / IZR s)) with ((IZR x / IZR s) * (IZR p - v) + - (IZR r / IZR s)) by ring.
    eapply Rle_trans; [apply Rabs_triang|]. rewrite Rabs_Ropp, Rabs_mult. apply Rplus_le_compat; [|exact RB].
    apply Rmult_le_compat; (apply Rabs_pos || assumption).
  Qed.
  Lemma near_mulx : forall i j e z q, (0 <= e)%Z -> near i j e z q -> near (S i) j (b * e + 1) (mulx z) q.
  Proof.
    intros i j e [p [x y]] [w [xr yr]] He (H1 & H2 & H3 & H4 & H5). unfold near, mulx, mono in *. cbn [fst snd] in *.
    refine (conj H1 (conj H2 (conj H3 (conj H4 _)))).
    replace (w * (xr ^ S i * yr ^ j) * IZR big) with (w * (xr ^ i * yr ^ j) * IZR big * (IZR x / IZR s)) by (rewrite <- H1; cbn [pow]; ring).
    apply round_near; assumption.
  Qed.
  Lemma near_muly : forall i j e z q, (0 <= e)%Z -> near i j e z q -> near i (S j) (b * e + 1) (muly z) q.
  Proof.
    intros i j e [p [x y]] [w [xr yr]] He (H1 & H2 & H3 & H4 & H5). unfold near, muly, mono in *. cbn [fst snd] in *.
    refine (conj H1 (conj H2 (conj H3 (conj H4 _)))).
    replace (w * (xr ^ i * yr ^ S j) * IZR big) with (w * (xr ^ i * yr ^ j) * IZR big * (IZR y / IZR s)) by (rewrite <- H2; cbn [pow]; ring).
    apply round_near; assumption.
  Qed.
  Lemma near_sum : forall i j e l r, Forall2 (near i j e) l r -> Rabs (IZR (zsum l) - msum i j r * IZR big) <= IZR (Z.of_nat (length l) * e).
  Proof.
    intros i j e l r H. induction H as [|z q l r H F IH]; [cbn; rewrite Rmult_0_l, Rminus_0_r, Rabs_R0; lra|].
    change (zsum (z :: l)) with (fst z + zsum l)%Z. change (msum i j (q :: r)) with (mono i j q + msum i j r).
    cbn [length]. rewrite Nat2Z.inj_succ, Z.mul_succ_l, !plus_IZR.
    replace (IZR (fst z) + IZR (zsum l) - (mono i j q + msum i j r) * IZR big)
      with ((IZR (zsum l) - msum i j r * IZR big) + (IZR (fst z) - mono i j q * IZR big)) by ring.
    eapply Rle_trans; [apply Rabs_triang|]. apply Rplus_le_compat; [exact IH|]. apply H.
  Qed.

  (** the sum against num/den within c/t *)
  Context (num den : nat -> nat -> Z) (c t : Z) (Hden : forall i j, (0 < den i j)%Z) (Ht : (0 < t)%Z).
  Definition test (i j : nat) (sm e : Z) : bool :=
    ((Z.abs (sm * den i j - num i j * big) + e * den i j) * t <=? c * (den i j * big))%Z.
  Lemma test_ok : forall i j sm e (v : R), test i j sm e = true -> Rabs (IZR sm - v * IZR big) <= IZR e ->
    Rabs (v - IZR (num i j) / IZR (den i j)) <= IZR c / IZR t.
  Proof.
    intros i j sm e v H V. unfold test in H. apply Z.leb_le, IZR_le in H.
    rewrite !mult_IZR, plus_IZR, abs_IZR, minus_IZR, !mult_IZR in H.
    assert (B0 : 0 < IZR big) by (apply IZR_lt in Hbig; exact Hbig).
    assert (D0 : 0 < IZR (den i j)) by (exact (IZR_lt _ _ (Hden i j))).
    assert (T0 : 0 < IZR t) by (apply IZR_lt in Ht; exact Ht).
    set (D := IZR (den i j)) in *. set (N := IZR (num i j)) in *. set (B := IZR big) in *. set (T := IZR t) in *.
    apply (Rmult_le_reg_r (D * B * T)); [apply Rmult_lt_0_compat; [apply Rmult_lt_0_compat|]; assumption|].
    replace (IZR c / T * (D * B * T)) with (IZR c * (D * B)) by (field; lra).
    eapply Rle_trans; [|exact H]. rewrite <- Rmult_assoc. apply Rmult_le_compat_r; [lra|].
    replace (Rabs (v - N / D) * (D * B)) with (Rabs (v * B * D - N * B)).
    - replace (v * B * D - N * B) with ((IZR sm * D - N * B) + - (IZR sm - v * B) * D) by ring.
      eapply Rle_trans; [apply Rabs_triang|]. apply Rplus_le_compat_l. rewrite Rabs_mult, Rabs_Ropp, (Rabs_right D) by lra.
      apply Rmult_le_compat_r; lra.
    - replace (v * B * D - N * B) with ((v - N / D) * (D * B)) by (field; lra).
      rewrite Rabs_mult, (Rabs_right (D * B)); [reflexivity|]. apply Rle_ge, Rlt_le, Rmult_lt_0_compat; assumption.
  Qed.
  Fixpoint check_row (n i j : nat) (l : list zp) (len e : Z) : bool :=
    match n with
    | O => true
    | S n => test i j (zsum l) (len * e) && check_row n i (S j) (map muly l) len (b * e + 1)
    end.
  Fixpoint check_all (n : nat) (rows : nat -> nat) (i : nat) (l : list zp) (len e : Z) : bool :=
    match n with
    | O => true
    | S n => check_row (rows i) i 0 l len e && check_all n rows (S i) (map mulx l) len (b * e + 1)
    end.
  Lemma forall2_map_l : forall (A B C : Type) (f : A -> B) (P : A -> C -> Prop) (Q : B -> C -> Prop) l r,
    (forall a x, P a x -> Q (f a) x) -> Forall2 P l r -> Forall2 Q (map f l) r.
  Proof. intros A B C0 f P Q l r H F. induction F; cbn; constructor; auto. Qed.
  Lemma check_row_ok : forall n i j l r e, (0 <= e)%Z -> Forall2 (near i j e) l r ->
    check_row n i j l (Z.of_nat (length l)) e = true ->
    forall k, (k < n)%nat -> Rabs (msum i (j + k) r - IZR (num i (j + k)) / IZR (den i (j + k))) <= IZR c / IZR t.
  Proof.
    induction n as [|n IH]; intros i j l r e He F H k Hk; [lia|]. cbn [check_row] in H. apply andb_true_iff in H. destruct H as [H1 H2].
    destruct k as [|k].
    - rewrite Nat.add_0_r. apply (test_ok _ _ _ _ _ H1). apply near_sum, F.
    - replace (j + S k)%nat with (S j + k)%nat by lia. apply (IH i (S j) (map muly l) r (b * e + 1)%Z); [nia| |rewrite map_length; exact H2|lia].
      apply (forall2_map_l _ _ _ muly (near i j e)); [|exact F]. intros z q. apply near_muly, He.
  Qed.
  Lemma check_all_ok : forall n rows i l r e, (0 <= e)%Z -> Forall2 (near i 0 e) l r ->
    check_all n rows i l (Z.of_nat (length l)) e = true ->
    forall k j, (k < n)%nat -> (j < rows (i + k))%nat -> Rabs (msum (i + k) j r - IZR (num (i + k) j) / IZR (den (i + k) j)) <= IZR c / IZR t.
  Proof.
    induction n as [|n IH]; intros rows i l r e He F H k j Hk Hj; [lia|]. cbn [check_all] in H. apply andb_true_iff in H. destruct H as [H1 H2].
    destruct k as [|k].
    - rewrite Nat.add_0_r in *. apply (check_row_ok _ _ _ _ _ _ He F H1 j Hj).
    - replace (i + S k)%nat with (S i + k)%nat in * by lia. apply (IH rows (S i) (map mulx l) r (b * e + 1)%Z); [nia| |rewrite map_length; exact H2|lia|exact Hj].
      apply (forall2_map_l _ _ _ mulx (near i 0 e)); [|exact F]. intros z q. apply near_mulx, He.
  Qed.
End Rounded.

(** ** The 1D tables *)
Definition to_R (wx : Q * Q) : R * R := (Q2R (fst wx), Q2R (snd wx)).
Definition s1 : Z := (10 ^ 31)%Z.
Definition gl_ok (wx : Q * Q) : bool :=
  scale_ok s1 (fst wx) && scale_ok s1 (snd wx) && (Z.abs (scaled s1 (snd wx)) <=? 1 * s1)%Z.
Definition gl_int (wx : Q * Q) : Z * (Z * Z) := (scaled s1 (fst wx), (scaled s1 (snd wx), 0%Z)).
Definition gl_num1 (i j : nat) : Z := (1 - altz (S i))%Z.
Definition gl_den1 (i j : nat) : Z := Z.of_nat (S i).
Definition gl_check (n : nat) : bool :=
  forallb gl_ok (gl_data n)
  && check_all s1 s1 1 gl_num1 gl_den1 1 (10 ^ 26) (2 * n) (fun _ => 1%nat) 0 (map gl_int (gl_data n)) (Z.of_nat (length (map gl_int (gl_data n)))) 0.
Lemma gl_checked : forallb gl_check (seq 1 33) = true.
Proof. vm_compute. reflexivity. Qed.

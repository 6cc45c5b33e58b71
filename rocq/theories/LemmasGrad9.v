(** Proofs: pairs of faces before and after the exchange, reconstruction from the midpoints. *)
From Coq Require Import Reals List Bool Arith Lra Lia.
From Verif Require Import Num Outcome ModelSWE ModelShape ModelBasis ModelJac ModelSlope ModelStep ModelGN ModelGrad.
Import ListNotations.
Open Scope R_scope.

Lemma almost_zero : forall x, almost_equal x 0 = true <-> Rabs x < 100 / 2 ^ 52.
Proof.
  intros x. assert (E : epsilon * 100 = 100 / 2 ^ 52) by (unfold epsilon; field). assert (P : 0 < epsilon < / 200).
  { unfold epsilon. split; [apply Rinv_0_lt_compat, pow_lt; lra|]. apply Rinv_lt_contravar; [|lra]. apply Rmult_lt_0_compat; [lra|apply pow_lt; lra]. }
  unfold almost_equal. rewrite Rabs_R0, Rmax_left, Rminus_0_r by apply Rabs_pos. destruct (Rltb_spec (Rabs x) (epsilon * 100)) as [L|L].
  - split; [intros _; lra|reflexivity].
  - pose proof (Rabs_pos x). destruct (Rltb_spec (Rabs x) (Rabs x * epsilon * 100)) as [L'|L']; [nra|]. split; [discriminate|lra].
Qed.
Lemma clean_cases : forall x, (Rabs x < 100 / 2 ^ 52 -> clean x = 0) /\ (100 / 2 ^ 52 <= Rabs x -> clean x = x).
Proof.
  intros x. unfold clean. destruct (almost_zero x) as [A B]. destruct (almost_equal x 0).
  - specialize (A eq_refl). split; [reflexivity|lra].
  - split; [intros L; specialize (B L); discriminate|reflexivity].
Qed.
Section Pairs.
  Context (solve : mat2 -> point -> point) (c : point) (mid nb : nat -> point) (dist : nat -> bool).
  Lemma first_local : forall b r, pairs_serial solve c mid nb dist b = Some r -> exists perm, (perm < 2)%nat /\ try_pair solve c mid nb b perm = Some r /\
    dist b = false /\ dist ((b + perm + 1) mod 3)%nat = false.
  Proof.
    intros b r H. unfold pairs_serial, search in H.
    assert (D : forall perm, negb (dist b) && negb (dist ((b + perm + 1) mod 3)%nat) = true -> dist b = false /\ dist ((b + perm + 1) mod 3)%nat = false).
    { intros perm K. apply andb_prop in K. rewrite !negb_true_iff in K. exact K. }
    destruct (negb (dist b) && negb (dist ((b + 0 + 1) mod 3)%nat)) eqn:O0; [destruct (try_pair solve c mid nb b 0) as [r0|] eqn:E0; [injection H as <-; exists 0%nat; split; [lia|split; [exact E0|apply D; exact O0]]|]|];
    (destruct (negb (dist b) && negb (dist ((b + 1 + 1) mod 3)%nat)) eqn:O1; [destruct (try_pair solve c mid nb b 1) as [r1|] eqn:E1; [injection H as <-; exists 1%nat; split; [lia|split; [exact E1|apply D; exact O1]]|]|]); discriminate H.
  Qed.
  Lemma received_cases : forall b r, pairs_received solve c mid nb dist b = Some r -> exists perm, (perm < 2)%nat /\ try_pair solve c mid nb b perm = Some r.
  Proof.
    intros b r H. unfold pairs_received, pairs_serial, search in H.
    destruct (try_pair solve c mid nb b 0) as [r0|] eqn:E0, (try_pair solve c mid nb b 1) as [r1|] eqn:E1;
      destruct (dist b), (dist ((b + 0 + 1) mod 3)%nat), (dist ((b + 1 + 1) mod 3)%nat); cbn [orb negb andb] in H; try discriminate H; inversion H; subst;
      (exists 0%nat; split; [lia|exact E0]) || (exists 1%nat; split; [lia|exact E1]).
  Qed.
  Lemma received_found : forall b perm r, (perm < 2)%nat -> try_pair solve c mid nb b perm = Some r -> pairs_received solve c mid nb dist b <> None.
  Proof.
    intros b perm r Hp E. unfold pairs_received, pairs_serial, search.
    destruct perm as [|[|perm]]; [| |lia]; rewrite E; [destruct (try_pair solve c mid nb b 1) as [r'|]|destruct (try_pair solve c mid nb b 0) as [r'|]];
      destruct (dist b), (dist ((b + 0 + 1) mod 3)%nat), (dist ((b + 1 + 1) mod 3)%nat); cbn [orb negb andb]; discriminate.
  Qed.
  Lemma received_kept : forall b, dist b = false -> dist ((b + 1) mod 3)%nat = false -> dist ((b + 2) mod 3)%nat = false ->
    pairs_received solve c mid nb dist b = pairs_serial solve c mid nb dist b.
  Proof.
    intros b D0 D1 D2. unfold pairs_received at 1, search at 1. replace (b + 0 + 1)%nat with (b + 1)%nat by lia. replace (b + 1 + 1)%nat with (b + 2)%nat by lia.
    rewrite D0, D1, D2. reflexivity.
  Qed.
End Pairs.
(** The linear function of the vertex values has the interpolated values at the midpoints. *)
Lemma recon_int_mid : forall pairs s sn v, recon_int pairs s sn = Ok v -> forall b, (b < 3)%nat ->
  int_mid pairs s sn b = Ok ((v ((b + 1) mod 3)%nat + v ((b + 2) mod 3)%nat) / 2).
Proof.
  intros pairs s sn v H b Hb. unfold recon_int in H.
  destruct (int_mid pairs s sn 0) as [m0| |] eqn:E0; [|discriminate|discriminate]. destruct (int_mid pairs s sn 1) as [m1| |] eqn:E1; [|discriminate|discriminate].
  destruct (int_mid pairs s sn 2) as [m2| |] eqn:E2; [|discriminate|discriminate]. cbn [bind] in H. injection H as <-.
  destruct b as [|[|[|b]]]; [| | |lia]; [rewrite E0|rewrite E1|rewrite E2]; f_equal; unfold mid_to_vrtx, T_entry; cbn; field.
Qed.

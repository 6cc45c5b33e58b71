(** Proofs: pairs of neighbours for the interpolating reconstruction. *)
From Coq Require Import Reals List Bool Arith Lra Lia Psatz.
From Verif Require Import Num Outcome ModelSWE LemmasSWE ModelShape ModelBasis ModelJac ModelSlope ModelStep ModelGN SpecShape SpecStepper SpecStage ModelGrad SpecGrad LemmasGrad1 LemmasGrad2 LemmasGrad3 LemmasGrad4.
Import ListNotations.
Open Scope R_scope.

Lemma eps_pos : 0 < epsilon * 100.
Proof. unfold epsilon. apply Rmult_lt_0_compat; [apply Rinv_0_lt_compat, pow_lt; lra|lra]. Qed.

Section Pair.
  Context (solve : mat2 -> point -> point) (S2 : solves2 solve) (c : point) (mid nb : nat -> point).
  Lemma solved : forall b e2, orient c (nb b) (nb e2) <> 0 ->
    let al := solve (M2 (fst (pminus (nb b) c)) (fst (pminus (nb e2) c)) (snd (pminus (nb b) c)) (snd (pminus (nb e2) c))) (pminus (mid b) c) in
    vsub (mid b) c = (fst al * fst (vsub (nb b) c) + snd al * fst (vsub (nb e2) c), fst al * snd (vsub (nb b) c) + snd al * snd (vsub (nb e2) c)).
  Proof.
    intros b e2 N al.
    destruct (S2 (M2 (fst (pminus (nb b) c)) (fst (pminus (nb e2) c)) (snd (pminus (nb b) c)) (snd (pminus (nb e2) c))) (pminus (mid b) c)) as [E1 E2].
    - cbn [a00 a01 a10 a11 pminus fst snd]. intros Z. apply N. unfold orient. lra.
    - fold al in E1, E2. cbn [a00 a01 a10 a11 pminus fst snd] in E1, E2. unfold vsub. cbn [fst snd]. f_equal; lra.
  Qed.
  Lemma try_sound : forall b perm a0 a1 e1 e2, try_pair solve c mid nb b perm = Some (a0, a1, e1, e2) ->
    e1 = b /\ e2 = ((b + perm + 1) mod 3)%nat /\ 0 <= a0 /\ 0 <= a1 /\
    (orient c (nb e1) (nb e2) <> 0 -> exists s t, Rabs (a0 - s) < epsilon * 100 /\ Rabs (a1 - t) < epsilon * 100 /\
      vsub (mid b) c = (s * fst (vsub (nb e1) c) + t * fst (vsub (nb e2) c), s * snd (vsub (nb e1) c) + t * snd (vsub (nb e2) c))).
  Proof.
    intros b perm a0 a1 e1 e2 H. unfold try_pair in H. set (e := ((b + perm + 1) mod 3)%nat) in *.
    set (al := solve _ _) in H. destruct (Rleb 0 (clean (fst al))) eqn:L0; [|discriminate]. destruct (Rleb 0 (clean (snd al))) eqn:L1; [|discriminate].
    cbn [andb] in H. injection H as <- <- <- <-. split; [reflexivity|]. split; [reflexivity|].
    destruct (Rleb_spec 0 (clean (fst al))) as [G0|]; [|discriminate]. destruct (Rleb_spec 0 (clean (snd al))) as [G1|]; [|discriminate].
    split; [exact G0|]. split; [exact G1|]. intros N. exists (fst al), (snd al). split; [apply clean_near|]. split; [apply clean_near|]. exact (solved b e N).
  Qed.
  Lemma cone_unique : forall x y z s t s' t', orient c y z <> 0 ->
    vsub x c = (s * fst (vsub y c) + t * fst (vsub z c), s * snd (vsub y c) + t * snd (vsub z c)) ->
    vsub x c = (s' * fst (vsub y c) + t' * fst (vsub z c), s' * snd (vsub y c) + t' * snd (vsub z c)) -> s = s' /\ t = t'.
  Proof.
    intros x y z s t s' t' N E E'. rewrite E in E'. clear E. injection E' as E1 E2. unfold vsub in *. cbn [fst snd] in *. unfold orient in N.
    revert N E1 E2. generalize (fst y - fst c) (snd y - snd c) (fst z - fst c) (snd z - snd c). clear. intros p q r u N E1 E2.
    split; apply (Rmult_eq_reg_l (p * u - q * r)); try exact N.
    - transitivity (u * (s * p + t * r) - r * (s * q + t * u)); [ring|]. rewrite E1, E2. ring.
    - transitivity (p * (s * q + t * u) - q * (s * p + t * r)); [ring|]. rewrite E1, E2. ring.
  Qed.
  Lemma try_complete : forall b perm s t, let e2 := ((b + perm + 1) mod 3)%nat in orient c (nb b) (nb e2) <> 0 -> in_cone c (nb b) (nb e2) (mid b) s t ->
    try_pair solve c mid nb b perm = Some (clean s, clean t, b, e2).
  Proof.
    intros b perm s t e2 N (Hs & Ht & E). unfold try_pair. fold e2. pose proof (solved b e2 N) as A. cbv zeta in A. set (al := solve _ _) in *.
    destruct (cone_unique _ _ _ _ _ _ _ N A E) as [E0 E1]. rewrite E0, E1.
    destruct (Rleb_spec 0 (clean s)) as [_|F]; [|pose proof (clean_nonneg s Hs); lra]. destruct (Rleb_spec 0 (clean t)) as [_|F]; [|pose proof (clean_nonneg t Ht); lra]. reflexivity.
  Qed.
  Lemma try_none : forall b perm s t, let e2 := ((b + perm + 1) mod 3)%nat in orient c (nb b) (nb e2) <> 0 ->
    vsub (mid b) c = (s * fst (vsub (nb b) c) + t * fst (vsub (nb e2) c), s * snd (vsub (nb b) c) + t * snd (vsub (nb e2) c)) ->
    s <= - (epsilon * 100) \/ t <= - (epsilon * 100) -> try_pair solve c mid nb b perm = None.
  Proof.
    intros b perm s t e2 N E H. unfold try_pair. fold e2. pose proof (solved b e2 N) as A. cbv zeta in A. set (al := solve _ _) in *.
    destruct (cone_unique _ _ _ _ _ _ _ N A E) as [E0 E1]. rewrite E0, E1. pose proof eps_pos as P.
    assert (Cl : forall y, y <= - (epsilon * 100) -> Rleb 0 (clean y) = false).
    { intros y Hy. unfold clean. destruct (almost_equal y 0) eqn:Q; [apply almost_zero in Q; rewrite Rabs_left in Q by lra; lra|]. destruct (Rleb_spec 0 y); [lra|reflexivity]. }
    destruct H as [H|H]; rewrite (Cl _ H); [|rewrite andb_false_r]; reflexivity.
  Qed.

  Lemma search_cases : forall ok old b r, search solve c mid nb ok old b = Some r -> (exists perm, (perm < 2)%nat /\ try_pair solve c mid nb b perm = Some r) \/ old b = Some r.
  Proof.
    intros ok old b r H. unfold search in H.
    destruct (ok b ((b + 0 + 1) mod 3)%nat); [destruct (try_pair solve c mid nb b 0) as [r0|] eqn:E0; [injection H as <-; left; exists 0%nat; split; [lia|exact E0]|]|];
    (destruct (ok b ((b + 1 + 1) mod 3)%nat); [destruct (try_pair solve c mid nb b 1) as [r1|] eqn:E1; [injection H as <-; left; exists 1%nat; split; [lia|exact E1]|]|]); right; exact H.
  Qed.
End Pair.

(** The interpolated midpoint values of an affine field, up to the cleaned weights. *)
Lemma int_near : forall c mid nb a0 a1 e1 e2 s t k g b (pairs : nat -> option pair_data) sn, pairs b = Some (a0, a1, e1, e2) ->
  Rabs (a0 - s) < epsilon * 100 -> Rabs (a1 - t) < epsilon * 100 ->
  vsub (mid b) c = (s * fst (vsub (nb e1) c) + t * fst (vsub (nb e2) c), s * snd (vsub (nb e1) c) + t * snd (vsub (nb e2) c)) ->
  sn e1 = affine k g (nb e1) -> sn e2 = affine k g (nb e2) ->
  exists x, int_mid pairs (affine k g c) sn b = Ok x /\
    Rabs (x - affine k g (mid b)) <= epsilon * 100 * (Rabs (sn e1 - affine k g c) + Rabs (sn e2 - affine k g c)).
Proof.
  intros c mid nb a0 a1 e1 e2 s t k g b pairs sn P A0 A1 E S1 S2. unfold int_mid. rewrite P. eexists. split; [reflexivity|].
  assert (Q : affine k g (mid b) = affine k g c + s * (sn e1 - affine k g c) + t * (sn e2 - affine k g c)).
  { rewrite S1, S2. injection E as E1 E2. unfold affine, vdot. unfold vsub in E1, E2. cbn [fst snd] in E1, E2.
    replace (fst (mid b)) with (fst c + (s * (fst (nb e1) - fst c) + t * (fst (nb e2) - fst c))) by lra.
    replace (snd (mid b)) with (snd c + (s * (snd (nb e1) - snd c) + t * (snd (nb e2) - snd c))) by lra. ring. }
  rewrite Q. set (p := sn e1 - affine k g c). set (q := sn e2 - affine k g c).
  replace (affine k g c + p * a0 + q * a1 - (affine k g c + s * p + t * q)) with ((a0 - s) * p + (a1 - t) * q) by ring.
  eapply Rle_trans; [apply Rabs_triang|]. rewrite !Rabs_mult. pose proof (Rabs_pos p). pose proof (Rabs_pos q). nra.
Qed.

(** Proofs: barycentre slopes on one element. *)
From Coq Require Import Reals List Bool Arith Lra Lia Psatz.
From Verif Require Import Num Outcome ModelSWE ModelShape ModelBasis ModelJac ModelSlope ModelStep ModelGN SpecShape SpecStage ModelGrad SpecGrad.
Import ListNotations.
Open Scope R_scope.

Lemma mid_vrtx : forall mid b, (b < 3)%nat -> u_midpt (mid_to_vrtx mid) b = mid b.
Proof. intros mid b Hb. unfold u_midpt, mid_to_vrtx, chi_midpts, T_entry. destruct b as [|[|[|b]]]; [| | |lia]; cbn; field. Qed.
Lemma vrtx_mid : forall lin v, (v < 3)%nat -> mid_to_vrtx (u_midpt lin) v = lin v.
Proof. intros lin v Hv. unfold u_midpt, mid_to_vrtx, chi_midpts, T_entry. destruct v as [|[|[|v]]]; [| | |lia]; cbn; field. Qed.
Lemma mid_to_vrtx_ext : forall f g v, (forall b, (b < 3)%nat -> f b = g b) -> mid_to_vrtx f v = mid_to_vrtx g v.
Proof. intros f g v H. unfold mid_to_vrtx. cbn [vmsum]. rewrite !H by lia. reflexivity. Qed.
Lemma mid_to_vrtx_const : forall x v, (v < 3)%nat -> mid_to_vrtx (fun _ => x) v = x.
Proof. intros x v Hv. unfold mid_to_vrtx, T_entry. destruct v as [|[|[|v]]]; [| | |lia]; cbn; ring. Qed.

Section Element.
  Context (c : pt) (x : nat -> pt).
  Let X b := fst (x b) - fst c.
  Let Y b := snd (x b) - snd c.
  Lemma gram_det : determinant (gram c x) = orient c (x 0%nat) (x 1%nat) ^ 2 + orient c (x 0%nat) (x 2%nat) ^ 2 + orient c (x 1%nat) (x 2%nat) ^ 2.
  Proof. unfold determinant, gram, offset, pminus, orient. cbn. ring. Qed.
  Lemma orient_swap : forall y z, orient c z y = - orient c y z.
  Proof. intros. unfold orient. ring. Qed.
  Lemma spread_det : spread c x <-> determinant (gram c x) <> 0.
  Proof.
    rewrite gram_det. set (p := orient c (x 0%nat) (x 1%nat)). set (q := orient c (x 0%nat) (x 2%nat)). set (r := orient c (x 1%nat) (x 2%nat)). split.
    - intros (b & b' & Hb & Hb' & N) E. assert (Z : p = 0 /\ q = 0 /\ r = 0) by (repeat split; nra). destruct Z as (Zp & Zq & Zr). apply N. clear N.
      assert (S : forall y, orient c y y = 0) by (intros; unfold orient; ring).
      destruct b as [|[|[|b]]], b' as [|[|[|b']]]; try lia; try apply S; try assumption; rewrite orient_swap; unfold p, q, r in *; lra.
    - intros N. destruct (Req_dec p 0) as [Ep|Np]; [|exists 0%nat, 1%nat; repeat split; try lia; exact Np].
      destruct (Req_dec q 0) as [Eq|Nq]; [|exists 0%nat, 2%nat; repeat split; try lia; exact Nq].
      exists 1%nat, 2%nat. repeat split; try lia. intros Er. fold r in Er. apply N. rewrite Ep, Eq, Er. ring.
  Qed.

  (** The normal equations. *)
  Lemma ls_normal : forall v vn, determinant (gram c x) <> 0 ->
    let g := (ls_slope c x v vn 0, ls_slope c x v vn 1) in
    (vdot g (vsub (x 0%nat) c) - (vn 0%nat - v)) * X 0%nat + (vdot g (vsub (x 1%nat) c) - (vn 1%nat - v)) * X 1%nat + (vdot g (vsub (x 2%nat) c) - (vn 2%nat - v)) * X 2%nat = 0 /\
    (vdot g (vsub (x 0%nat) c) - (vn 0%nat - v)) * Y 0%nat + (vdot g (vsub (x 1%nat) c) - (vn 1%nat - v)) * Y 1%nat + (vdot g (vsub (x 2%nat) c) - (vn 2%nat - v)) * Y 2%nat = 0.
  Proof.
    intros v vn H g. unfold g, vdot, vsub, ls_slope, P_entry. unfold inverse, determinant, gram, offset, pminus in *. cbn in *. fold (X 0%nat) (X 1%nat) (X 2%nat) (Y 0%nat) (Y 1%nat) (Y 2%nat) in *.
    revert H. generalize (X 0%nat) (X 1%nat) (X 2%nat) (Y 0%nat) (Y 1%nat) (Y 2%nat) (vn 0%nat - v) (vn 1%nat - v) (vn 2%nat - v). clear. intros x0 x1 x2 y0 y1 y2 d0 d1 d2 H. rewrite !Rplus_0_l in *. split; field; exact H.
  Qed.
  Lemma ls_best : forall v vn, spread c x -> best c x (fun b => vn b - v) (ls_slope c x v vn 0, ls_slope c x v vn 1).
  Proof.
    intros v vn S g'. pose proof (proj1 spread_det S) as D. destruct (ls_normal v vn D) as [N1 N2]. cbv zeta in N1, N2. rewrite gram_det in D. unfold misfit.
    set (g := (ls_slope c x v vn 0, ls_slope c x v vn 1)) in *. destruct g as [g1 g2]. destruct g' as [h1 h2]. unfold vdot, vsub in *. cbn [fst snd] in *. unfold orient in D.
    fold (X 0%nat) (X 1%nat) (X 2%nat) (Y 0%nat) (Y 1%nat) (Y 2%nat) in *.
    revert N1 N2 D. generalize (X 0%nat) (X 1%nat) (X 2%nat) (Y 0%nat) (Y 1%nat) (Y 2%nat) (vn 0%nat - v) (vn 1%nat - v) (vn 2%nat - v). clear.
    intros x0 x1 x2 y0 y1 y2 d0 d1 d2 N1 N2 D.
    set (k1 := h1 - g1). set (k2 := h2 - g2).
    assert (E : (h1 * x0 + h2 * y0 - d0) ^ 2 + (h1 * x1 + h2 * y1 - d1) ^ 2 + (h1 * x2 + h2 * y2 - d2) ^ 2 =
      (g1 * x0 + g2 * y0 - d0) ^ 2 + (g1 * x1 + g2 * y1 - d1) ^ 2 + (g1 * x2 + g2 * y2 - d2) ^ 2 +
      ((k1 * x0 + k2 * y0) ^ 2 + (k1 * x1 + k2 * y1) ^ 2 + (k1 * x2 + k2 * y2) ^ 2)).
    { transitivity ((g1 * x0 + g2 * y0 - d0) ^ 2 + (g1 * x1 + g2 * y1 - d1) ^ 2 + (g1 * x2 + g2 * y2 - d2) ^ 2 +
        ((k1 * x0 + k2 * y0) ^ 2 + (k1 * x1 + k2 * y1) ^ 2 + (k1 * x2 + k2 * y2) ^ 2) +
        2 * (k1 * ((g1 * x0 + g2 * y0 - d0) * x0 + (g1 * x1 + g2 * y1 - d1) * x1 + (g1 * x2 + g2 * y2 - d2) * x2) +
             k2 * ((g1 * x0 + g2 * y0 - d0) * y0 + (g1 * x1 + g2 * y1 - d1) * y1 + (g1 * x2 + g2 * y2 - d2) * y2))); [unfold k1, k2; ring|rewrite N1, N2; ring]. }
    rewrite E. split.
    - pose proof (pow2_ge_0 (k1 * x0 + k2 * y0)). pose proof (pow2_ge_0 (k1 * x1 + k2 * y1)). pose proof (pow2_ge_0 (k1 * x2 + k2 * y2)). lra.
    - intros H. assert (Z : (k1 * x0 + k2 * y0) ^ 2 + (k1 * x1 + k2 * y1) ^ 2 + (k1 * x2 + k2 * y2) ^ 2 = 0) by lra. clear E H N1 N2.
      assert (Z0 : k1 * x0 + k2 * y0 = 0) by (pose proof (pow2_ge_0 (k1 * x0 + k2 * y0)); pose proof (pow2_ge_0 (k1 * x1 + k2 * y1)); pose proof (pow2_ge_0 (k1 * x2 + k2 * y2)); nra).
      assert (Z1 : k1 * x1 + k2 * y1 = 0) by (pose proof (pow2_ge_0 (k1 * x0 + k2 * y0)); pose proof (pow2_ge_0 (k1 * x1 + k2 * y1)); pose proof (pow2_ge_0 (k1 * x2 + k2 * y2)); nra).
      assert (Z2 : k1 * x2 + k2 * y2 = 0) by (pose proof (pow2_ge_0 (k1 * x0 + k2 * y0)); pose proof (pow2_ge_0 (k1 * x1 + k2 * y1)); pose proof (pow2_ge_0 (k1 * x2 + k2 * y2)); nra).
      clear Z.
      assert (K1 : forall a b a' b', k1 * a + k2 * b = 0 -> k1 * a' + k2 * b' = 0 -> (a * b' - b * a') * k1 = 0 /\ (a * b' - b * a') * k2 = 0).
      { intros a b a' b' A B. split.
        - transitivity (b' * (k1 * a + k2 * b) - b * (k1 * a' + k2 * b')); [ring|rewrite A, B; ring].
        - transitivity (a * (k1 * a' + k2 * b') - a' * (k1 * a + k2 * b)); [ring|rewrite A, B; ring]. }
      assert (Nz : x0 * y1 - y0 * x1 <> 0 \/ x0 * y2 - y0 * x2 <> 0 \/ x1 * y2 - y1 * x2 <> 0).
      { destruct (Req_dec (x0 * y1 - y0 * x1) 0) as [A|A]; [|left; exact A]. destruct (Req_dec (x0 * y2 - y0 * x2) 0) as [B|B]; [|right; left; exact B].
        right; right. intros C. apply D. rewrite A, B, C. ring. }
      assert (KK : k1 = 0 /\ k2 = 0).
      { destruct Nz as [N|[N|N]].
        - destruct (K1 _ _ _ _ Z0 Z1) as [A B]. split; [destruct (Rmult_integral _ _ A)|destruct (Rmult_integral _ _ B)]; [contradiction|assumption|contradiction|assumption].
        - destruct (K1 _ _ _ _ Z0 Z2) as [A B]. split; [destruct (Rmult_integral _ _ A)|destruct (Rmult_integral _ _ B)]; [contradiction|assumption|contradiction|assumption].
        - destruct (K1 _ _ _ _ Z1 Z2) as [A B]. split; [destruct (Rmult_integral _ _ A)|destruct (Rmult_integral _ _ B)]; [contradiction|assumption|contradiction|assumption]. }
      destruct KK as [A B]. unfold k1, k2 in A, B. f_equal; lra.
  Qed.
  Lemma best_exact : forall k g g' d, best c x d g -> (forall b, (b < 3)%nat -> d b = affine k g' (x b) - affine k g' c) -> g = g'.
  Proof.
    intros k g g' d B H. destruct (B g') as [L U]. assert (Z : misfit c x d g' = 0).
    { unfold misfit. rewrite !H by lia. unfold affine, vdot, vsub. cbn [fst snd]. ring. }
    symmetry. apply U. rewrite Z in L |- *. unfold misfit in *.
    pose proof (pow2_ge_0 (vdot g (vsub (x 0%nat) c) - d 0%nat)). pose proof (pow2_ge_0 (vdot g (vsub (x 1%nat) c) - d 1%nat)). pose proof (pow2_ge_0 (vdot g (vsub (x 2%nat) c) - d 2%nat)). lra.
  Qed.
  Lemma ls_exact : forall k g v vn, spread c x -> v = affine k g c -> (forall b, (b < 3)%nat -> vn b = affine k g (x b)) ->
    ls_slope c x v vn 0 = fst g /\ ls_slope c x v vn 1 = snd g.
  Proof.
    intros k g v vn S Hv Hn. pose proof (best_exact k _ g _ (ls_best v vn S) (fun b Hb => f_equal2 Rminus (Hn b Hb) Hv)) as E. rewrite <- E. split; reflexivity.
  Qed.
  (** The reconstruction evaluates the best affine function at the midpoints. *)
  Lemma recon_ls_mid : forall mid s sn b, (b < 3)%nat ->
    u_midpt (recon_ls c mid x s sn) b = s + vdot (ls_slope c x s sn 0, ls_slope c x s sn 1) (vsub (mid b) c).
  Proof.
    intros mid s sn b Hb. unfold recon_ls. rewrite mid_vrtx by exact Hb. unfold ls_slope, dX, vdot, vsub, pminus, pcomp. cbn. ring.
  Qed.
End Element.

(** ** Pairs of neighbours *)
Lemma almost_zero : forall x, almost_equal x 0 = true -> Rabs x < epsilon * 100.
Proof.
  intros x. unfold almost_equal. rewrite Rabs_R0, Rminus_0_r. rewrite (Rmax_left (Rabs x) 0) by apply Rabs_pos.
  destruct (Rltb_spec (Rabs x) (epsilon * 100)) as [H|H]; [intros _; exact H|]. destruct (Rltb_spec (Rabs x) (Rabs x * epsilon * 100)) as [L|L]; [|discriminate].
  intros _. exfalso. assert (Ee : epsilon * 100 < 1). { unfold epsilon. apply (Rmult_lt_reg_l (2 ^ 52)); [apply pow_lt; lra|]. rewrite <- Rmult_assoc, Rinv_r by (apply pow_nonzero; lra). cbn. lra. }
  pose proof (Rabs_pos x). assert (0 < epsilon * 100) by (unfold epsilon; apply Rmult_lt_0_compat; [apply Rinv_0_lt_compat, pow_lt; lra|lra]). nra.
Qed.
Lemma clean_near : forall x, Rabs (clean x - x) < epsilon * 100.
Proof.
  intros x. unfold clean. destruct (almost_equal x 0) eqn:E.
  - apply almost_zero in E. replace (0 - x) with (- x) by ring. rewrite Rabs_Ropp. exact E.
  - replace (x - x) with 0 by ring. rewrite Rabs_R0. unfold epsilon. apply Rmult_lt_0_compat; [apply Rinv_0_lt_compat, pow_lt; lra|lra].
Qed.
Lemma clean_nonneg : forall x, 0 <= x -> 0 <= clean x.
Proof. intros x H. unfold clean. destruct (almost_equal x 0); lra. Qed.

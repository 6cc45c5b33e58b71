(** Proofs: energy of the dispersive system. *)
From Coq Require Import Reals List Arith Bool Lia Lra.
From Coquelicot Require Import Hierarchy RInt.
From Verif Require Import Num Outcome ModelSWE SpecSWE LemmasSWE ModelShape ModelBasis ModelJac ModelStep ModelIHDG ModelCond SpecShape SpecBasis SpecStepper SpecStep SpecStage
  LemmasRK LemmasShape LemmasBasis LemmasBasis2 LemmasBasis3 LemmasBasis4 LemmasStep LemmasStage3 LemmasStage4 LemmasCond ModelGN SpecGN LemmasGN1 LemmasGN2 LemmasGN3 LemmasGN4
  ModelInit SpecRest LemmasRest1 LemmasRest2 LemmasRest3 LemmasEHDG5 LemmasGN8 LemmasGN9 LemmasGN13.
Import ListNotations.
Open Scope R_scope.

Section Energy.
  Context (i : input) (C : conforming i).
  Notation m := (init_mesh i).
  Context (alpha tau H : R) (Hal : 0 < alpha) (Htau : tau < 0) (HH : 0 < H).
  Context (HW : forall gp, (gp < ngp1 m)%nat -> 0 <= wgt m gp) (HY : forall gp, (gp < ngp1 m)%nat -> wgt m (ngp1 m - gp - 1)%nat = wgt m gp).
  Context (h : nat -> nat -> R) (b : nat -> nat -> nat -> R) (hh : nat -> nat -> R) (bh : nat -> nat -> nat -> R).
  Context (Hh : forall e gp, (e < m_n m)%nat -> (gp < ngp2 m)%nat -> h e gp = H) (Hb : forall e gp a, (e < m_n m)%nat -> (gp < ngp2 m)%nat -> (a < 2)%nat -> b e gp a = 0).
  Context (Hhh : forall k gp, (k < n_edges m)%nat -> (gp < ngp1 m)%nat -> hh k gp = H) (Hbh : forall k gp a, (k < n_edges m)%nat -> (gp < ngp1 m)%nat -> (a < 2)%nat -> bh k gp a = 0).

  Lemma face_edge : forall k s F, face_int m k s F = edge_int m k s (fun _ z => F z).
  Proof.
    intros k s F. rewrite face_int_eq, edge_int_eq. apply rsum_ext. intros gp Hg. f_equal. f_equal.
    unfold own. destruct (snd s); [|reflexivity]. symmetry. exact (HY gp Hg).
  Qed.
  Lemma edge_int_nonneg : forall k s F, (k < n_edges m)%nat -> In s (edge_sides m k) -> (forall gp z, 0 <= F gp z) -> 0 <= edge_int m k s F.
  Proof.
    intros k s F Hk Hs HF. unfold edge_int. apply Rmult_le_pos; [left; exact (half_len_pos i C k s Hk Hs)|].
    apply rsum_nonneg. intros gp Hg. apply Rmult_le_pos; [exact (HW gp Hg)|apply HF].
  Qed.
  Lemma edge_int_zero : forall k s F, (k < n_edges m)%nat -> In s (edge_sides m k) -> (forall gp z, 0 <= F gp z) -> edge_int m k s F = 0 ->
    forall gp, (gp < ngp1 m)%nat -> wgt m gp * F gp (pt m s gp) = 0.
  Proof.
    intros k s F Hk Hs HF E. unfold edge_int in E. pose proof (half_len_pos i C k s Hk Hs) as L.
    apply (rsum_zero (ngp1 m)); [intros gp Hg; apply Rmult_le_pos; [exact (HW gp Hg)|apply HF]|].
    destruct (Rmult_integral _ _ E) as [Z|Z]; [lra|exact Z].
  Qed.

  (** ** Squares of expansions *)
  Lemma square_int : forall e c, (e < m_n m)%nat -> vol_int m e (fun _ z => val m c z * val m c z) =
    rsum (ndof m) (fun j => tri_area (in_nodes i e) / 2 * / GetMinv j j * (c j * c j)).
  Proof.
    intros e c He. rewrite <- (vol_test i e c (fun _ z => val m c z)). apply rsum_ext. intros j Hj. rewrite (mass_row i C e c j He Hj). ring.
  Qed.
  Lemma mass_pos : forall e j, (e < m_n m)%nat -> (j < ndof m)%nat -> 0 < tri_area (in_nodes i e) / 2 * / GetMinv j j.
  Proof. intros e j He Hj. apply Rmult_lt_0_compat; [exact (area_pos i C e He)|apply Rinv_0_lt_compat; exact (minv_pos i C j Hj)]. Qed.
  Lemma square_nonneg : forall e c, (e < m_n m)%nat -> 0 <= vol_int m e (fun _ z => val m c z * val m c z).
  Proof. intros e c He. rewrite (square_int e c He). apply rsum_nonneg. intros j Hj. pose proof (mass_pos e j He Hj). apply Rmult_le_pos; [lra|apply Rle_0_sqr]. Qed.
  Lemma square_zero : forall e c, (e < m_n m)%nat -> vol_int m e (fun _ z => val m c z * val m c z) = 0 -> forall j, (j < ndof m)%nat -> c j = 0.
  Proof.
    intros e c He E j Hj. rewrite (square_int e c He) in E.
    assert (Z : tri_area (in_nodes i e) / 2 * / GetMinv j j * (c j * c j) = 0).
    { apply (rsum_zero (ndof m) (fun j => tri_area (in_nodes i e) / 2 * / GetMinv j j * (c j * c j))); [|exact E|exact Hj].
      intros k Hk. pose proof (mass_pos e k He Hk). apply Rmult_le_pos; [lra|apply Rle_0_sqr]. }
    pose proof (mass_pos e j He Hj). destruct (Rmult_integral _ _ Z) as [Y|Y]; [lra|]. destruct (Rmult_integral _ _ Y); assumption.
  Qed.
  Lemma leg_quad : forall j l, (j <= m_p m)%nat -> (l <= m_p m)%nat -> quad1 (m_rule1 m) (fun x => legendre_phi j x * legendre_phi l x) = if Nat.eqb j l then / legendre_minv j j else 0.
  Proof.
    intros j l Hj Hl. pose proof (order_298 i C) as P. apply (quad1_poly (m_rule1 m) (2 * in_p i + 1)).
    - exact (cf_rule1 i C).
    - apply (pd_le (j + l)); [cbn [m_p init_mesh] in Hj, Hl; lia|]. apply (pd_mul j l (fun x _ => legendre_phi j x) (fun x _ => legendre_phi l x)); apply leg_poly; lia.
    - apply (legendre_orthogonality j l); lia.
  Qed.
  Lemma lam_square : forall k s c, edge_int m k s (fun gp _ => lam m c (pos m gp) * lam m c (pos m gp)) = half_len m k * rsum (S (m_p m)) (fun j => / legendre_minv j j * (c j * c j)).
  Proof.
    intros k s c. unfold edge_int. f_equal.
    rewrite (rsum_ext _ _ (fun gp => rsum (S (m_p m)) (fun j => rsum (S (m_p m)) (fun l => c j * c l * (wgt m gp * (legendre_phi j (pos m gp) * legendre_phi l (pos m gp))))))).
    2:{ intros gp _. rewrite <- Rmult_assoc, (Rmult_comm (wgt m gp)), Rmult_assoc. unfold lam at 1. rewrite <- rsum_scal_r. apply rsum_ext. intros j _. unfold lam. rewrite <- !rsum_scal. apply rsum_ext. intros l _. ring. }
    rewrite rsum_swap. apply rsum_ext. intros j Hj. rewrite rsum_swap. rewrite (LemmasStage4.rsum_one (S (m_p m)) _ j Hj).
    - rewrite rsum_scal. pose proof (leg_quad j j ltac:(lia) ltac:(lia)) as Q. rewrite Nat.eqb_refl in Q. unfold quad1 in Q. unfold wgt, pos. rewrite Q. ring.
    - intros l Hl D. rewrite rsum_scal. pose proof (leg_quad j l ltac:(lia) ltac:(lia)) as Q. destruct (Nat.eqb_spec j l); [congruence|]. unfold quad1 in Q. unfold wgt, pos. rewrite Q. ring.
  Qed.
  Lemma lam_zero : forall k s c, (k < n_edges m)%nat -> In s (edge_sides m k) -> edge_int m k s (fun gp _ => lam m c (pos m gp) * lam m c (pos m gp)) = 0 ->
    forall j, (j < S (m_p m))%nat -> c j = 0.
  Proof.
    intros k s c Hk Hs E j Hj. rewrite lam_square in E. pose proof (half_len_pos i C k s Hk Hs) as L. pose proof (order_298 i C) as P.
    assert (LP : forall l, (l < S (m_p m))%nat -> 0 < / legendre_minv l l) by (intros l Hl; apply Rinv_0_lt_compat; apply (legendre_orthogonality l l); lia).
    destruct (Rmult_integral _ _ E) as [Z|Z]; [lra|].
    assert (Y : / legendre_minv j j * (c j * c j) = 0).
    { apply (rsum_zero (S (m_p m)) (fun j => / legendre_minv j j * (c j * c j))); [|exact Z|exact Hj]. intros l Hl. pose proof (LP l Hl). apply Rmult_le_pos; [lra|apply Rle_0_sqr]. }
    pose proof (LP j Hj). destruct (Rmult_integral _ _ Y) as [X|X]; [lra|]. destruct (Rmult_integral _ _ X); assumption.
  Qed.

  (** ** The identity in an element *)
  Section State.
    Context (w1 : nat -> nat -> nat -> R) (w2 : nat -> nat -> R) (wh : nat -> nat -> nat -> R).
    Let no_source : nat -> nat -> nat -> R := fun _ _ _ => 0.
    Definition V (e a : nat) (z : point) : R := val m (w1 e a) z.
    Definition W (k a gp : nat) : R := lam m (wh k a) (pos m gp).
    Definition energy (e : nat) : R :=
      vol_int m e (fun _ z => V e 0 z * V e 0 z) + vol_int m e (fun _ z => V e 1 z * V e 1 z) + alpha / (3 * H ^ 2) * vol_int m e (fun _ z => val m (w2 e) z * val m (w2 e) z).
    Definition Sd (k : nat) (s : nat * nat * bool) : R :=
      edge_int m k s (fun gp z => let e := fst (fst s) in
        tau * (V e 0 z * V e 0 z + V e 1 z * V e 1 z - V e 0 z * W k 0 gp - V e 1 z * W k 1 gp) +
        val m (w2 e) z * (W k 0 gp * out_n m k s 0 + W k 1 gp * out_n m k s 1)).

    Lemma test_w1 : forall e a, (e < m_n m)%nat -> (a < 2)%nat ->
      rsum (ndof m) (fun j => w1 e a j * lhs_w1 m alpha tau h b hh bh w1 w2 wh e j a) =
      vol_int m e (fun _ z => V e a z * V e a z) - alpha / 3 * vol_int m e (fun _ z => V e a z * dval m a e (w2 e) z) +
      at_sides m e (fun k s => - alpha / 3 * tau * edge_int m k s (fun _ z => V e a z * V e a z) + alpha / 3 * tau * edge_int m k s (fun gp z => V e a z * W k a gp)).
    Proof.
      intros e a He Ha.
      rewrite (rsum_ext (ndof m) _ (fun j => w1 e a j * vol_int m e (fun gp z => GetPhi j z * V e a z) +
        (- (alpha / 3)) * (w1 e a j * vol_int m e (fun gp z => GetPhi j z * dval m a e (w2 e) z)) +
        w1 e a j * at_sides m e (fun k s => - alpha / 3 * tau * edge_int m k s (fun _ z => GetPhi j z * V e a z) + alpha / 3 * tau * edge_int m k s (fun gp z => GetPhi j z * W k a gp)))).
      2:{ intros j Hj. unfold lhs_w1.
          rewrite (vol_int_ok i C e (fun gp z => GetPhi j z * (val m (w1 e a) z + alpha * b e gp a * bw m b w1 e gp z)) (fun gp z => GetPhi j z * V e a z))
            by (intros gp z Hg _ _; rewrite (Hb e gp a He Hg Ha); unfold V; ring).
          rewrite (vol_int_ok i C e (fun gp z => grad m a e (GetDPhi j z) * (h e gp * bw m b w1 e gp z)) (fun gp z => 0 * 0))
            by (intros gp z Hg _ _; unfold bw; rewrite !(Hb e gp) by (assumption || lia); ring).
          rewrite (vol_int_ok i C e (fun gp z => GetPhi j z * (b e gp a / h e gp * val m (w2 e) z)) (fun gp z => 0 * 0))
            by (intros gp z Hg _ _; rewrite (Hb e gp a He Hg Ha); unfold Rdiv; ring).
          rewrite vol_int_scal.
          rewrite (at_sides_ext i e _ (fun k s => - alpha / 3 * tau * edge_int m k s (fun _ z => GetPhi j z * V e a z) + alpha / 3 * tau * edge_int m k s (fun gp z => GetPhi j z * W k a gp))).
          - ring.
          - intros k s Hk Hs _. rewrite face_edge. f_equal. rewrite <- edge_int_scal. apply edge_int_ok. intros gp Hg.
            unfold bwh. rewrite !(Hbh k gp) by (assumption || lia). unfold W. ring. }
      rewrite !rsum_plus, rsum_scal, (vol_test i e (w1 e a) (fun _ z => V e a z)), (vol_test i e (w1 e a) (fun _ z => dval m a e (w2 e) z)), at_sides_test. unfold Rminus.
      f_equal; [change (val m (w1 e a)) with (V e a); ring|]. apply at_sides_ext. intros k s Hk Hs _.
      rewrite (rsum_ext (ndof m) _ (fun j => - alpha / 3 * tau * (w1 e a j * edge_int m k s (fun _ z => GetPhi j z * V e a z)) + alpha / 3 * tau * (w1 e a j * edge_int m k s (fun gp z => GetPhi j z * W k a gp)))) by (intros; ring).
      rewrite rsum_plus, !rsum_scal, (edge_test i k s (ndof m) (w1 e a) (fun j _ z => GetPhi j z) (fun _ z => V e a z)), (edge_test i k s (ndof m) (w1 e a) (fun j _ z => GetPhi j z) (fun gp z => W k a gp)).
      reflexivity.
    Qed.
    Lemma test_w2 : forall e, (e < m_n m)%nat -> (forall j, (j < ndof m)%nat -> eq_w2 m h hh w1 w2 wh e j) ->
      / H ^ 3 * vol_int m e (fun _ z => val m (w2 e) z * val m (w2 e) z) +
      / H * (vol_int m e (fun _ z => V e 0 z * dval m 0 e (w2 e) z) + vol_int m e (fun _ z => V e 1 z * dval m 1 e (w2 e) z)) =
      / H * at_sides m e (fun k s => edge_int m k s (fun gp z => val m (w2 e) z * (W k 0 gp * out_n m k s 0 + W k 1 gp * out_n m k s 1))).
    Proof.
      intros e He E.
      assert (T : rsum (ndof m) (fun j => w2 e j * vol_int m e (fun _ z => GetPhi j z * (val m (w2 e) z * / H ^ 3)) +
        w2 e j * vol_int m e (fun gp z => (grad m 0 e (GetDPhi j z) * V e 0 z + grad m 1 e (GetDPhi j z) * V e 1 z) / H) +
        - (w2 e j * at_sides m e (fun k s => edge_int m k s (fun gp z => GetPhi j z * ((W k 0 gp * out_n m k s 0 + W k 1 gp * out_n m k s 1) * / H))))) = 0).
      { apply rsum_const0. intros j Hj. specialize (E j Hj). unfold eq_w2 in E.
        rewrite (vol_int_ok i C e (fun gp z => GetPhi j z * (val m (w2 e) z / h e gp ^ 3)) (fun _ z => GetPhi j z * (val m (w2 e) z * / H ^ 3))) in E by (intros gp z Hg _ _; rewrite (Hh e gp He Hg); reflexivity).
        rewrite (vol_int_ok i C e (fun gp z => (grad m 0 e (GetDPhi j z) * val m (w1 e 0%nat) z + grad m 1 e (GetDPhi j z) * val m (w1 e 1%nat) z) / h e gp)
          (fun gp z => (grad m 0 e (GetDPhi j z) * V e 0 z + grad m 1 e (GetDPhi j z) * V e 1 z) / H)) in E by (intros gp z Hg _ _; rewrite (Hh e gp He Hg); reflexivity).
        rewrite (at_sides_ext i e _ (fun k s => edge_int m k s (fun gp z => GetPhi j z * ((W k 0 gp * out_n m k s 0 + W k 1 gp * out_n m k s 1) * / H)))) in E.
        2:{ intros k s Hk Hs _. apply edge_int_ok. intros gp Hg. rewrite (Hhh k gp Hk Hg). reflexivity. }
        rewrite <- Rmult_plus_distr_l, <- Ropp_mult_distr_r_reverse, <- Rmult_plus_distr_l. unfold Rminus in E. rewrite E. ring. }
      rewrite !rsum_plus, rsum_opp, (vol_test i e (w2 e) (fun _ z => val m (w2 e) z * / H ^ 3)), grad_test, at_sides_test in T.
      rewrite (vol_int_ext m e (fun gp z => val m (w2 e) z * (val m (w2 e) z * / H ^ 3)) (fun _ z => / H ^ 3 * (val m (w2 e) z * val m (w2 e) z))) in T by (intros; ring).
      rewrite (vol_int_ext m e (fun gp z => (dval m 0 e (w2 e) z * V e 0 z + dval m 1 e (w2 e) z * V e 1 z) / H) (fun _ z => / H * (V e 0 z * dval m 0 e (w2 e) z + V e 1 z * dval m 1 e (w2 e) z))) in T
        by (intros; unfold Rdiv; ring).
      rewrite !vol_int_scal, vol_int_plus in T.
      rewrite (at_sides_ext i e _ (fun k s => / H * edge_int m k s (fun gp z => val m (w2 e) z * (W k 0 gp * out_n m k s 0 + W k 1 gp * out_n m k s 1)))) in T.
      2:{ intros k s Hk Hs _. rewrite (edge_test i k s (ndof m) (w2 e) (fun j _ z => GetPhi j z) (fun gp z => (W k 0 gp * out_n m k s 0 + W k 1 gp * out_n m k s 1) * / H)).
          rewrite <- edge_int_scal. apply edge_int_ext. intros gp z. unfold val. change (dubiner_ndof (m_p m)) with (ndof m). ring. }
      rewrite at_sides_scal in T. lra.
    Qed.
    Lemma energy_sides : forall e, (e < m_n m)%nat -> (forall j a, (j < ndof m)%nat -> (a < 2)%nat -> eq_w1 m alpha tau h b hh bh no_source w1 w2 wh e j a) ->
      (forall j, (j < ndof m)%nat -> eq_w2 m h hh w1 w2 wh e j) -> energy e = alpha / 3 * at_sides m e Sd.
    Proof.
      intros e He E1 E2.
      assert (Z : forall a, (a < 2)%nat -> rsum (ndof m) (fun j => w1 e a j * lhs_w1 m alpha tau h b hh bh w1 w2 wh e j a) = 0).
      { intros a Ha. apply rsum_const0. intros j Hj. rewrite (E1 j a Hj Ha). rewrite (vol_int_ext m e _ (fun _ _ => 0 * 0)) by (intros; unfold no_source; ring). rewrite vol_int_scal. ring. }
      pose proof (Z 0%nat ltac:(lia)) as Z0. pose proof (Z 1%nat ltac:(lia)) as Z1. rewrite (test_w1 e 0 He ltac:(lia)) in Z0. rewrite (test_w1 e 1 He ltac:(lia)) in Z1.
      pose proof (test_w2 e He E2) as T2.
      assert (SE : at_sides m e Sd = - (3 / alpha) * (at_sides m e (fun k s => - alpha / 3 * tau * edge_int m k s (fun _ z => V e 0 z * V e 0 z) + alpha / 3 * tau * edge_int m k s (fun gp z => V e 0 z * W k 0 gp)) +
        at_sides m e (fun k s => - alpha / 3 * tau * edge_int m k s (fun _ z => V e 1 z * V e 1 z) + alpha / 3 * tau * edge_int m k s (fun gp z => V e 1 z * W k 1 gp))) +
        at_sides m e (fun k s => edge_int m k s (fun gp z => val m (w2 e) z * (W k 0 gp * out_n m k s 0 + W k 1 gp * out_n m k s 1)))).
      { rewrite <- at_sides_plus, <- at_sides_scal, <- at_sides_plus. apply at_sides_ext. intros k s Hk Hs Es. unfold Sd. rewrite Es.
        rewrite (edge_int_ext m k s _ (fun gp z => (tau * (V e 0 z * V e 0 z) + tau * (V e 1 z * V e 1 z) + (- tau) * (V e 0 z * W k 0 gp) + (- tau) * (V e 1 z * W k 1 gp)) +
          val m (w2 e) z * (W k 0 gp * out_n m k s 0 + W k 1 gp * out_n m k s 1))) by (intros; cbv zeta; ring).
        rewrite !edge_int_plus, !edge_int_scal. field. lra. }
      unfold energy. rewrite SE. clear SE Z E1 E2.
      set (A0 := vol_int m e (fun _ z => V e 0 z * V e 0 z)) in *. set (A1 := vol_int m e (fun _ z => V e 1 z * V e 1 z)) in *.
      set (A2 := vol_int m e (fun _ z => val m (w2 e) z * val m (w2 e) z)) in *.
      set (B0 := vol_int m e (fun _ z => V e 0 z * dval m 0 e (w2 e) z)) in *. set (B1 := vol_int m e (fun _ z => V e 1 z * dval m 1 e (w2 e) z)) in *.
      set (S0 := at_sides m e _) in Z0. set (S1 := at_sides m e _) in Z1. set (S2 := at_sides m e _) in T2. fold S0 S1 S2.
      assert (T3 : / H ^ 2 * A2 + (B0 + B1) = S2).
      { apply (Rmult_eq_reg_l (/ H)); [|apply Rinv_neq_0_compat; lra]. rewrite <- T2. field. lra. }
      replace (alpha / (3 * H ^ 2) * A2) with (alpha / 3 * (/ H ^ 2 * A2)) by (field; lra).
      replace (alpha / 3 * (- (3 / alpha) * (S0 + S1) + S2)) with (- (S0 + S1) + alpha / 3 * S2) by (field; lra).
      rewrite <- T3. lra.
    Qed.
  End State.
End Energy.

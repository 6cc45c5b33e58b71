(** Proofs: in water of constant depth over a level bed the dispersive system has one solution. *)
From Coq Require Import Reals List Arith Bool Lia Lra.
From Coquelicot Require Import Hierarchy RInt.
From Verif Require Import Num Outcome ModelSWE SpecSWE LemmasSWE ModelShape ModelBasis ModelJac ModelStep ModelIHDG ModelCond SpecShape SpecBasis SpecStepper SpecStep SpecStage
  LemmasRK LemmasShape LemmasBasis LemmasBasis2 LemmasBasis3 LemmasBasis4 LemmasStep LemmasStage3 LemmasStage4 LemmasCond ModelGN SpecGN LemmasGN1 LemmasGN2 LemmasGN3 LemmasGN4
  ModelInit SpecRest LemmasRest1 LemmasRest2 LemmasRest3 LemmasEHDG5 LemmasGN8 LemmasGN9 LemmasGN13 LemmasGN14.
From Verif Require LemmasStage.
Import ListNotations.
Open Scope R_scope.

Section Energy.
  Context (i : input) (C : conforming i).
  Notation m := (init_mesh i).
  Context (alpha tau H : R) (Hal : 0 < alpha) (Htau : tau < 0) (HH : 0 < H).
  Context (HW : forall gp, (gp < ngp1 m)%nat -> 0 <= wgt m gp) (HY : forall gp, (gp < ngp1 m)%nat -> wgt m (ngp1 m - gp - 1)%nat = wgt m gp).
  Context (h : nat -> nat -> R) (b : nat -> nat -> nat -> R) (hh : nat -> nat -> R) (bh : nat -> nat -> nat -> R).
  Context (Hh : forall e gp, (e < m_n m)%nat -> (gp < ngp2 m)%nat -> h e gp = H) (Hb : forall e gp a, (e < m_n m)%nat -> (gp < ngp2 m)%nat -> (a < 2)%nat -> b e gp a = 0).
  Context (Hhh : forall k gp, (k < n_edges m)%nat -> (gp < ngp1 m)%nat -> hh k gp = H) (Hbh : forall k gp a, (k < n_edges m)%nat -> (gp < ngp1 m)%nat -> (a < 2)%nat -> bh k gp a = 0).

  Let no_source : nat -> nat -> nat -> R := fun _ _ _ => 0.
  Section State.
    Context (w1 : nat -> nat -> nat -> R) (w2 : nat -> nat -> R) (wh : nat -> nat -> nat -> R) (wet : nat -> bool).
    Notation V := (V i w1). Notation W := (W i wh). Notation Sd := (Sd i tau w1 w2 wh).
    Definition jump (k : nat) (s : nat * nat * bool) : R :=
      edge_int m k s (fun gp z => (V (fst (fst s)) 0 z - W k 0 gp) * (V (fst (fst s)) 0 z - W k 0 gp) + (V (fst (fst s)) 1 z - W k 1 gp) * (V (fst (fst s)) 1 z - W k 1 gp)).
    (** What is left of [Sd] once the jump is taken out. *)
    Definition rest_of (k : nat) (s : nat * nat * bool) : R :=
      edge_int m k s (fun gp z => W k 0 gp * (val m (w2 (fst (fst s))) z * out_n m k s 0 + tau * (V (fst (fst s)) 0 z - W k 0 gp)) +
        W k 1 gp * (val m (w2 (fst (fst s))) z * out_n m k s 1 + tau * (V (fst (fst s)) 1 z - W k 1 gp))).
    Lemma Sd_jump : forall k s, Sd k s = tau * jump k s + rest_of k s.
    Proof.
      intros k s. unfold Sd, jump, rest_of. rewrite <- edge_int_scal, <- edge_int_plus. apply edge_int_ext. intros gp z. cbv zeta. ring.
    Qed.
    Lemma jump_nonneg : forall k s, (k < n_edges m)%nat -> In s (edge_sides m k) -> 0 <= jump k s.
    Proof. intros k s Hk Hs. apply (edge_int_nonneg i C HW k s _ Hk Hs). intros gp z. pose proof (Rle_0_sqr (V (fst (fst s)) 0 z - W k 0 gp)). pose proof (Rle_0_sqr (V (fst (fst s)) 1 z - W k 1 gp)). unfold Rsqr in *. lra. Qed.

    Lemma lsum_test : forall (l : list (nat * nat * bool)) n (c : nat -> R) k (F : nat * nat * bool -> nat -> point -> R),
      rsum n (fun j => c j * lsum l (fun s => edge_int m k s (fun gp z => legendre_phi j (pos m gp) * F s gp z))) =
      lsum l (fun s => edge_int m k s (fun gp z => rsum n (fun j => c j * legendre_phi j (pos m gp)) * F s gp z)).
    Proof.
      intros l n c k F. induction l as [|s l IH]; [unfold lsum; cbn; apply rsum_const0; intros; ring|].
      rewrite lsum_cons, <- IH, <- (edge_test i k s n c (fun j gp _ => legendre_phi j (pos m gp)) (F s)), <- rsum_plus. apply rsum_ext. intros j _. rewrite lsum_cons. ring.
    Qed.
    Lemma flow_rest : forall k, (forall j a, (j < S (m_p m))%nat -> (a < 2)%nat -> eq_flow m tau w1 w2 wh k j a) -> lsum (edge_sides m k) (rest_of k) = 0.
    Proof.
      intros k E.
      assert (Z : forall a, (a < 2)%nat -> lsum (edge_sides m k) (fun s => edge_int m k s (fun gp z => W k a gp * (val m (w2 (fst (fst s))) z * out_n m k s a + tau * (V (fst (fst s)) a z - W k a gp)))) = 0).
      { intros a Ha. pose proof (lsum_test (edge_sides m k) (S (m_p m)) (wh k a) k (fun s gp z => val m (w2 (fst (fst s))) z * out_n m k s a + tau * (V (fst (fst s)) a z - W k a gp))) as T.
        rewrite rsum_const0 in T; [symmetry; exact T|]. intros j Hj. pose proof (E j a Hj Ha) as Q. unfold eq_flow in Q. unfold LemmasGN14.V, LemmasGN14.W. rewrite Q. ring. }
      pose proof (Z 0%nat ltac:(lia)) as Z0. pose proof (Z 1%nat ltac:(lia)) as Z1. unfold rest_of.
      rewrite (lsum_ext _ _ _ (fun s => edge_int m k s (fun gp z => W k 0 gp * (val m (w2 (fst (fst s))) z * out_n m k s 0 + tau * (V (fst (fst s)) 0 z - W k 0 gp))) +
        edge_int m k s (fun gp z => W k 1 gp * (val m (w2 (fst (fst s))) z * out_n m k s 1 + tau * (V (fst (fst s)) 1 z - W k 1 gp))))) by (intros; apply edge_int_plus).
      rewrite lsum_plus, Z0, Z1. ring.
    Qed.
    (** One wet side [s] of a wall. *)
    Lemma wall_rest : forall k s, (k < n_edges m)%nat -> In s (edge_sides m k) -> filter (wet_side wet) (edge_sides m k) = [s] ->
      (forall j a, (j < S (m_p m))%nat -> (a < 2)%nat -> eq_wall m wet w1 wh k j a) -> rest_of k s = 0.
    Proof.
      intros k s Hk Hs EF E. pose proof (out_unit i C k s Hk Hs) as U. set (n0 := out_n m k s 0) in *. set (n1 := out_n m k s 1) in *. set (e := fst (fst s)).
      assert (T : forall a (c : nat -> R), (a < 2)%nat -> edge_int m k s (fun gp z => lam m c (pos m gp) * (V e a z - out_n m k s a * (n0 * V e 0 z + n1 * V e 1 z) - W k a gp)) = 0).
      { intros a c Ha. pose proof (edge_test i k s (S (m_p m)) c (fun j gp _ => legendre_phi j (pos m gp)) (fun gp z => V e a z - out_n m k s a * (n0 * V e 0 z + n1 * V e 1 z) - W k a gp)) as Q.
        rewrite rsum_const0 in Q; [symmetry; exact Q|]. intros j Hj. pose proof (E j a Hj Ha) as P. unfold eq_wall in P. rewrite EF, lsum_cons in P. unfold lsum at 1 in P. cbn [fold_right map] in P.
        fold e n0 n1 in P. unfold LemmasGN14.V, LemmasGN14.W. rewrite Rplus_0_r in P. rewrite P. ring. }
      (* the normal part of the trace vanishes *)
      set (cn := fun j => n0 * wh k 0%nat j + n1 * wh k 1%nat j).
      assert (LN : forall gp, lam m cn (pos m gp) = n0 * W k 0 gp + n1 * W k 1 gp).
      { intros gp. unfold lam, cn, LemmasGN14.W, lam. rewrite <- !rsum_scal, <- rsum_plus. apply rsum_ext. intros. ring. }
      pose proof (T 0%nat cn ltac:(lia)) as T0. pose proof (T 1%nat cn ltac:(lia)) as T1.
      assert (Q : edge_int m k s (fun gp z => (n0 * W k 0 gp + n1 * W k 1 gp) * (n0 * W k 0 gp + n1 * W k 1 gp)) = 0).
      { assert (X : n0 * edge_int m k s (fun gp z => lam m cn (pos m gp) * (V e 0 z - n0 * (n0 * V e 0 z + n1 * V e 1 z) - W k 0 gp)) +
                    n1 * edge_int m k s (fun gp z => lam m cn (pos m gp) * (V e 1 z - n1 * (n0 * V e 0 z + n1 * V e 1 z) - W k 1 gp)) = 0) by (fold n0 in T0; fold n1 in T1; rewrite T0, T1; ring).
        rewrite <- !edge_int_scal, <- edge_int_plus in X.
        rewrite (edge_int_ext m k s _ (fun gp z => (-1) * ((n0 * W k 0 gp + n1 * W k 1 gp) * (n0 * W k 0 gp + n1 * W k 1 gp)))) in X.
        - rewrite edge_int_scal in X. lra.
        - intros gp z. rewrite LN. set (w0 := W k 0 gp). set (w1' := W k 1 gp). set (v0 := V e 0 z). set (v1 := V e 1 z).
          transitivity ((n0 * w0 + n1 * w1') * ((n0 * v0 + n1 * v1) - (n0 * n0 + n1 * n1) * (n0 * v0 + n1 * v1) - (n0 * w0 + n1 * w1'))); [ring|]. rewrite U. ring. }
      pose proof (edge_int_zero i C HW k s _ Hk Hs (fun gp z => Rle_0_sqr (n0 * W k 0 gp + n1 * W k 1 gp)) Q) as N. cbn beta in N.
      assert (NZ : forall gp, (gp < ngp1 m)%nat -> wgt m gp = 0 \/ n0 * W k 0 gp + n1 * W k 1 gp = 0).
      { intros gp Hg. destruct (Rmult_integral _ _ (N gp Hg)) as [Z|Z]; [left; exact Z|right]. apply Rsqr_0_uniq. exact Z. }
      assert (DR : forall (F G : nat -> point -> R), (forall gp z, n0 * W k 0 gp + n1 * W k 1 gp = 0 -> F gp z = G gp z) -> edge_int m k s F = edge_int m k s G).
      { intros F G HF. unfold edge_int. f_equal. apply rsum_ext. intros gp Hg. destruct (NZ gp Hg) as [->|Z]; [ring|]. rewrite (HF gp _ Z). reflexivity. }
      pose proof (T 0%nat (wh k 0%nat) ltac:(lia)) as S0. pose proof (T 1%nat (wh k 1%nat) ltac:(lia)) as S1. fold n0 in S0. fold n1 in S1.
      unfold rest_of. fold e n0 n1.
      rewrite (DR _ (fun gp z => tau * (W k 0 gp * (V e 0 z - n0 * (n0 * V e 0 z + n1 * V e 1 z) - W k 0 gp) + W k 1 gp * (V e 1 z - n1 * (n0 * V e 0 z + n1 * V e 1 z) - W k 1 gp)))).
      - rewrite edge_int_scal, edge_int_plus.
        change (fun gp z => W k 0 gp * (V e 0 z - n0 * (n0 * V e 0 z + n1 * V e 1 z) - W k 0 gp)) with (fun gp z => lam m (wh k 0%nat) (pos m gp) * (V e 0 z - n0 * (n0 * V e 0 z + n1 * V e 1 z) - W k 0 gp)).
        change (fun gp z => W k 1 gp * (V e 1 z - n1 * (n0 * V e 0 z + n1 * V e 1 z) - W k 1 gp)) with (fun gp z => lam m (wh k 1%nat) (pos m gp) * (V e 1 z - n1 * (n0 * V e 0 z + n1 * V e 1 z) - W k 1 gp)).
        rewrite S0, S1. ring.
      - intros gp z Z. set (w0 := W k 0 gp) in *. set (w1' := W k 1 gp) in *. set (v0 := V e 0 z). set (v1 := V e 1 z). set (y := val m (w2 e) z).
        transitivity (tau * (w0 * (v0 - w0) + w1' * (v1 - w1')) + y * (n0 * w0 + n1 * w1')); [ring|].
        transitivity (tau * (w0 * (v0 - w0) + w1' * (v1 - w1')) - tau * ((n0 * w0 + n1 * w1') * (n0 * v0 + n1 * v1))); [|ring]. rewrite Z. ring.
    Qed.
    Lemma edge_rest : forall k, (k < n_edges m)%nat ->
      (wet_k m wet k = true -> forall j a, (j < S (m_p m))%nat -> (a < 2)%nat -> if is_wall m wet k then eq_wall m wet w1 wh k j a else eq_flow m tau w1 w2 wh k j a) ->
      lsum (filter (wet_side wet) (edge_sides m k)) (rest_of k) = 0.
    Proof.
      intros k Hk E. destruct (wet_k m wet k) eqn:WK; [|rewrite (filter_nil _ _ _ WK); reflexivity]. specialize (E eq_refl).
      assert (ONE : forall s, In s (edge_sides m k) -> filter (wet_side wet) (edge_sides m k) = [s] -> (forall j a, (j < S (m_p m))%nat -> (a < 2)%nat -> eq_wall m wet w1 wh k j a) ->
        lsum (filter (wet_side wet) (edge_sides m k)) (rest_of k) = 0).
      { intros s Hs EF EW. pose proof (wall_rest k s Hk Hs EF EW) as Z. rewrite EF, lsum_cons, Z. unfold lsum. cbn. ring. }
      assert (ALL : filter (wet_side wet) (edge_sides m k) = edge_sides m k -> (forall j a, (j < S (m_p m))%nat -> (a < 2)%nat -> eq_flow m tau w1 w2 wh k j a) ->
        lsum (filter (wet_side wet) (edge_sides m k)) (rest_of k) = 0) by (intros EF EW; rewrite EF; exact (flow_rest k EW)).
      unfold is_wall in E. unfold wet_k in WK. unfold n_edges in Hk.
      destruct (nth_error (m_intfaces m) k) as [f|] eqn:EI.
      - assert (ES : edge_sides m k = [(i_in f, i_bin f, false); (i_ex f, i_bex f, true)]) by (unfold edge_sides; rewrite EI; reflexivity).
        assert (EF : filter (wet_side wet) (edge_sides m k) = (if wet (i_in f) then [(i_in f, i_bin f, false)] else []) ++ (if wet (i_ex f) then [(i_ex f, i_bex f, true)] else [])).
        { rewrite ES. cbn [filter]. unfold wet_side; cbn [fst snd]. destruct (wet (i_in f)), (wet (i_ex f)); reflexivity. }
        rewrite ES in WK. cbn [existsb] in WK. unfold wet_side in WK; cbn [fst snd] in WK.
        destruct (wet (i_in f)) eqn:W1, (wet (i_ex f)) eqn:W2; cbn [andb negb orb app] in *.
        + apply ALL; [rewrite EF, ES; reflexivity|exact E].
        + apply (ONE (i_in f, i_bin f, false)); [rewrite ES; left; reflexivity|exact EF|exact E].
        + apply (ONE (i_ex f, i_bex f, true)); [rewrite ES; right; left; reflexivity|exact EF|exact E].
        + discriminate.
      - destruct (nth_error (m_bounds m) (k - length (m_intfaces m))) as [bd|] eqn:EB.
        + assert (ES : edge_sides m k = [(b_elt bd, b_id bd, false)]) by (unfold edge_sides; rewrite EI, EB; reflexivity).
          rewrite ES in WK. cbn [existsb] in WK. rewrite orb_false_r in WK.
          assert (EF : filter (wet_side wet) (edge_sides m k) = [(b_elt bd, b_id bd, false)]) by (rewrite ES; cbn [filter]; rewrite WK; reflexivity).
          destruct (b_bc bd).
          * apply (ONE (b_elt bd, b_id bd, false)); [rewrite ES; left; reflexivity|exact EF|exact E].
          * apply ALL; [rewrite EF, ES; reflexivity|exact E].
        + apply nth_error_None in EI. apply nth_error_None in EB. lia.
    Qed.

    Lemma total_energy : gn_system m alpha tau wet h b hh bh no_source w1 w2 wh ->
      rsum (m_n m) (fun e => if wet e then energy i alpha H w1 w2 e else 0) =
      alpha / 3 * tau * rsum (n_edges m) (fun k => lsum (filter (wet_side wet) (edge_sides m k)) (jump k)).
    Proof.
      intros [E1 E2].
      rewrite (rsum_ext (m_n m) _ (fun e => alpha / 3 * (if wet e then at_sides m e Sd else 0))).
      2:{ intros e He. destruct (wet e) eqn:We; [|ring]. apply (energy_sides i C alpha tau H Hal HH HY h b hh bh Hh Hb Hhh Hbh w1 w2 wh e He).
          - intros j a Hj Ha. exact (proj1 (E1 e j He We Hj) a Ha).
          - intros j Hj. exact (proj2 (E1 e j He We Hj)). }
      rewrite rsum_scal, (all_wet_sides i C wet Sd), Rmult_assoc. f_equal. rewrite <- rsum_scal. apply rsum_ext. intros k Hk.
      rewrite (lsum_ext _ _ _ (fun s => tau * jump k s + rest_of k s)) by (intros; apply Sd_jump).
      rewrite lsum_plus, lsum_scal, (edge_rest k Hk); [ring|]. intros WK j a Hj Ha. exact (E2 k j a Hk WK Hj Ha).
    Qed.
    Lemma energy_nonneg : forall e, (e < m_n m)%nat -> 0 <= energy i alpha H w1 w2 e.
    Proof.
      intros e He. unfold energy. pose proof (square_nonneg i C e (w1 e 0%nat) He). pose proof (square_nonneg i C e (w1 e 1%nat) He). pose proof (square_nonneg i C e (w2 e) He) as P.
      assert (Q : 0 < alpha / (3 * H ^ 2)) by (apply Rdiv_lt_0_compat; [exact Hal|pose proof (pow_lt H 2 HH); lra]). pose proof (Rmult_le_pos _ _ (Rlt_le _ _ Q) P). unfold LemmasGN14.V. lra.
    Qed.
    Lemma energy_zero : forall e, (e < m_n m)%nat -> energy i alpha H w1 w2 e = 0 -> zero_w1 m w1 e.
    Proof.
      intros e He E a j Ha Hj. unfold energy, LemmasGN14.V in E. pose proof (square_nonneg i C e (w1 e 0%nat) He). pose proof (square_nonneg i C e (w1 e 1%nat) He). pose proof (square_nonneg i C e (w2 e) He) as P.
      assert (Q : 0 < alpha / (3 * H ^ 2)) by (apply Rdiv_lt_0_compat; [exact Hal|pose proof (pow_lt H 2 HH); lra]). pose proof (Rmult_le_pos _ _ (Rlt_le _ _ Q) P).
      apply (square_zero i C e (w1 e a) He); [|exact Hj]. destruct a as [|[|a]]; [lra|lra|lia].
    Qed.
    Lemma jumps_nonneg : forall k, (k < n_edges m)%nat -> 0 <= lsum (filter (wet_side wet) (edge_sides m k)) (jump k).
    Proof. intros k Hk. apply lsum_nonneg. intros s Hs. apply filter_In in Hs. apply jump_nonneg; [exact Hk|exact (proj1 Hs)]. Qed.
  End State.

  Theorem level_solvable : forall wet, solvable m alpha tau wet h b hh bh.
  Proof.
    intros wet. split; [|split].
    - intros e w2 He _ E j Hj. specialize (E j Hj).
      rewrite (vol_int_ok i C e _ (fun _ z => / H ^ 3 * (GetPhi j z * val m (w2 e) z))) in E by (intros gp z Hg _ _; rewrite (Hh e gp He Hg); unfold Rdiv; ring).
      rewrite vol_int_scal, (mass_row i C e (w2 e) j He Hj) in E. pose proof (Rinv_0_lt_compat _ (pow_lt H 3 HH)). pose proof (mass_pos i C e j He Hj).
      destruct (Rmult_integral _ _ E) as [Z|Z]; [lra|]. destruct (Rmult_integral _ _ Z); [lra|assumption].
    - intros e w1 w2 He We E1 E2. set (nt := fun _ _ _ : nat => 0).
      pose proof (energy_sides i C alpha tau H Hal HH HY h b hh bh Hh Hb Hhh Hbh w1 w2 nt e He E1 E2) as T. apply (energy_zero w1 w2 e He).
      pose proof (energy_nonneg w1 w2 e He) as P.
      assert (N : at_sides m e (LemmasGN14.Sd i tau w1 w2 nt) <= 0).
      { unfold at_sides. apply Ropp_le_cancel. rewrite Ropp_0, <- rsum_opp. apply rsum_nonneg. intros k Hk. rewrite <- LemmasStage.lsum_opp. apply lsum_nonneg. intros s Hs.
        destruct (Nat.eqb_spec (fst (fst s)) e) as [Es|]; [|lra]. rewrite (Sd_jump w1 w2 nt k s). pose proof (jump_nonneg w1 nt k s Hk Hs) as J.
        assert (Z : rest_of w1 w2 nt k s = 0).
        { unfold rest_of. rewrite (edge_int_ext m k s _ (fun _ _ => 0 * 0)); [rewrite edge_int_scal; ring|]. intros gp z.
          assert (W0 : forall a, LemmasGN14.W i nt k a gp = 0) by (intros a; unfold LemmasGN14.W, lam, nt; apply rsum_const0; intros; ring). rewrite !W0. ring. }
        rewrite Z. nra. }
      nra.
    - intros w1 w2 wh SY. pose proof (total_energy w1 w2 wh wet SY) as T.
      assert (EN : forall e, (e < m_n m)%nat -> 0 <= if wet e then energy i alpha H w1 w2 e else 0) by (intros e He; destruct (wet e); [exact (energy_nonneg w1 w2 e He)|lra]).
      pose proof (rsum_nonneg (m_n m) (fun e => if wet e then energy i alpha H w1 w2 e else 0) EN) as P1. pose proof (rsum_nonneg (n_edges m) (fun k => lsum (filter (wet_side wet) (edge_sides m k)) (jump w1 wh k)) (jumps_nonneg w1 wh wet)) as P2.
      assert (AT : alpha / 3 * tau < 0) by nra.
      assert (Z1 : rsum (m_n m) (fun e => if wet e then energy i alpha H w1 w2 e else 0) = 0) by nra.
      assert (Z2 : rsum (n_edges m) (fun k => lsum (filter (wet_side wet) (edge_sides m k)) (jump w1 wh k)) = 0) by nra.
      assert (ZE : forall e, (e < m_n m)%nat -> wet e = true -> zero_w1 m w1 e).
      { intros e He We. apply (energy_zero w1 w2 e He). pose proof (rsum_zero (m_n m) (fun e => if wet e then energy i alpha H w1 w2 e else 0) EN Z1 e He) as Z. cbn beta in Z. rewrite We in Z. exact Z. }
      split; [exact ZE|]. intros k a j Hk WK Ha Hj.
      pose proof (rsum_zero (n_edges m) (fun k => lsum (filter (wet_side wet) (edge_sides m k)) (jump w1 wh k)) (jumps_nonneg w1 wh wet) Z2 k Hk) as Z. cbn beta in Z.
      unfold wet_k in WK. apply existsb_exists in WK. destruct WK as (s & Hs & Ws).
      assert (JZ : jump w1 wh k s = 0).
      { assert (IN : In s (filter (wet_side wet) (edge_sides m k))) by (apply filter_In; split; assumption).
        assert (NN : forall t, In t (filter (wet_side wet) (edge_sides m k)) -> 0 <= jump w1 wh k t) by (intros t Ht; apply filter_In in Ht; apply jump_nonneg; tauto).
        revert IN NN Z. generalize (filter (wet_side wet) (edge_sides m k)) as l. induction l as [|t l IH]; intros IN NN Z; [destruct IN|].
        rewrite lsum_cons in Z. pose proof (NN t (or_introl eq_refl)) as A. pose proof (lsum_nonneg _ l (jump w1 wh k) (fun x Hx => NN x (or_intror Hx))) as B.
        destruct IN as [->|IN]; [lra|]. apply IH; [exact IN|intros x Hx; apply NN; right; exact Hx|lra]. }
      destruct (side_in i C k s Hk Hs) as [He _].
      assert (V0 : forall b z, (b < 2)%nat -> LemmasGN14.V i w1 (fst (fst s)) b z = 0).
      { intros b0 z Hb0. unfold LemmasGN14.V, val. apply rsum_const0. intros l Hl. rewrite (ZE (fst (fst s)) He Ws b0 l Hb0 Hl). ring. }
      unfold jump in JZ. rewrite (edge_int_ext m k s _ (fun gp z => lam m (wh k 0%nat) (pos m gp) * lam m (wh k 0%nat) (pos m gp) + lam m (wh k 1%nat) (pos m gp) * lam m (wh k 1%nat) (pos m gp))) in JZ
        by (intros gp z; rewrite !V0 by lia; unfold LemmasGN14.W; ring).
      rewrite edge_int_plus in JZ.
      assert (L : forall b, 0 <= edge_int m k s (fun gp z => lam m (wh k b) (pos m gp) * lam m (wh k b) (pos m gp))) by (intros b0; apply (edge_int_nonneg i C HW k s _ Hk Hs); intros; apply Rle_0_sqr).
      pose proof (L 0%nat) as L0. pose proof (L 1%nat) as L1.
      apply (lam_zero i C k s (wh k a) Hk Hs); [|exact Hj]. destruct a as [|[|a]]; [lra|lra|lia].
  Qed.
End Energy.

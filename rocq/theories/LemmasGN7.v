(** Proofs: a correction stage solves the system of the specification. *)
From Coq Require Import Reals List Arith Bool Lia Lra.
From Verif Require Import Num Outcome ModelSWE LemmasSWE ModelShape ModelBasis ModelJac ModelStep ModelIHDG ModelCond SpecShape SpecBasis SpecStepper SpecStep SpecStage SpecCond
  LemmasRK LemmasStep LemmasStage3 LemmasCond ModelGN SpecGN LemmasGN1 LemmasGN2 LemmasGN3 LemmasGN4 LemmasGN5 LemmasGN6.
Import ListNotations.
Open Scope R_scope.

Section Stage.
  Context (m : mesh) (g : R) (q : nat -> coeffs) (wet : nat -> bool) (nb : numbering) (d : dcsys).
  Context (HM : faces_once m) (HN : num_ok m wet nb) (HT : forall e, (e < m_n m)%nat -> good m e) (HB : blocks_ok m g q wet d).
  Context (HK : forall k, In k (numbered_edges m) -> kernels_ok wet k).
  Notation n1 := (2 * ndof m)%nat.
  Notation n2 := (ndof m).
  Notation nh := (nhat m).
  Notation no_l := (no_load d).
  Notation fh := (f_h m q).
  Notation fb := (f_b m).
  Notation fhh := (f_hh m q).
  Notation fbh := (f_bh m).

  (** From flat unknowns to fields and back. *)
  Definition to_w1 (x : nat -> nat -> R) : nat -> nat -> nat -> R := fun e a i => x e (2 * i + a)%nat.
  Definition to_wh (z : nat -> R) : nat -> nat -> nat -> R := fun k a j => z (n_edge nb k * nh + (2 * j + a))%nat.
  Definition of_w1 (w1 : nat -> nat -> nat -> R) : nat -> nat -> R := fun e r => w1 e (r mod 2) (r / 2)%nat.
  Definition of_wh (wh : nat -> nat -> nat -> R) : nat -> R := fun r =>
    match find (fun x => wet_edge wet (snd x) && Nat.eqb (n_edge nb (fst x)) (r / nh)) (numbered_edges m) with
    | Some x => wh (fst x) ((r mod nh) mod 2) ((r mod nh) / 2)%nat
    | None => 0
    end.
  Lemma rel_to : forall x y z, rel m wet nb x y z (to_w1 x) y (to_wh z).
  Proof. intros. split; [|split]; intros; reflexivity. Qed.
  Lemma rel_of : forall w1 w2 wh, rel m wet nb (of_w1 w1) w2 (of_wh wh) w1 w2 wh.
  Proof.
    intros w1 w2 wh. split; [|split].
    - intros e a i _ _ Ha _. unfold of_w1. destruct (half_of i a Ha) as [-> ->]. reflexivity.
    - reflexivity.
    - intros k a j Hk Wk Ha Hj. unfold of_wh. assert (Hl : (2 * j + a < nh)%nat) by (unfold nhat; lia).
      assert (E1 : ((n_edge nb (fst k) * nh + (2 * j + a)) / nh = n_edge nb (fst k))%nat) by (symmetry; apply (Nat.div_unique _ nh _ (2 * j + a)); lia).
      assert (E2 : ((n_edge nb (fst k) * nh + (2 * j + a)) mod nh = 2 * j + a)%nat) by (symmetry; apply (Nat.mod_unique _ nh (n_edge nb (fst k))); lia).
      rewrite E1, E2. destruct (half_of j a Ha) as [-> ->]. destruct (find _ (numbered_edges m)) as [x|] eqn:F.
      + apply find_some in F. destruct F as [Hx F]. apply andb_true_iff in F. destruct F as [Wx F]. apply Nat.eqb_eq in F.
        assert (E : fst x = fst k); [|rewrite E; reflexivity].
        pose proof (no_seq m wet nb HN) as SQ. assert (ND : NoDup (map (fun x => n_edge nb (fst x)) (filter (fun x => wet_edge wet (snd x)) (numbered_edges m)))) by (rewrite SQ; apply seq_NoDup).
        assert (Ix : In x (filter (fun x => wet_edge wet (snd x)) (numbered_edges m))) by (apply filter_In; auto).
        assert (Ik : In k (filter (fun x => wet_edge wet (snd x)) (numbered_edges m))) by (apply filter_In; auto).
        revert ND Ix Ik. clear - F. generalize (filter (fun x => wet_edge wet (snd x)) (numbered_edges m)) as l. induction l as [|y l IH]; intros ND Ix Ik; [destruct Ix|].
        cbn [map] in ND. inversion ND as [|? ? A B]; subst. destruct Ix as [->|Ix], Ik as [->|Ik]; [reflexivity| | |auto].
        * exfalso. apply A. rewrite F. apply (in_map (fun x => n_edge nb (fst x))). exact Ik.
        * exfalso. apply A. rewrite <- F. apply (in_map (fun x => n_edge nb (fst x))). exact Ix.
      + exfalso. pose proof (find_none _ _ F k Hk) as Q. cbv beta in Q. rewrite Wk, Nat.eqb_refl in Q. discriminate.
  Qed.

  (** ** Homogeneous problems *)
  Lemma no_load_blocks : forall e i a, (e < m_n m)%nat -> wet e = true -> (a < 2)%nat ->
    vol_int m e (fun gp p => GetPhi i p * 0) = 0.
  Proof. intros e i a _ _ _. rewrite (vol_int_ext m e _ (fun gp p => 0 * GetPhi i p)) by (intros; ring). rewrite vol_int_scal. ring. Qed.
  (** The rows of the system with any right-hand side. *)
  Lemma row_1_lhs : forall x y z w1 w2 wh e i a, rel m wet nb x y z w1 w2 wh -> (e < m_n m)%nat -> wet e = true -> (i < n2)%nat -> (a < 2)%nat ->
    mul n1 (d_11 d e) (x e) (2 * i + a) + mul n2 (d_12 d e) (y e) (2 * i + a) + fsum nh (zf m nb z e) (d_1h d e) (2 * i + a) =
    lhs_w1 m alpha tau fh fb fhh fbh w1 w2 wh e i a.
  Proof.
    intros x y z w1 w2 wh e i a HR He We Hi Ha.
    exact (row_1_form m g q wet nb d HM HN HT HB x y z w1 w2 wh HR e i a He We Hi Ha).
  Qed.
  Lemma flat_22_ok : w2_alone m wet fh -> flat_22 m wet d.
  Proof.
    intros U e y He We H. unfold agree. intros i Hi. apply (U e (fun _ => y) He We); [|exact Hi]. intros j Hj. rewrite <- (H j Hj). rewrite (bo_22 m g q wet d HB).
    symmetry. unfold mul, vol_22. rewrite pp_int. apply vol_int_ext. intros. unfold f_h, Rdiv. cbn [pow].
    replace (h_elt m q e gp * (h_elt m q e gp * (h_elt m q e gp * 1))) with (h_elt m q e gp * h_elt m q e gp * h_elt m q e gp) by ring. ring.
  Qed.
  Lemma flat_local_ok : element_alone m alpha tau wet fh fb fhh fbh -> flat_local m wet d.
  Proof.
    intros U e x y He We H1 H2. assert (R0 : rel m wet nb (fun _ => x) (fun _ => y) (fun _ => 0) (to_w1 (fun _ => x)) (fun _ => y) (fun _ _ _ => 0)) by (split; [|split]; intros; reflexivity).
    assert (Z : zero_w1 m (to_w1 (fun _ => x)) e).
    { apply (U e (to_w1 (fun _ => x)) (fun _ => y) He We).
      - intros i a Hi Ha. unfold eq_w1. rewrite (no_load_blocks e i a He We Ha). rewrite <- (row_1_lhs _ _ _ _ _ _ e i a R0 He We Hi Ha). apply H1. change (dubiner_ndof (m_p m)) with n2 in Hi. lia.
      - intros i Hi. apply (row_2 m g q wet nb d HM HN HT HB _ _ _ _ _ _ R0 e i He We Hi). apply H2. exact Hi. }
    intros l Hl. pose proof (Nat.mod_upper_bound l 2 ltac:(lia)) as Hm. assert (Hi : (l / 2 < n2)%nat) by (apply Nat.div_lt_upper_bound; lia).
    specialize (Z (l mod 2) (l / 2)%nat Hm Hi). unfold to_w1 in Z. rewrite <- Nat.div_mod in Z by lia. exact Z.
  Qed.
  Lemma flat_coupled_ok : coupled_alone m alpha tau wet fh fb fhh fbh -> flat_coupled m wet nb d.
  Proof.
    intros U x y z [HE HF] k l Hk Wk Hl.
    assert (SY : gn_system m alpha tau wet fh fb fhh fbh (fun _ _ _ => 0) (to_w1 x) y (to_wh z)).
    { pose proof (rel_to x y z) as R0. split.
      - intros e i He We Hi. destruct (HE e He We) as [H1 H2]. split.
        + intros a Ha. unfold eq_w1. rewrite (no_load_blocks e i a He We Ha), <- (row_1_lhs _ _ _ _ _ _ e i a R0 He We Hi Ha). apply H1. change (dubiner_ndof (m_p m)) with n2 in Hi. lia.
        + apply (row_2 m g q wet nb d HM HN HT HB _ _ _ _ _ _ R0 e i He We Hi). apply H2. exact Hi.
      - assert (FS : flat_edges m wet nb d x y z) by exact HF.
        exact (proj1 (edges_iff m g q wet nb d HM HB x y z (to_w1 x) y (to_wh z) R0 HK) FS). }
    destruct (U _ _ _ SY) as [_ Z]. pose proof (Nat.mod_upper_bound l 2 ltac:(lia)) as Hm. assert (Hj : (l / 2 < S (m_p m))%nat) by (apply Nat.div_lt_upper_bound; unfold nhat in Hl; lia).
    assert (Hn : (fst k < n_edges m)%nat) by (rewrite <- gedges_length; apply nth_error_Some; apply numbered_nth in Hk; rewrite Hk; discriminate).
    specialize (Z (fst k) (l mod 2) (l / 2)%nat Hn). rewrite (wet_k_edge m wet k Hk) in Z. specialize (Z Wk Hm Hj). unfold to_wh in Z. rewrite <- Nat.div_mod in Z by lia. exact Z.
  Qed.

  Context (inverse : nat -> (nat -> nat -> R) -> nat -> nat -> R) (solve_dense : nat -> (nat -> nat -> R) -> (nat -> R) -> nat -> R)
          (solve_sparse : nat -> (nat -> nat -> R) -> (nat -> R) -> nat -> R).
  Context (OI : inverse_ok inverse) (OD : solver_ok solve_dense) (OS : solver_ok solve_sparse).
  Theorem stage_solves : solvable m alpha tau wet fh fb fhh fbh -> (forall x, In x (numbered_edges m) -> (n_edge nb (fst x) < n_count nb)%nat) ->
    exists w1 w2 wh, solve_dc m inverse solve_dense solve_sparse wet nb d = Ok w1 /\
      gn_system m alpha tau wet fh fb fhh fbh (f_K m g q) w1 w2 wh /\
      forall w1' w2' wh', gn_system m alpha tau wet fh fb fhh fbh (f_K m g q) w1' w2' wh' ->
      forall e a i, (e < m_n m)%nat -> wet e = true -> (a < 2)%nat -> (i < n2)%nat -> w1 e a i = w1' e a i.
  Proof.
    intros (U1 & U2 & U3) HR.
    destruct (solve_dc_ok m wet nb d inverse solve_dense solve_sparse HM HN OI OD OS (flat_22_ok U1) (flat_local_ok U2) (flat_coupled_ok U3) HR) as (w1 & S1 & (x & y & z & F) & Q).
    exists w1, y, (to_wh z). split; [exact S1|]. split.
    - apply (system_iff m g q wet nb d HM HN HT HB x y z w1 y (to_wh z)); [|exact HK|exact F].
      split; [|split]; [|reflexivity|intros; reflexivity]. intros e a i He We Ha Hi. symmetry. apply (Q x y z F); assumption.
    - intros w1' w2' wh' H e a i He We Ha Hi.
      assert (F' : flat_system m wet nb d (of_w1 w1') w2' (of_wh wh')) by (apply (system_iff m g q wet nb d HM HN HT HB _ _ _ _ _ _ (rel_of w1' w2' wh') HK); exact H).
      rewrite (Q _ _ _ F' e a i He We Ha Hi). apply (rel_of w1' w2' wh'); assumption.
  Qed.
End Stage.

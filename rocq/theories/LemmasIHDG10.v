(** Face traces of the element basis are combinations of the trace basis, and the
    land condition holds after every pass. *)
From Coq Require Import Reals List Bool Arith Lra Lia.
From Coquelicot Require Import Coquelicot.
From Verif Require Import Num ModelSWE ModelShape ModelBasis SpecBasis LemmasBasis LemmasBasis2 LemmasBasis3 ModelJac SpecJac SpecStepper SpecStep LemmasSWE LemmasRK LemmasBasis4 LemmasStep
  LemmasRest1 LemmasRest2 ModelStep ModelIHDG SpecIHDG SpecIHDG2 LemmasIHDG2 LemmasIHDG3 LemmasIHDG4 LemmasIHDG5 LemmasIHDG6 LemmasIHDG7 LemmasIHDG9.
Import ListNotations.
Open Scope R_scope.

Definition span (n : nat) (f : R -> R) : Prop := exists c, forall z, f z = rsum (S n) (fun i => c i * legendre_phi i z).
Lemma span_ext : forall n f h, (forall z, f z = h z) -> span n f -> span n h.
Proof. intros n f h E [c H]. exists c. intros z. rewrite <- E. apply H. Qed.
Lemma span_le : forall n k f, (n <= k)%nat -> span n f -> span k f.
Proof.
  intros n k f L [c H]. exists (fun i => if (i <=? n)%nat then c i else 0). intros z. rewrite H.
  replace (S k) with (S n + (k - n))%nat by lia. rewrite rsum_split.
  rewrite (rsum_ext (S n) (fun i => (if (i <=? n)%nat then c i else 0) * legendre_phi i z) (fun i => c i * legendre_phi i z)).
  - rewrite (rsum_const0 (k - n)); [ring|]. intros i _. destruct (Nat.leb_spec (S n + i) n); [lia|ring].
  - intros i Hi. destruct (Nat.leb_spec i n); [reflexivity|lia].
Qed.
Lemma span_plus : forall n f h, span n f -> span n h -> span n (fun z => f z + h z).
Proof. intros n f h [c H] [d K]. exists (fun i => c i + d i). intros z. rewrite H, K, <- rsum_plus. apply rsum_ext. intros; ring. Qed.
Lemma span_scal : forall n k f, span n f -> span n (fun z => k * f z).
Proof. intros n k f [c H]. exists (fun i => k * c i). intros z. rewrite H, <- rsum_scal. apply rsum_ext. intros; ring. Qed.
Lemma span_zero : forall n, span n (fun _ => 0).
Proof. intros n. exists (fun _ => 0). intros z. symmetry. apply rsum_const0. intros; ring. Qed.
Lemma span_sum : forall k n (f : nat -> R -> R), (forall i, (i < k)%nat -> span n (f i)) -> span n (fun z => rsum k (fun i => f i z)).
Proof.
  induction k as [|k IH]; intros n f H; cbn [rsum]; [apply span_zero|]. apply (span_plus n (fun z => rsum k (fun i => f i z)) (f k)); [|apply H; lia].
  apply IH. intros i Hi. apply H. lia.
Qed.
Lemma span_leg : forall n, span n (legendre_phi n).
Proof.
  intros n. exists (fun i => if (i =? n)%nat then 1 else 0). intros z. cbn [rsum]. rewrite Nat.eqb_refl, rsum_const0; [ring|].
  intros i Hi. destruct (Nat.eqb_spec i n); [lia|ring].
Qed.
Lemma coeff_nz : forall n k, (k <= n)%nat -> jacobi_coeff n 0 0 k <> 0.
Proof.
  intros n k H. unfold jacobi_coeff. repeat (apply Rmult_integral_contrapositive_currified); try apply INR_fact_neq_0.
  - apply pow_nonzero. lra.
  - apply Rinv_neq_0_compat. repeat (apply Rmult_integral_contrapositive_currified); apply INR_fact_neq_0.
Qed.
Lemma span_half : forall n, (n <= 500)%nat -> span n (fun z => ((1 - z) / 2) ^ n).
Proof.
  intros n. induction n as [n IH] using lt_wf_ind. intros L.
  apply (span_ext n (fun z => / jacobi_coeff n 0 0 n * legendre_phi n z + rsum n (fun k => - (jacobi_coeff n 0 0 k / jacobi_coeff n 0 0 n) * ((1 - z) / 2) ^ k))).
  - intros z. unfold legendre_phi. change 0%Z with (Z.of_nat 0). rewrite jacobi_ok by lia. unfold jacobi_classical.
    change (bsum (S n)) with (rsum (S n)). cbn [rsum].
    pose proof (coeff_nz n n (le_n n)) as N. rewrite Rmult_plus_distr_l, <- rsum_scal, Rplus_comm, <- Rplus_assoc, <- rsum_plus.
    rewrite rsum_const0; [field; exact N|]. intros k _. field. exact N.
  - apply span_plus; [apply span_scal, span_leg|]. apply (span_sum n n (fun k z => - (jacobi_coeff n 0 0 k / jacobi_coeff n 0 0 n) * ((1 - z) / 2) ^ k)).
    intros k Hk. apply span_scal. apply (span_le k); [lia|]. apply IH; lia.
Qed.
Lemma span_pow : forall k j, (k + j <= 500)%nat -> span (k + j) (fun z => z ^ k * ((1 - z) / 2) ^ j).
Proof.
  induction k as [|k IH]; intros j L.
  - apply (span_ext j (fun z => ((1 - z) / 2) ^ j)); [intros; cbn; ring|]. apply span_half. exact L.
  - apply (span_ext _ (fun z => z ^ k * ((1 - z) / 2) ^ j + (-2) * (z ^ k * ((1 - z) / 2) ^ (S j)))); [intros; cbn [pow]; field|].
    apply span_plus; [apply (span_le (k + j)); [lia|apply IH; lia]|]. apply span_scal. replace (S k + j)%nat with (k + S j)%nat by lia. apply IH. lia.
Qed.
Lemma span_mono : forall k n, (k <= n <= 500)%nat -> span n (fun z => z ^ k).
Proof.
  intros k n H. apply (span_le (k + 0)); [lia|]. apply (span_ext _ (fun z => z ^ k * ((1 - z) / 2) ^ 0)); [intros; cbn; ring|]. apply span_pow. lia.
Qed.
Lemma btm_ok : forall b z, snd (BoundaryToMasterCoordinates b z) <> 1 \/ (fst (BoundaryToMasterCoordinates b z) = -1 /\ snd (BoundaryToMasterCoordinates b z) = 1).
Proof.
  intros b z. destruct b as [|[|b]]; cbn.
  - destruct (Req_dec z 1) as [->|]; [right|left]; lra.
  - destruct (Req_dec z (-1)) as [->|]; [right|left]; lra.
  - left. lra.
Qed.
Lemma face_span : forall p dof b, (p <= 298)%nat -> (dof < dubiner_ndof p)%nat -> span p (fun z => GetPhi dof (BoundaryToMasterCoordinates b z)).
Proof.
  intros p dof b Hp Hd.
  assert (L : (dof < dubiner_ndof 298)%nat).
  { eapply Nat.lt_le_trans; [exact Hd|]. rewrite !ndof_tri. apply tri_mono. lia. }
  destruct (polynomial dof L) as [f [Pf Ef]]. pose proof (dof_degree dof p Hd) as Dg.
  destruct (poly_terms _ _ (pd_le _ _ _ Dg Pf)) as [l [Tl El]].
  apply (span_ext p (fun z => tval l (fst (BoundaryToMasterCoordinates b z)) (snd (BoundaryToMasterCoordinates b z)))).
  { intros z. rewrite <- El. destruct (Ef _ _ (btm_ok b z)) as [E _]. rewrite <- E. destruct (BoundaryToMasterCoordinates b z); reflexivity. }
  clear Ef El. induction Tl as [|[c [i j]] l Hl Tl IH]; [apply (span_ext p (fun _ => 0)); [reflexivity|apply span_zero]|]. cbn [fst snd] in Hl.
  apply (span_ext p (fun z => c * (fst (BoundaryToMasterCoordinates b z) ^ i * snd (BoundaryToMasterCoordinates b z) ^ j) +
    tval l (fst (BoundaryToMasterCoordinates b z)) (snd (BoundaryToMasterCoordinates b z)))); [reflexivity|].
  apply span_plus; [|exact IH]. apply span_scal.
  assert (M : forall z k, (- z) ^ k = (-1) ^ k * z ^ k) by (intros z k; rewrite <- Rpow_mult_distr; f_equal; ring).
  destruct b as [|[|b]]; cbn [fst snd BoundaryToMasterCoordinates].
  - apply (span_ext p (fun z => (-1) ^ i * z ^ (i + j))); [intros z; rewrite M, pow_add; cbn; num_R; ring|]. apply span_scal, span_mono. lia.
  - apply (span_ext p (fun z => ((-1) ^ i * (-1) ^ j) * z ^ j)); [intros z; cbn; num_R; rewrite (M z j); ring|]. apply span_scal, span_mono. lia.
  - apply (span_ext p (fun z => (-1) ^ j * z ^ i)); [intros z; cbn; num_R; ring|]. apply span_scal, span_mono. lia.
Qed.

(** A combination of the trace basis whose moments vanish is zero at the points. *)
Lemma moments_zero : forall k n (w x r : nat -> R), (forall gp, (gp < k)%nat -> 0 < w gp) ->
  (exists c, forall gp, (gp < k)%nat -> r gp = rsum n (fun i => c i * legendre_phi i (x gp))) ->
  (forall i, (i < n)%nat -> rsum k (fun gp => r gp * (legendre_phi i (x gp) * w gp)) = 0) -> forall gp, (gp < k)%nat -> r gp = 0.
Proof.
  intros k n w x r Hw [c Hr] Hm.
  assert (S : rsum k (fun gp => w gp * (r gp * r gp)) = 0).
  { rewrite (rsum_ext k _ (fun gp => rsum n (fun i => c i * (r gp * (legendre_phi i (x gp) * w gp))))).
    - rewrite rsum_swap. apply rsum_const0. intros i Hi. rewrite rsum_scal, Hm by exact Hi. ring.
    - intros gp H. rewrite (Hr gp H) at 2. rewrite <- !rsum_scal. apply rsum_ext. intros i _. ring. }
  assert (P : forall n', (n' <= k)%nat -> 0 <= rsum n' (fun gp => w gp * (r gp * r gp)) /\ (rsum n' (fun gp => w gp * (r gp * r gp)) = 0 -> forall gp, (gp < n')%nat -> r gp = 0)).
  { induction n' as [|n' IH]; intros L; cbn [rsum]; [split; [lra|intros; lia]|]. destruct (IH ltac:(lia)) as [P1 P2].
    assert (Q : 0 <= w n' * (r n' * r n')) by (apply Rmult_le_pos; [apply Rlt_le, Hw; lia|apply Rle_0_sqr]).
    split; [lra|]. intros E gp Hgp. assert (E1 : rsum n' (fun gp => w gp * (r gp * r gp)) = 0) by lra. assert (E2 : w n' * (r n' * r n') = 0) by lra.
    destruct (Nat.eq_dec gp n') as [->|N]; [|apply P2; [exact E1|lia]].
    pose proof (Hw n' ltac:(lia)) as W. apply Rmult_integral in E2. destruct E2 as [E2|E2]; [lra|]. apply Rmult_integral in E2. destruct E2; assumption. }
  destruct (P k (le_n k)) as [_ P2]. exact (P2 S).
Qed.

(** The triangle basis: orthogonality, norms, the polynomial each basis function
    evaluates, its partial derivatives, and the numbering of the functions. *)
From Coq Require Import ZArith Reals Lra Lia Arith List Bool.
From Coquelicot Require Import Coquelicot.
From Verif Require Import Num ModelSWE ModelRun Outcome ModelShape ModelBasis SpecBasis LemmasSWE LemmasRun LemmasBasis LemmasBasis2.
Import ListNotations.
Open Scope R_scope.

(** ** Numbering *)
Definition tri (d : nat) : nat := (d * (d + 1) / 2)%nat.
Lemma tri_S : forall d, tri (S d) = (tri d + S d)%nat.
Proof.
  intros d. unfold tri. replace (S d * (S d + 1))%nat with (d * (d + 1) + (S d) * 2)%nat by lia.
  rewrite Nat.div_add by lia. reflexivity.
Qed.
Lemma tri_2 : forall d, (2 * tri d = d * (d + 1))%nat.
Proof. induction d as [|d IH]; [reflexivity|]. rewrite tri_S. lia. Qed.
Lemma tri_mono : forall d e, (d <= e)%nat -> (tri d <= tri e)%nat.
Proof. intros d e H. induction H as [|e H IH]; [lia|]. rewrite tri_S. lia. Qed.

Lemma tri_exists : forall dof, exists d, (tri d <= dof < tri (S d))%nat.
Proof.
  induction dof as [|dof [d Hd]]; [exists 0%nat; cbn; lia|].
  destruct (Nat.eq_dec (S dof) (tri (S d))) as [E|N].
  - exists (S d). rewrite (tri_S (S d)). lia.
  - exists d. lia.
Qed.

Lemma tri_num_ok : forall dof d, (tri d <= dof < tri (S d))%nat -> tri_num_indx dof = d.
Proof.
  intros dof d H. unfold tri_num_indx.
  rewrite (ceilR_unique _ (Z.of_nat d)); [apply Nat2Z.id|].
  rewrite <- INR_IZR_INZ, plus_INR. change (INR 1) with 1.
  destruct H as [H1 H2]. pose proof (tri_2 d) as T1. pose proof (tri_2 (S d)) as T2.
  assert (L1 : (d * (d + 1) <= 2 * dof)%nat) by lia.
  assert (L2 : (2 * dof + 2 <= S d * (S d + 1))%nat) by lia.
  apply le_INR in L1, L2. rewrite !mult_INR, !plus_INR in L1. rewrite !mult_INR, !plus_INR, !mult_INR, !S_INR in L2.
  change (INR 1) with 1 in *. change (INR 2) with 2 in *.
  pose proof (pos_INR d) as Pd. pose proof (pos_INR dof) as Pf.
  set (x := INR d) in *. set (y := INR dof) in *. cbn [INR] in L2.
  assert (S1 : sqrt (1 + 8 * (y + 1)) <= 2 * x + 3).
  { rewrite <- (sqrt_Rsqr (2 * x + 3)) by lra. apply sqrt_le_1; unfold Rsqr; nra. }
  assert (S2 : 2 * x + 1 < sqrt (1 + 8 * (y + 1))).
  { rewrite <- (sqrt_Rsqr (2 * x + 1)) by lra. apply sqrt_lt_1; unfold Rsqr; nra. }
  lra.
Qed.

Lemma dof_decompose : forall dof d, (tri d <= dof < tri (S d))%nat ->
  dubiner_p dof = (dof - tri d)%nat /\ dubiner_q dof = (d - (dof - tri d))%nat.
Proof.
  intros dof d H. unfold dubiner_q, dubiner_p, lower_tri_num. rewrite (tri_num_ok dof d H).
  unfold tri. rewrite (Nat.mul_comm (d + 1)). split; reflexivity.
Qed.

Lemma dof_of_pq : forall dof, dof = (tri (dubiner_p dof + dubiner_q dof) + dubiner_p dof)%nat.
Proof.
  intros dof. destruct (tri_exists dof) as [d Hd]. destruct (dof_decompose dof d Hd) as [-> ->].
  rewrite tri_S in Hd. replace (dof - tri d + (d - (dof - tri d)))%nat with d by lia. lia.
Qed.

Lemma pq_of_dof : forall p q, dubiner_p (tri (p + q) + p) = p /\ dubiner_q (tri (p + q) + p) = q.
Proof.
  intros p q. assert (H : (tri (p + q) <= tri (p + q) + p < tri (S (p + q)))%nat) by (rewrite tri_S; lia).
  destruct (dof_decompose _ _ H) as [-> ->]. lia.
Qed.

Lemma ndof_tri : forall P, dubiner_ndof P = tri (S P).
Proof. intros P. unfold dubiner_ndof, tri. f_equal. lia. Qed.

Lemma dof_range : forall dof P, (dof < dubiner_ndof P <-> dubiner_p dof + dubiner_q dof <= P)%nat.
Proof.
  intros dof P. rewrite ndof_tri. pose proof (dof_of_pq dof) as E.
  set (p := dubiner_p dof) in *. set (q := dubiner_q dof) in *. split; intros H.
  - destruct (Nat.le_gt_cases (p + q) P) as [L|L]; [exact L|]. pose proof (tri_mono (S P) (p + q) ltac:(lia)). lia.
  - pose proof (tri_mono (S (p + q)) (S P) ltac:(lia)) as M. rewrite tri_S in M. lia.
Qed.

(** ** Values on the open part of the triangle *)
Definition phi (p q : nat) (z1 z2 : R) : R := ComputePhi p q (collapsed (z1, z2)) z2.

Definition nn (z1 z2 : R) : R := 2 * (1 + z1) / (1 - z2) - 1.

Lemma collapsed_in : forall z1 z2, z2 <> 1 -> collapsed (z1, z2) = Some (nn z1 z2).
Proof. intros z1 z2 H. unfold collapsed. cbn [fst snd]. destruct (Req_EM_T z2 1); [contradiction|reflexivity]. Qed.

Lemma collapsed_top : collapsed (-1, 1) = None.
Proof.
  unfold collapsed. cbn [fst snd]. destruct (Req_EM_T 1 1) as [_|N]; [|contradiction].
  destruct (Req_EM_T (-1) (-1)) as [_|N]; [reflexivity|contradiction].
Qed.

Lemma a_of_p : forall p, (2 * Z.of_nat p + 1)%Z = Z.of_nat (2 * p + 1).
Proof. intros p. lia. Qed.

Lemma phi_in : forall p q z1 z2, z2 <> 1 -> (q + 2 * p + 1 <= 600)%nat ->
  phi p q z1 z2 = jacobi_classical p 0 0 (nn z1 z2) * ((1 - z2) / 2) ^ p * jacobi_classical q (2 * p + 1) 0 z2.
Proof.
  intros p q z1 z2 H L. unfold phi. rewrite collapsed_in by exact H. unfold ComputePhi.
  rewrite a_of_p, (jacobi_ok p 0 0), (jacobi_ok q (2 * p + 1) 0) by lia. reflexivity.
Qed.

(** ** Orthogonality over the triangle *)
Definition pair_val (p p' : nat) : R := if Nat.eqb p p' then 2 / (2 * INR p + 1) else 0.

Lemma legendre_int : forall p p',
  is_RInt (fun x => jacobi_classical p 0 0 x * jacobi_classical p' 0 0 x) (-1) 1 (pair_val p p').
Proof.
  intros p p'. unfold pair_val. destruct (Nat.eqb_spec p p') as [<-|N].
  - pose proof (wint_norm p 0) as W. unfold wint in W. change (INR 0) with 0 in W.
    apply is_RInt_eq with (1 := W); [intros x; cbn [pow]; ring|]. f_equal. ring.
  - pose proof (wint_orthogonal p' p 0 ltac:(congruence)) as W. unfold wint in W.
    apply is_RInt_eq with (1 := W); [intros x; cbn [pow]; ring|reflexivity].
Qed.

Definition inner_val (p q p' q' : nat) (z2 : R) : R :=
  pair_val p p' * (((1 - z2) / 2) ^ (p + p' + 1) * (jacobi_classical q (2 * p + 1) 0 z2 * jacobi_classical q' (2 * p' + 1) 0 z2)).

Lemma inner_ok : forall p q p' q' z2, -1 <= z2 <= 1 -> (q + 2 * p + 1 <= 600)%nat -> (q' + 2 * p' + 1 <= 600)%nat ->
  is_RInt (fun z1 => phi p q z1 z2 * phi p' q' z1 z2) (-1) (- z2) (inner_val p q p' q' z2).
Proof.
  intros p q p' q' z2 Hz L L'. destruct (Req_dec z2 1) as [->|N].
  - unfold inner_val. replace ((1 - 1) / 2) with 0 by field. rewrite (pow_i (p + p' + 1)) by lia.
    rewrite Rmult_0_l, Rmult_0_r. exact (is_RInt_point _ (-1)).
  - pose proof (legendre_int p p') as I.
    set (u := 2 / (1 - z2)). set (v := u - 1).
    assert (E1 : u * (-1) + v = -1) by (unfold v; ring).
    assert (E2 : u * (- z2) + v = 1) by (unfold v, u; field; lra).
    rewrite <- E1, <- E2 in I.
    pose proof (is_RInt_comp_lin _ u v (-1) (- z2) _ I) as J.
    pose proof (is_RInt_sc _ _ _ _ (((1 - z2) / 2) ^ (p + p' + 1) *
      (jacobi_classical q (2 * p + 1) 0 z2 * jacobi_classical q' (2 * p' + 1) 0 z2)) J) as K.
    apply is_RInt_eq with (1 := K).
    + intros x. rewrite !phi_in by (assumption || lra). unfold scal; cbn; unfold mult; cbn.
      replace (u * x + v) with (nn x z2) by (unfold nn, v, u; field; lra).
      rewrite !pow_add. unfold u. cbn [pow]. field. lra.
    + unfold inner_val. ring.
Qed.

Definition norm2 (p q : nat) : R := 2 / ((2 * INR p + 1) * (INR p + INR q + 1)).

Lemma triangle_orthogonal : forall p q p' q', (q + 2 * p + 1 <= 600)%nat -> (q' + 2 * p' + 1 <= 600)%nat ->
  is_triangle_int (fun z1 z2 => phi p q z1 z2 * phi p' q' z1 z2)
    (if Nat.eqb p p' && Nat.eqb q q' then norm2 p q else 0).
Proof.
  intros p q p' q' L L'. exists (inner_val p q p' q'). split; [intros; apply inner_ok; assumption|].
  unfold inner_val. destruct (Nat.eqb_spec p p') as [<-|N].
  - pose proof (pos_INR p) as Pp. pose proof (pos_INR q) as Pq.
    destruct (Nat.eqb_spec q q') as [<-|N']; cbn [andb].
    + pose proof (wint_norm q (2 * p + 1)) as W. unfold wint in W.
      apply is_RInt_eq with (1 := is_RInt_sc _ _ _ _ (pair_val p p) W).
      * intros x. replace (p + p + 1)%nat with (2 * p + 1)%nat by lia. reflexivity.
      * unfold pair_val, norm2. rewrite Nat.eqb_refl, plus_INR, mult_INR. change (INR 2) with 2. change (INR 1) with 1.
        field. repeat split; lra.
    + pose proof (wint_orthogonal q' q (2 * p + 1) ltac:(congruence)) as W. unfold wint in W.
      apply is_RInt_eq with (1 := is_RInt_sc _ _ _ _ (pair_val p p) W).
      * intros x. replace (p + p + 1)%nat with (2 * p + 1)%nat by lia. reflexivity.
      * ring.
  - cbn [andb]. pose proof (legendre_int 0 0) as I.
    apply is_RInt_eq with (1 := is_RInt_sc _ _ _ _ 0 I); [|ring].
    intros x. unfold pair_val. destruct (Nat.eqb_spec p p') as [E|_]; [contradiction|]. ring.
Qed.

(** ** The polynomial behind a basis function *)
Definition lp (p : nat) (z1 z2 : R) : R :=
  bsum (S p) (fun k => jacobi_coeff p 0 0 k * (((1 - z2) / 2 - (1 + z1) / 2) ^ k * ((1 - z2) / 2) ^ (p - k))).
Definition Phi (p q : nat) (z1 z2 : R) : R := lp p z1 z2 * jacobi_classical q (2 * p + 1) 0 z2.

Lemma pd_pow : forall f, poly_deg 1 f -> forall k, poly_deg k (fun x y => f x y ^ k).
Proof.
  intros f H. induction k as [|k IH].
  - apply (pd_const 1).
  - cbn [pow]. apply (pd_mul 1 k f (fun x y => f x y ^ k) H IH).
Qed.
Lemma pd_scal : forall c d f, poly_deg d f -> poly_deg d (fun x y => c * f x y).
Proof. intros c d f H. exact (pd_mul 0 d (fun _ _ => c) f (pd_const c) H). Qed.
Lemma pd_bsum : forall n d (f : nat -> R -> R -> R), (forall k, (k < n)%nat -> poly_deg d (f k)) ->
  poly_deg d (fun x y => bsum n (fun k => f k x y)).
Proof.
  induction n as [|n IH]; intros d f H; cbn [bsum].
  - apply pd_le with (d := 0%nat); [lia|apply pd_const].
  - apply (pd_add d (fun x y => bsum n (fun k => f k x y)) (f n)); [apply IH; intros; apply H; lia|apply H; lia].
Qed.

Lemma pd_r : poly_deg 1 (fun _ z2 => (1 - z2) / 2).
Proof.
  apply pd_ext with (f := fun x y => 1 / 2 + (- (1 / 2)) * y); [intros; field|].
  apply pd_add; [apply pd_le with (d := 0%nat); [lia|apply (pd_const (1 / 2))]|apply (pd_scal _ 1 (fun _ y => y)), pd_y].
Qed.
Lemma pd_rs : poly_deg 1 (fun z1 z2 => (1 - z2) / 2 - (1 + z1) / 2).
Proof.
  apply pd_ext with (f := fun x y => (- (1 / 2)) * x + (- (1 / 2)) * y); [intros; field|].
  apply pd_add; [apply (pd_scal _ 1 (fun x _ => x)), pd_x|apply (pd_scal _ 1 (fun _ y => y)), pd_y].
Qed.

Lemma Phi_degree : forall p q, poly_deg (p + q) (Phi p q).
Proof.
  intros p q. unfold Phi. apply (pd_mul p q (lp p) (fun _ z2 => jacobi_classical q (2 * p + 1) 0 z2)).
  - unfold lp. apply (pd_bsum (S p) p (fun k z1 z2 => jacobi_coeff p 0 0 k * (((1 - z2) / 2 - (1 + z1) / 2) ^ k * ((1 - z2) / 2) ^ (p - k)))).
    intros k Hk. apply (pd_scal _ p (fun z1 z2 => ((1 - z2) / 2 - (1 + z1) / 2) ^ k * ((1 - z2) / 2) ^ (p - k))).
    replace p with (k + (p - k))%nat at 1 by lia.
    apply (pd_mul k (p - k) (fun z1 z2 => ((1 - z2) / 2 - (1 + z1) / 2) ^ k) (fun z1 z2 => ((1 - z2) / 2) ^ (p - k))).
    + apply (pd_pow _ pd_rs).
    + apply (pd_pow _ pd_r).
  - unfold jacobi_classical. apply (pd_bsum (S q) q (fun k _ z2 => jacobi_coeff q (2 * p + 1) 0 k * ((1 - z2) / 2) ^ k)).
    intros k Hk. apply (pd_scal _ q (fun _ z2 => ((1 - z2) / 2) ^ k)).
    apply pd_le with (d := k); [lia|]. apply (pd_pow _ pd_r).
Qed.

Lemma lp_in : forall p z1 z2, z2 <> 1 -> lp p z1 z2 = jacobi_classical p 0 0 (nn z1 z2) * ((1 - z2) / 2) ^ p.
Proof.
  intros p z1 z2 H. unfold lp, jacobi_classical. rewrite Rmult_comm, <- bsum_scal. apply bsum_ext. intros k Hk.
  replace ((1 - z2) / 2 - (1 + z1) / 2) with ((1 - z2) / 2 * ((1 - nn z1 z2) / 2)) by (unfold nn; field; lra).
  rewrite Rpow_mult_distr. replace p with (k + (p - k))%nat at 3 by lia. rewrite pow_add. ring.
Qed.

Lemma Phi_in : forall p q z1 z2, z2 <> 1 -> (q + 2 * p + 1 <= 600)%nat -> phi p q z1 z2 = Phi p q z1 z2.
Proof. intros p q z1 z2 H L. rewrite phi_in by assumption. unfold Phi. rewrite lp_in by exact H. reflexivity. Qed.

Lemma classical_at_1 : forall n a b, jacobi_classical n a b 1 = INR (fact (n + a)) / (INR (fact n) * INR (fact a)).
Proof.
  intros n a b. unfold jacobi_classical. rewrite bsum_shift.
  rewrite (bsum_ext n _ (fun _ => 0)).
  - rewrite bsum_0. unfold jacobi_coeff. rewrite !Nat.add_0_r, Nat.sub_0_r. cbn [pow]. change (INR (fact 0)) with 1.
    field. repeat split; apply fact_nz.
  - intros i Hi. replace ((1 - 1) / 2) with 0 by field. rewrite pow_i by lia. ring.
Qed.

Lemma lp_right : forall p z1, lp p z1 1 = jacobi_coeff p 0 0 p * (- (1 + z1) / 2) ^ p.
Proof.
  intros p z1. unfold lp. replace ((1 - 1) / 2) with 0 by field. cbn [bsum].
  rewrite (bsum_ext p _ (fun _ => 0)); [|intros k Hk; rewrite (pow_i (p - k)) by lia; ring].
  rewrite bsum_0, Nat.sub_diag. cbn [pow]. replace (0 - (1 + z1) / 2) with (- (1 + z1) / 2) by field. ring.
Qed.
Lemma lp_left : forall p z2, lp p (-1) z2 = bsum (S p) (jacobi_coeff p 0 0) * ((1 - z2) / 2) ^ p.
Proof.
  intros p z2. unfold lp. rewrite Rmult_comm, <- bsum_scal. apply bsum_ext. intros k Hk.
  replace ((1 - z2) / 2 - (1 + -1) / 2) with ((1 - z2) / 2) by field.
  replace p with (k + (p - k))%nat at 3 by lia. rewrite pow_add. ring.
Qed.

Lemma lp0 : forall z1 z2, lp 0 z1 z2 = 1.
Proof. intros z1 z2. unfold lp, jacobi_coeff. cbn. field. Qed.

Lemma Phi_top : forall p q, phi p q (-1) 1 = Phi p q (-1) 1.
Proof.
  intros p q. unfold phi. rewrite collapsed_top. unfold ComputePhi, Phi. destruct p as [|p].
  - rewrite lp0, classical_at_1. replace (q + (2 * 0 + 1))%nat with (S q) by lia. change (2 * 0 + 1)%nat with 1%nat.
    rewrite factS, plus_INR. change (INR (fact 1)) with 1. change (INR 1) with 1. field. apply fact_nz.
  - rewrite lp_right. replace (- (1 + -1) / 2) with 0 by field. rewrite pow_i by lia. ring.
Qed.

(** ** Partial derivatives *)
Definition dphi (p q : nat) (z1 z2 : R) : R * R :=
  (ComputeDPhiDZ1 p q (collapsed (z1, z2)) z2, ComputeDPhiDZ2 p q (collapsed (z1, z2)) z2).

Definition jd (n a b : nat) (x : R) : R := jacobi_polynomial_derivative n (Z.of_nat a) (Z.of_nat b) x.

Lemma jd_ok : forall n a b x, (b <= a)%nat -> (n + a + b + 2 <= 600)%nat -> is_derive (jacobi_classical n a b) x (jd n a b x).
Proof.
  intros n a b x H L. apply is_derive_ext with (f := jacobi_polynomial n (Z.of_nat a) (Z.of_nat b)).
  - intros t. apply jacobi_ok; lia.
  - apply jacobi_derivative_ok; assumption.
Qed.

Lemma is_derive_m : forall (f g : R -> R) (x u v : R),
  is_derive f x u -> is_derive g x v -> is_derive (fun y => f y * g y) x (u * g x + f x * v).
Proof. intros f g x u v Hf Hg. exact (is_derive_mult f g x u v Hf Hg Rmult_comm). Qed.
Lemma is_derive_k : forall (f : R -> R) (c x u : R), is_derive f x u -> is_derive (fun y => f y * c) x (u * c).
Proof.
  intros f c x u H. pose proof (is_derive_m f (fun _ => c) x u 0 H (is_derive_c c x)) as K. cbn beta in K.
  replace (u * c) with (u * c + f x * 0) by ring. exact K.
Qed.
Lemma is_derive_o : forall (f g : R -> R) (x u v : R),
  is_derive f (g x) u -> is_derive g x v -> is_derive (fun y => f (g y)) x (v * u).
Proof. intros f g x u v Hf Hg. exact (is_derive_comp f g x u v Hf Hg). Qed.
Lemma is_derive_e : forall (f g : R -> R) (x u v : R), is_derive f x u -> (forall y, f y = g y) -> u = v -> is_derive g x v.
Proof. intros f g x u v H E <-. apply is_derive_ext with (1 := E). exact H. Qed.

Lemma rpow_derive : forall p z, is_derive (fun t => ((1 - t) / 2) ^ p) z
  (- (INR p / 2) * match p with 0%nat => / ((1 - z) / 2) | S p' => ((1 - z) / 2) ^ p' end).
Proof.
  intros p z. auto_derive; [exact I|]. destruct p as [|p].
  - change (INR 0) with 0. unfold Rdiv. ring.
  - cbn [Init.Nat.pred]. unfold Rdiv, Rminus. ring.
Qed.

Lemma dz1_in : forall p q z1 z2, z2 <> 1 -> (q + 2 * p + 3 <= 600)%nat ->
  is_derive (fun t => Phi p q t z2) z1 (fst (dphi p q z1 z2)).
Proof.
  intros p q z1 z2 H L. unfold dphi. rewrite collapsed_in by exact H. cbn [fst]. unfold ComputeDPhiDZ1.
  rewrite a_of_p, (jacobi_ok q (2 * p + 1) 0) by lia.
  apply is_derive_e with (f := fun t => jacobi_classical p 0 0 (nn t z2) * (((1 - z2) / 2) ^ p * jacobi_classical q (2 * p + 1) 0 z2))
    (u := (2 / (1 - z2)) * jd p 0 0 (nn z1 z2) * (((1 - z2) / 2) ^ p * jacobi_classical q (2 * p + 1) 0 z2)).
  - apply is_derive_k.
    apply (is_derive_o (jacobi_classical p 0 0) (fun t => nn t z2)); [apply jd_ok; lia|].
    unfold nn. auto_derive; [lra|]. field. lra.
  - intros t. unfold Phi. rewrite lp_in by exact H. ring.
  - unfold jd. change (Z.of_nat 0) with 0%Z. ring.
Qed.

Lemma dz2_in : forall p q z1 z2, z2 <> 1 -> (q + 2 * p + 3 <= 600)%nat ->
  is_derive (fun t => Phi p q z1 t) z2 (snd (dphi p q z1 z2)).
Proof.
  intros p q z1 z2 H L. unfold dphi. rewrite collapsed_in by exact H. cbn [snd]. unfold ComputeDPhiDZ2.
  rewrite a_of_p, (jacobi_ok q (2 * p + 1) 0), (jacobi_ok p 0 0) by lia.
  apply is_derive_ext_loc with (f := fun t => jacobi_classical p 0 0 (nn z1 t) * ((1 - t) / 2) ^ p * jacobi_classical q (2 * p + 1) 0 t).
  { assert (P : 0 < Rabs (1 - z2)) by (apply Rabs_pos_lt; lra).
    exists (mkposreal _ P). intros y Hy. unfold ball in Hy; cbn in Hy; unfold AbsRing_ball, abs, minus, plus, opp in Hy; cbn in Hy.
    unfold Phi. rewrite lp_in; [reflexivity|]. intros ->.
    replace (1 + - z2) with (1 - z2) in Hy by ring. lra. }
  assert (D1 : is_derive (fun t => jacobi_classical p 0 0 (nn z1 t)) z2 ((1 + nn z1 z2) / (1 - z2) * jd p 0 0 (nn z1 z2))).
  { apply (is_derive_o (jacobi_classical p 0 0) (fun t => nn z1 t)); [apply jd_ok; lia|].
    unfold nn. auto_derive; [lra|]. field. lra. }
  assert (D2 := rpow_derive p z2).
  assert (D3 : is_derive (jacobi_classical q (2 * p + 1) 0) z2 (jd q (2 * p + 1) 0 z2)) by (apply jd_ok; lia).
  pose proof (is_derive_m _ _ _ _ _ (is_derive_m _ _ _ _ _ D1 D2) D3) as D. cbn beta in D.
  match type of D with is_derive _ _ ?V => match goal with |- is_derive _ _ ?W => replace W with V; [exact D|] end end.
  unfold jd. set (r := match p with 0%nat => _ | S _ => _ end). change (Z.of_nat 0) with 0%Z. ring.
Qed.

Lemma sing1 : forall q, ComputeSingularDPhiDZ1 q =
  ((INR q + 2) * (INR q + 3) / 2, (INR q + 1) * (INR q + 2) * (INR q + 3) / 6).
Proof.
  induction q as [|q IH].
  - cbn. f_equal; field.
  - cbn [ComputeSingularDPhiDZ1]. rewrite IH. cbn [fst snd]. rewrite S_INR. f_equal; field.
Qed.
Lemma sing2 : forall q, ComputeSingularDPhiDZ2 q =
  ((INR q + 1) * (INR q + 2) / 4, INR q * (INR q + 1) * (INR q + 2) / 12).
Proof.
  induction q as [|q IH].
  - cbn. f_equal; field.
  - cbn [ComputeSingularDPhiDZ2]. rewrite IH. cbn [fst snd]. rewrite plus_INR, S_INR. change (INR 1) with 1. f_equal; field.
Qed.

Lemma value3 : forall q b, jacobi_classical q 3 b 1 = (INR q + 1) * (INR q + 2) * (INR q + 3) / 6.
Proof.
  intros q b. rewrite classical_at_1. replace (INR (fact 3)) with 6 by (cbn; ring).
  replace (q + 3)%nat with (S (S (S q))) by lia. rewrite !factS, !S_INR. field. apply fact_nz.
Qed.

Lemma value21 : forall q b, jacobi_classical q 2 b 1 = (INR q + 1) * (INR q + 2) / 2.
Proof.
  intros q b. rewrite classical_at_1. replace (INR (fact 2)) with 2 by (cbn; ring).
  replace (q + 2)%nat with (S (S q)) by lia. rewrite !factS, !S_INR. field. apply fact_nz.
Qed.

Lemma dz1_top : forall p q, is_derive (fun t => Phi p q t 1) (-1) (fst (dphi p q (-1) 1)).
Proof.
  intros p q. unfold dphi. rewrite collapsed_top. cbn [fst]. unfold ComputeDPhiDZ1.
  assert (D : is_derive (fun t => (- (1 + t) / 2) ^ p) (-1) (INR p * 0 ^ pred p * (-1 / 2))).
  { auto_derive; [exact I|]. replace (- (1 + -1) * / 2) with 0 by field. unfold Rdiv. ring. }
  apply is_derive_e with (1 := is_derive_k _ (jacobi_coeff p 0 0 p * jacobi_classical q (2 * p + 1) 0 1) _ _ D).
  - intros t. unfold Phi. rewrite lp_right. ring.
  - destruct p as [|[|p]]; cbn [Nat.eqb].
    + change (INR 0) with 0. ring.
    + rewrite sing1. cbn [snd pred pow]. change (2 * 1 + 1)%nat with 3%nat. rewrite value3.
      unfold jacobi_coeff. cbn. field.
    + cbn [pred]. rewrite pow_i by lia. ring.
Qed.

Lemma q_derive_top : forall q, is_derive (jacobi_classical q 1 0) 1 (3 * snd (ComputeSingularDPhiDZ2 q)).
Proof.
  intros q. rewrite sing2. cbn [snd]. destruct q as [|q].
  - apply is_derive_e with (1 := classical_derivative_0 1 0 1); [reflexivity|]. change (INR 0) with 0. field.
  - apply is_derive_e with (1 := classical_derivative q 1 0 1); [reflexivity|].
    rewrite value21, !S_INR. change (INR 1) with 1. change (INR 0) with 0. field.
Qed.

Lemma dz2_top : forall p q, is_derive (fun t => Phi p q (-1) t) 1 (snd (dphi p q (-1) 1)).
Proof.
  intros p q. unfold dphi. rewrite collapsed_top. cbn [snd]. unfold ComputeDPhiDZ2.
  destruct p as [|p].
  - apply is_derive_e with (1 := q_derive_top q); [|reflexivity].
    intros y. unfold Phi. rewrite lp0. change (2 * 0 + 1)%nat with 1%nat. ring.
  - pose proof (rpow_derive (S p) 1) as D2.
    assert (D3 : exists d, is_derive (jacobi_classical q (2 * S p + 1) 0) 1 d).
    { destruct q as [|q]; eexists; [apply classical_derivative_0|apply classical_derivative]. }
    destruct D3 as [d D3].
    pose proof (is_derive_m _ _ _ _ _ D2 D3) as D.
    apply is_derive_e with (1 := is_derive_k _ (bsum (S (S p)) (jacobi_coeff (S p) 0 0)) _ _ D).
    + intros y. unfold Phi. rewrite lp_left. ring.
    + replace ((1 - 1) / 2) with 0 by field. rewrite (pow_i (S p)) by lia. destruct p as [|p].
      * change (2 * 1 + 1)%nat with 3%nat. rewrite value3, sing2. cbn [snd]. rewrite plus_INR. change (INR 1) with 1.
        unfold jacobi_coeff. cbn. field.
      * rewrite pow_i by lia. ring.
Qed.

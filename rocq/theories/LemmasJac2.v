From Coq Require Import Reals Lra Lia List Arith.
From Coquelicot Require Import Coquelicot.
From Verif Require Import Num ModelSWE SpecSWE LemmasSWE ModelJac SpecJac LemmasJac.
Open Scope R_scope.

Lemma nsign_sign : forall x : R, x <> 0 -> nsign x = sign x.
Proof.
  intros x H. unfold nsign. num_R. cbn [IZR].
  destruct (Rltb_spec 0 x) as [P|P]; [rewrite sign_eq_1 by assumption; reflexivity|].
  rewrite Rltb_true by lra. rewrite sign_eq_m1 by lra. lra.
Qed.
Lemma der_abs : forall (f : R -> R) (x d : R), is_derive f x d -> f x <> 0 -> is_derive (fun t => Rabs (f t)) x (d * nsign (f x)).
Proof. intros f x d D N. eapply der_eq; [apply (is_derive_Rabs f x d D N)|]. rewrite nsign_sign by assumption. ring. Qed.

Ltac proj9 := cbn [m00 m01 m02 m10 m11 m12 m20 m21 m22 mdiag fst snd].
(** Depth h := z + b; g expressed through the celerity. *)
Ltac finish_der g h Hg Hh :=
  rewrite ?(sqrt_gh g h Hg Hh);
  destruct (c_facts g h Hg Hh) as [?Hc ?Hcc];
  let c := fresh "c" in set (c := sqrt (g * h)) in *; clearbody c;
  replace g with (c * c / h) by (rewrite Hcc; field; lra);
  try (field; repeat match goal with |- _ /\ _ => split end; lra).
Ltac der_sides := repeat match goal with |- _ /\ _ => split end; trivial; try lra; try (apply Rmult_lt_0_compat; assumption).

Section Paths.
  Variables g b x y nx ny z : R.
  Hypothesis Hg : 0 < g.
  Hypothesis Hh : 0 < z + b.
  Let pze (t : R) : R * R * R := (t + b, x / (t + b), y / (t + b)).
  Let pqx (t : R) : R * R * R := (z + b, t / (z + b), y / (z + b)).
  Let pqy (t : R) : R * R * R := (z + b, x / (z + b), t / (z + b)).
  Let un := x / (z + b) * nx + y / (z + b) * ny.
  Let c := sqrt (g * (z + b)).

  Definition at5 (p : R -> R * R * R) (F : R -> R -> R -> R -> R -> mat3) (s : R) : mat3 :=
    F (fst (fst (p s))) (snd (fst (p s))) (snd (p s)) nx ny.

  Lemma eigR_ze : mderive (at5 pze (eigR g)) z (at5 pze (dR_dze g) z).
  Proof.
    unfold at5, pze, eigR, dR_dze, mderive. proj9. conj_split; (auto_derive; [der_sides | finish_der g (z + b) Hg Hh]).
  Qed.
  Lemma eigR_qx : mderive (at5 pqx (eigR g)) x (at5 pqx (dR_dqx g) x).
  Proof.
    unfold at5, pqx, eigR, dR_dqx, mderive. proj9. conj_split; (auto_derive; [der_sides | finish_der g (z + b) Hg Hh]).
  Qed.
  Lemma eigR_qy : mderive (at5 pqy (eigR g)) y (at5 pqy (dR_dqy g) y).
  Proof.
    unfold at5, pqy, eigR, dR_dqy, mderive. proj9. conj_split; (auto_derive; [der_sides | finish_der g (z + b) Hg Hh]).
  Qed.
  Lemma c_neq : 2 * sqrt (g * (z + b)) <> 0.
  Proof. destruct (c_facts g (z + b) Hg Hh). lra. Qed.
  Lemma invR_ze : mderive (at5 pze (invR g)) z (at5 pze (dinvR_dze g) z).
  Proof.
    pose proof c_neq. unfold at5, pze, invR, dinvR_dze, mderive. proj9.
    conj_split; (auto_derive; [der_sides | finish_der g (z + b) Hg Hh]).
  Qed.
  Lemma invR_qx : mderive (at5 pqx (invR g)) x (at5 pqx (dinvR_dqx g) x).
  Proof.
    pose proof c_neq. unfold at5, pqx, invR, dinvR_dqx, mderive. proj9.
    conj_split; (auto_derive; [der_sides | finish_der g (z + b) Hg Hh]).
  Qed.
  Lemma invR_qy : mderive (at5 pqy (invR g)) y (at5 pqy (dinvR_dqy g) y).
  Proof.
    pose proof c_neq. unfold at5, pqy, invR, dinvR_dqy, mderive. proj9.
    conj_split; (auto_derive; [der_sides | finish_der g (z + b) Hg Hh]).
  Qed.
  Lemma eigL_ze : mderive (at5 pze (eigL g)) z (at5 pze (dL_dze g) z).
  Proof.
    unfold at5, pze, eigL, dL_dze, mderive. proj9. conj_split; (auto_derive; [der_sides | finish_der g (z + b) Hg Hh]).
  Qed.
  Lemma eigL_qx : mderive (at5 pqx (eigL g)) x (at5 pqx (dL_dqx g) x).
  Proof.
    unfold at5, pqx, eigL, dL_dqx, mderive. proj9. conj_split; (auto_derive; [der_sides | finish_der g (z + b) Hg Hh]).
  Qed.
  Lemma eigL_qy : mderive (at5 pqy (eigL g)) y (at5 pqy (dL_dqy g) y).
  Proof.
    unfold at5, pqy, eigL, dL_dqy, mderive. proj9. conj_split; (auto_derive; [der_sides | finish_der g (z + b) Hg Hh]).
  Qed.

  Lemma diag_abs : forall (d : R -> mat3) (t : R) (D : mat3), mderive d t D ->
    m00 (d t) <> 0 -> m11 (d t) <> 0 -> m22 (d t) <> 0 ->
    mderive (fun s => mdiag (Rabs (m00 (d s))) (Rabs (m11 (d s))) (Rabs (m22 (d s)))) t
      (mdiag (m00 D * nsign (m00 (d t))) (m11 D * nsign (m11 (d t))) (m22 D * nsign (m22 (d t)))).
  Proof.
    intros d t D (D0 & _ & _ & _ & D1 & _ & _ & _ & D2) N0 N1 N2. unfold mderive. proj9.
    conj_split; try (apply der_abs; assumption); apply (is_derive_const (V := R_NormedModule)).
  Qed.

  Hypothesis N0 : un - c <> 0.
  Hypothesis N1 : un <> 0.
  Hypothesis N2 : un + c <> 0.
  Lemma absL_ze : mderive (at5 pze (absL g)) z (at5 pze (dabsL_dze g) z).
  Proof. exact (diag_abs _ _ _ eigL_ze N0 N1 N2). Qed.
  Lemma absL_qx : mderive (at5 pqx (absL g)) x (at5 pqx (dabsL_dqx g) x).
  Proof. exact (diag_abs _ _ _ eigL_qx N0 N1 N2). Qed.
  Lemma absL_qy : mderive (at5 pqy (absL g)) y (at5 pqy (dabsL_dqy g) y).
  Proof. exact (diag_abs _ _ _ eigL_qy N0 N1 N2). Qed.
End Paths.

(** The velocity and the celerity distinguish three nonzero eigenvalues. *)
Definition noncritical (g : R) (q : vec3 R) (a : aux3 R) (n : vec2 R) : Prop :=
  un_of q a n - sqrt (g * hh a) <> 0 /\ un_of q a n <> 0 /\ un_of q a n + sqrt (g * hh a) <> 0.

Lemma dA_is_derivative : forall g b s n z x y, 0 < g -> 0 < z + b ->
  mderive (fun t => get_A g (state t x y) (auxil t b s) n) z (get_dA_dze g (state z x y) (auxil z b s) n) /\
  mderive (fun t => get_A g (state z t y) (auxil z b s) n) x (get_dA_dqx g (state z x y) (auxil z b s) n) /\
  mderive (fun t => get_A g (state z x t) (auxil z b s) n) y (get_dA_dqy g (state z x y) (auxil z b s) n).
Proof.
  intros g b s n z x y Hg Hh. destruct n as [n1 n2].
  assert (forall P Q U : Prop, P -> Q -> U -> P /\ Q /\ U) as S3 by tauto. apply S3.
  - exact (conj_derive g _ _ _ _ _ _ _ _ (eigR_ze g b x y n1 n2 z Hg Hh) (eigL_ze g b x y n1 n2 z Hg Hh) (invR_ze g b x y n1 n2 z Hg Hh)).
  - exact (conj_derive g _ _ _ _ _ _ _ _ (eigR_qx g b x y n1 n2 z Hg Hh) (eigL_qx g b x y n1 n2 z Hg Hh) (invR_qx g b x y n1 n2 z Hg Hh)).
  - exact (conj_derive g _ _ _ _ _ _ _ _ (eigR_qy g b x y n1 n2 z Hg Hh) (eigL_qy g b x y n1 n2 z Hg Hh) (invR_qy g b x y n1 n2 z Hg Hh)).
Qed.

Lemma dabsA_is_derivative : forall g b s n z x y, 0 < g -> 0 < z + b ->
  noncritical g (state z x y) (auxil z b s) n ->
  mderive (fun t => get_absA g (state t x y) (auxil t b s) n) z (get_dabsA_dze g (state z x y) (auxil z b s) n) /\
  mderive (fun t => get_absA g (state z t y) (auxil z b s) n) x (get_dabsA_dqx g (state z x y) (auxil z b s) n) /\
  mderive (fun t => get_absA g (state z x t) (auxil z b s) n) y (get_dabsA_dqy g (state z x y) (auxil z b s) n).
Proof.
  intros g b s n z x y Hg Hh (N0 & N1 & N2). destruct n as [n1 n2].
  assert (forall P Q U : Prop, P -> Q -> U -> P /\ Q /\ U) as S3 by tauto. apply S3.
  - exact (conj_derive g _ _ _ _ _ _ _ _ (eigR_ze g b x y n1 n2 z Hg Hh) (absL_ze g b x y n1 n2 z Hg Hh N0 N1 N2) (invR_ze g b x y n1 n2 z Hg Hh)).
  - exact (conj_derive g _ _ _ _ _ _ _ _ (eigR_qx g b x y n1 n2 z Hg Hh) (absL_qx g b x y n1 n2 z Hg Hh N0 N1 N2) (invR_qx g b x y n1 n2 z Hg Hh)).
  - exact (conj_derive g _ _ _ _ _ _ _ _ (eigR_qy g b x y n1 n2 z Hg Hh) (absL_qy g b x y n1 n2 z Hg Hh N0 N1 N2) (invR_qy g b x y n1 n2 z Hg Hh)).
Qed.

Lemma halves : forall g q a n,
  get_Aplus g q a n = mscale (1/2) (madd (get_A g q a n) (get_absA g q a n)) /\
  get_Aminus g q a n = mscale (1/2) (madd (get_A g q a n) (mscale (-1) (get_absA g q a n))).
Proof.
  intros g q a n. unfold get_Aplus, get_Aminus, get_A, get_absA, at_point, halfconj3, conj3, plus5, minus5.
  generalize (eigR g (hh a) (qx q / hh a) (qy q / hh a) (nx n) (ny n)) as A.
  generalize (eigL g (hh a) (qx q / hh a) (qy q / hh a) (nx n) (ny n)) as B.
  generalize (absL g (hh a) (qx q / hh a) (qy q / hh a) (nx n) (ny n)) as C.
  generalize (invR g (hh a) (qx q / hh a) (qy q / hh a) (nx n) (ny n)) as D.
  intros D C B A. split; apply mat3_eq; cbn; field.
Qed.
Lemma dhalf_plus : forall g L aL dL daL dR dI q a n,
  at_point (half5 (dconj3 g (plus5 L aL) (plus5 dL daL) dR dI)) q a n =
  mscale (1/2) (madd (at_point (dconj3 g L dL dR dI) q a n) (at_point (dconj3 g aL daL dR dI) q a n)).
Proof.
  intros. unfold at_point, half5, dconj3, plus5.
  generalize (eigR g (hh a) (qx q / hh a) (qy q / hh a) (nx n) (ny n)) as x1.
  generalize (L (hh a) (qx q / hh a) (qy q / hh a) (nx n) (ny n)) as x2.
  generalize (aL (hh a) (qx q / hh a) (qy q / hh a) (nx n) (ny n)) as x3.
  generalize (invR g (hh a) (qx q / hh a) (qy q / hh a) (nx n) (ny n)) as x4.
  generalize (dL (hh a) (qx q / hh a) (qy q / hh a) (nx n) (ny n)) as x5.
  generalize (daL (hh a) (qx q / hh a) (qy q / hh a) (nx n) (ny n)) as x6.
  generalize (dR (hh a) (qx q / hh a) (qy q / hh a) (nx n) (ny n)) as x7.
  generalize (dI (hh a) (qx q / hh a) (qy q / hh a) (nx n) (ny n)) as x8.
  intros. apply mat3_eq; cbn; ring.
Qed.
Lemma dhalf_minus : forall g L aL dL daL dR dI q a n,
  at_point (half5 (dconj3 g (minus5 L aL) (minus5 dL daL) dR dI)) q a n =
  mscale (1/2) (madd (at_point (dconj3 g L dL dR dI) q a n) (mscale (-1) (at_point (dconj3 g aL daL dR dI) q a n))).
Proof.
  intros. unfold at_point, half5, dconj3, minus5, msub.
  generalize (eigR g (hh a) (qx q / hh a) (qy q / hh a) (nx n) (ny n)) as x1.
  generalize (L (hh a) (qx q / hh a) (qy q / hh a) (nx n) (ny n)) as x2.
  generalize (aL (hh a) (qx q / hh a) (qy q / hh a) (nx n) (ny n)) as x3.
  generalize (invR g (hh a) (qx q / hh a) (qy q / hh a) (nx n) (ny n)) as x4.
  generalize (dL (hh a) (qx q / hh a) (qy q / hh a) (nx n) (ny n)) as x5.
  generalize (daL (hh a) (qx q / hh a) (qy q / hh a) (nx n) (ny n)) as x6.
  generalize (dR (hh a) (qx q / hh a) (qy q / hh a) (nx n) (ny n)) as x7.
  generalize (dI (hh a) (qx q / hh a) (qy q / hh a) (nx n) (ny n)) as x8.
  intros. apply mat3_eq; cbn; ring.
Qed.

Lemma dAplus_is_derivative : forall g b s n z x y, 0 < g -> 0 < z + b ->
  noncritical g (state z x y) (auxil z b s) n ->
  mderive (fun t => get_Aplus g (state t x y) (auxil t b s) n) z (get_dAplus_dze g (state z x y) (auxil z b s) n) /\
  mderive (fun t => get_Aplus g (state z t y) (auxil z b s) n) x (get_dAplus_dqx g (state z x y) (auxil z b s) n) /\
  mderive (fun t => get_Aplus g (state z x t) (auxil z b s) n) y (get_dAplus_dqy g (state z x y) (auxil z b s) n).
Proof.
  intros g b s n z x y Hg Hh NC.
  destruct (dA_is_derivative g b s n z x y Hg Hh) as (A1 & A2 & A3).
  destruct (dabsA_is_derivative g b s n z x y Hg Hh NC) as (B1 & B2 & B3).
  assert (forall P Q U : Prop, P -> Q -> U -> P /\ Q /\ U) as S3 by tauto. apply S3;
  (eapply mderive_ext; [intros t; symmetry; apply halves|];
   eapply mderive_eq; [apply mderive_scale, mderive_add; eassumption|]; symmetry; apply dhalf_plus).
Qed.
Lemma dAminus_is_derivative : forall g b s n z x y, 0 < g -> 0 < z + b ->
  noncritical g (state z x y) (auxil z b s) n ->
  mderive (fun t => get_Aminus g (state t x y) (auxil t b s) n) z (get_dAminus_dze g (state z x y) (auxil z b s) n) /\
  mderive (fun t => get_Aminus g (state z t y) (auxil z b s) n) x (get_dAminus_dqx g (state z x y) (auxil z b s) n) /\
  mderive (fun t => get_Aminus g (state z x t) (auxil z b s) n) y (get_dAminus_dqy g (state z x y) (auxil z b s) n).
Proof.
  intros g b s n z x y Hg Hh NC.
  destruct (dA_is_derivative g b s n z x y Hg Hh) as (A1 & A2 & A3).
  destruct (dabsA_is_derivative g b s n z x y Hg Hh NC) as (B1 & B2 & B3).
  assert (forall P Q U : Prop, P -> Q -> U -> P /\ Q /\ U) as S3 by tauto. apply S3;
  (eapply mderive_ext; [intros t; symmetry; apply halves|];
   eapply mderive_eq; [apply mderive_scale, mderive_add; [eassumption | apply mderive_scale; eassumption]|]; symmetry; apply dhalf_minus).
Qed.

(** ** C06 *)
Lemma tau_bounds : forall g q a n l, 0 < g -> 0 < hh a -> unit2 n ->
  eigenvalue (get_dFn_dq g q a n) l -> Rabs l <= tau_LF g q a n.
Proof.
  intros g q a n l Hg Hh Hn E. apply dFn_eigenvalues in E; trivial.
  unfold tau_LF. num_R. fold (un_of q a n). rewrite nabs_R || idtac.
  destruct (c_facts g (hh a) Hg Hh) as [Hc _].
  destruct E as [->|[->| ->]]; unfold Rabs; repeat destruct Rcase_abs; lra.
Qed.
Lemma tau_attained : forall g q a n, 0 < g -> 0 < hh a -> unit2 n ->
  exists l, eigenvalue (get_dFn_dq g q a n) l /\ Rabs l = tau_LF g q a n.
Proof.
  intros g q a n Hg Hh Hn. destruct (c_facts g (hh a) Hg Hh) as [Hc _].
  destruct (Rle_dec 0 (un_of q a n)) as [P|P].
  - exists (un_of q a n + sqrt (g * hh a)). split; [apply dFn_eigenvalues; tauto|].
    unfold tau_LF. num_R. fold (un_of q a n). rewrite !Rabs_pos_eq by lra. ring.
  - exists (un_of q a n - sqrt (g * hh a)). split; [apply dFn_eigenvalues; tauto|].
    unfold tau_LF. num_R. fold (un_of q a n). rewrite !Rabs_left by lra. ring.
Qed.

Lemma tau_explicit : forall g q a n, tau_LF g q a n = sqrt (g * hh a) + Rabs (un_of q a n).
Proof. intros. unfold tau_LF, un_of. num_R. reflexivity. Qed.

Lemma dtau_is_derivative : forall g b s n z x y, 0 < g -> 0 < z + b ->
  un_of (state z x y) (auxil z b s) n <> 0 ->
  is_derive (fun t => tau_LF g (state t x y) (auxil t b s) n) z (dtau_dze_LF g (state z x y) (auxil z b s) n) /\
  is_derive (fun t => tau_LF g (state z t y) (auxil z b s) n) x (dtau_dqx_LF (state z x y) (auxil z b s) n) /\
  is_derive (fun t => tau_LF g (state z x t) (auxil z b s) n) y (dtau_dqy_LF (state z x y) (auxil z b s) n).
Proof.
  intros g b s n z x y Hg Hh N1. destruct n as [n1 n2].
  destruct (eigL_ze g b x y n1 n2 z Hg Hh) as (_ & _ & _ & _ & U1 & _).
  destruct (eigL_qx g b x y n1 n2 z Hg Hh) as (_ & _ & _ & _ & U2 & _).
  destruct (eigL_qy g b x y n1 n2 z Hg Hh) as (_ & _ & _ & _ & U3 & _).
  assert (C : is_derive (fun t => sqrt (g * (t + b))) z (sqrt (g / (z + b)) / 2))
    by (auto_derive; [der_sides | finish_der g (z + b) Hg Hh]).
  assert (forall P Q U : Prop, P -> Q -> U -> P /\ Q /\ U) as S3 by tauto. apply S3.
  - eapply is_derive_ext; [intros t; symmetry; apply tau_explicit|].
    exact (der_add _ _ _ _ _ C (der_abs _ _ _ U1 N1)).
  - eapply is_derive_ext; [intros t; symmetry; apply tau_explicit|].
    eapply der_eq; [exact (der_add _ _ _ _ _ (is_derive_const (sqrt (g * (z + b))) x) (der_abs _ _ _ U2 N1))|].
    unfold zero; cbn. apply Rplus_0_l.
  - eapply is_derive_ext; [intros t; symmetry; apply tau_explicit|].
    eapply der_eq; [exact (der_add _ _ _ _ _ (is_derive_const (sqrt (g * (z + b))) y) (der_abs _ _ _ U3 N1))|].
    unfold zero; cbn. apply Rplus_0_l.
Qed.

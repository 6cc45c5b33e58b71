(** Distributed implicit HDG: a cut edge seen from its two sides. *)
From Coq Require Import Reals ZArith List Bool Arith Lia Lra Permutation.
From Verif Require Import Num ModelSWE Outcome ModelShape ModelBasis ModelJac ModelStep ModelIHDG ModelIPar
  SpecSWE SpecStepper SpecStep SpecIHDG SpecIHDG2 SpecIPar
  LemmasSWE LemmasRK LemmasBasis2 LemmasStep LemmasPar2 LemmasIHDG3 LemmasIHDG4.
Import ListNotations.
Open Scope R_scope.

(** ** Parity of the Legendre polynomials *)
Lemma uint_0 : uint 0 = 0.
Proof. unfold uint. rewrite Zmod_0_l. reflexivity. Qed.
Lemma sq1 : forall k, (-1) ^ k * (-1) ^ k = 1.
Proof. intros k. rewrite <- Rpow_mult_distr. replace (-1 * -1) with 1 by ring. apply pow1. Qed.
Lemma next_parity : forall i x Jn Jp s, jacobi_next 0 0 i (- x) (- s * Jn) (s * Jp) = s * jacobi_next 0 0 i x Jn Jp.
Proof.
  intros i x Jn Jp s. unfold jacobi_next. cbv zeta. rewrite !Z.mul_0_l, Z.sub_diag, Z.mul_0_r, uint_0. unfold Rdiv. ring.
Qed.
Lemma rows_parity : forall n x, jacobi_rows (S n) 0 0 (- x) ((n + 1) mod 3)%nat = (-1) ^ (S n) * jacobi_rows (S n) 0 0 x ((n + 1) mod 3)%nat /\
  jacobi_rows (S n) 0 0 (- x) (n mod 3)%nat = (-1) ^ n * jacobi_rows (S n) 0 0 x (n mod 3)%nat.
Proof.
  induction n as [|n IH]; intros x.
  - unfold jacobi_rows. cbn [Nat.sub seq fold_left Nat.add]. change (1 mod 3)%nat with 1%nat. change (0 mod 3)%nat with 0%nat.
    unfold jacobi_first. rewrite Z.sub_diag, uint_0. cbn [pow]. split; [field|ring].
  - destruct (IH x) as [I1 I2]. clear IH.
    assert (E : forall x, jacobi_rows (S (S n)) 0 0 x =
      (let J := jacobi_rows (S n) 0 0 x in upd J ((S n + 1) mod 3) (jacobi_next 0 0 (Z.of_nat (S n)) x (J (S n mod 3)%nat) (J ((S n - 1) mod 3)%nat)))).
    { intros y. unfold jacobi_rows. replace (S (S n) - 1)%nat with (S n) by lia. replace (S n - 1)%nat with n by lia.
      rewrite seq_S, fold_left_app. cbn [fold_left Nat.add]. replace (S n - 1)%nat with n by lia. reflexivity. }
    rewrite !E. cbv zeta. replace (S n - 1)%nat with n by lia. replace (n + 1)%nat with (S n) in I1 by lia.
    rewrite !upd_same. split.
    + rewrite I1, I2. change ((-1) ^ S (S n)) with (-1 * (-1 * (-1) ^ n)). change ((-1) ^ S n) with (-1 * (-1) ^ n).
      replace (-1 * (-1) ^ n * jacobi_rows (S n) 0 0 x (S n mod 3)) with (- (-1) ^ n * jacobi_rows (S n) 0 0 x (S n mod 3)) by ring.
      rewrite next_parity. ring.
    + rewrite !upd_other; [exact I1| |];
        intros K; pose proof (Nat.mod_upper_bound (S n) 3 ltac:(lia)); rewrite <- Nat.add_mod_idemp_l in K by lia;
        destruct (S n mod 3)%nat as [|[|[|?]]]; cbn in K; lia.
Qed.
Lemma legendre_parity : forall n x, legendre_phi n (- x) = (-1) ^ n * legendre_phi n x.
Proof.
  intros n x. unfold legendre_phi. destruct n as [|[|n]].
  - cbn. ring.
  - unfold jacobi_polynomial, jacobi_first. rewrite Z.sub_diag, uint_0. cbn [pow]. field.
  - unfold jacobi_polynomial. destruct (rows_parity (S n) x) as [H _]. replace (S n + 1)%nat with (S (S n)) in H by lia. exact H.
Qed.

(** ** Fluxes as functions of the trace *)
Section Flux.
  Context (g : R).
  Definition FF (u : vec3 R) (a : aux3 R) (n : vec2 R) (qs : vec3 R) : vec3 R :=
    vadd (get_Fn g u a n) (vscale (tau_LF g u a n) (ModelSWE.vsub qs u)).
  Definition TT (u : vec3 R) (a : aux3 R) (n : vec2 R) : mat3 := let t := tau_LF g u a n in mdiag t t t.
  Definition DD (u : vec3 R) (a : aux3 R) (n : vec2 R) (qs : vec3 R) : mat3 :=
    let del := ModelSWE.vsub qs u in
    madd (get_dFn_dq g u a n)
      (msub (columns (vscale (dtau_dze_LF g u a n) del) (vscale (dtau_dqx_LF u a n) del) (vscale (dtau_dqy_LF u a n) del)) (TT u a n)).
  Lemma nsign_opp : forall x : R, nsign (- x) = - nsign x.
  Proof.
    intros x. unfold nsign. num_R.
    destruct (Rltb_spec 0 (- x)), (Rltb_spec (- x) 0), (Rltb_spec 0 x), (Rltb_spec x 0); lra.
  Qed.
  Lemma un_opp : forall (u v : R) (n : vec2 R), u * nx (opp n) + v * ny (opp n) = - (u * nx n + v * ny n).
  Proof. intros u v n. unfold opp. cbn [nx ny]. num_R. ring. Qed.
  Lemma tau_opp : forall (u : vec3 R) (a : aux3 R) n, tau_LF g u a (opp n) = tau_LF g u a n.
  Proof. intros u a n. unfold tau_LF. num_R. rewrite un_opp, Rabs_Ropp. reflexivity. Qed.
  Lemma FF_opp : forall u a n qs, FF u a (opp n) qs = vadd (vscale (-1) (get_Fn g u a n)) (vscale (tau_LF g u a n) (ModelSWE.vsub qs u)).
  Proof.
    intros u a n qs. unfold FF. rewrite tau_opp. f_equal. unfold get_Fn, vscale, opp. num_R. cbn [nx ny ze qx qy]. f_equal; ring.
  Qed.
  Lemma dtau_opp : forall (u : vec3 R) (a : aux3 R) n,
    dtau_dze_LF g u a (opp n) = dtau_dze_LF g u a n /\ dtau_dqx_LF u a (opp n) = dtau_dqx_LF u a n /\ dtau_dqy_LF u a (opp n) = dtau_dqy_LF u a n.
  Proof.
    intros u a n. unfold dtau_dze_LF, dtau_dqx_LF, dtau_dqy_LF. num_R. rewrite un_opp, nsign_opp. unfold opp. cbn [nx ny]. num_R.
    refine (conj _ (conj _ _)); unfold Rdiv; ring.
  Qed.
  Lemma DD_opp : forall u a n qs, DD u a (opp n) qs =
    madd (mscale (-1) (get_dFn_dq g u a n)) (msub (columns (vscale (dtau_dze_LF g u a n) (ModelSWE.vsub qs u))
      (vscale (dtau_dqx_LF u a n) (ModelSWE.vsub qs u)) (vscale (dtau_dqy_LF u a n) (ModelSWE.vsub qs u))) (TT u a n)).
  Proof.
    intros u a n qs. unfold DD, TT. cbv zeta. rewrite tau_opp. destruct (dtau_opp u a n) as (-> & -> & ->). f_equal.
    unfold get_dFn_dq, mscale, opp. num_R. cbn [nx ny m00 m01 m02 m10 m11 m12 m20 m21 m22]. f_equal; unfold Rdiv; ring.
  Qed.
End Flux.

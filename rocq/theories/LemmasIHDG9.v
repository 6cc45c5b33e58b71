(** Balance of one pass of the implicit solver. *)
From Coq Require Import Reals List Bool Arith Lra Lia.
From Coquelicot Require Import Coquelicot.
From Verif Require Import Num ModelSWE ModelShape ModelBasis ModelJac SpecJac SpecStepper SpecStep LemmasSWE LemmasRK LemmasBasis4 LemmasStep
  ModelStep ModelIHDG SpecIHDG SpecIHDG2 LemmasIHDG2 LemmasIHDG3 LemmasIHDG4 LemmasIHDG5 LemmasIHDG6 LemmasIHDG7.
Import ListNotations.
Open Scope R_scope.

(** ** Blocks applied to vectors *)
Lemma applied_ext : forall n A B x a i, (forall j b, (j < n)%nat -> (b < 3)%nat -> A i a j b = B i a j b) -> applied n A x a i = applied n B x a i.
Proof. intros n A B x a i H. unfold applied. apply rsum_ext. intros j Hj. apply rsum_ext. intros b Hb. rewrite H by assumption. reflexivity. Qed.
Lemma applied_plus : forall n (A B : block) x a i, applied n (fun i a j b => A i a j b + B i a j b) x a i = applied n A x a i + applied n B x a i.
Proof.
  intros n A B x a i. unfold applied. rewrite <- rsum_plus. apply rsum_ext. intros j _. rewrite <- rsum_plus. apply rsum_ext. intros b _. ring.
Qed.
Lemma applied_scal : forall n c (A : block) x a i, applied n (fun i a j b => c * A i a j b) x a i = c * applied n A x a i.
Proof.
  intros n c A x a i. unfold applied. rewrite <- rsum_scal. apply rsum_ext. intros j _. rewrite <- rsum_scal. apply rsum_ext. intros b _. ring.
Qed.
Lemma applied_rsum : forall n N (B : nat -> block) x a i,
  applied n (fun i a j b => rsum N (fun k => B k i a j b)) x a i = rsum N (fun k => applied n (B k) x a i).
Proof.
  intros n N B x a i. induction N as [|N IH].
  - cbn [rsum]. unfold applied. apply rsum_const0. intros j _. apply rsum_const0. intros b _. ring.
  - cbn [rsum]. rewrite <- IH. rewrite <- applied_plus. reflexivity.
Qed.
Lemma applied_on : forall n e y (B : block) x a i, applied n (fun i a j b => on e y (B i a j b)) x a i = on e y (applied n B x a i).
Proof.
  intros n e y B x a i. unfold on. destruct (e =? y)%nat; [reflexivity|].
  unfold applied. apply rsum_const0. intros j _. apply rsum_const0. intros b _. ring.
Qed.
(** A block given by a quadrature. *)
Lemma applied_quad : forall n k (M : nat -> mat3) (P : nat -> nat -> R) (W : nat -> R) x a i (B : block), (a < 3)%nat ->
  (forall j b, (j < n)%nat -> (b < 3)%nat -> B i a j b = rsum k (fun gp => mget (M gp) a b * (P j gp * W gp))) ->
  applied n B x a i = rsum k (fun gp => W gp * vget (mvec (M gp) (V3 (rsum n (fun j => x 0%nat j * P j gp)) (rsum n (fun j => x 1%nat j * P j gp)) (rsum n (fun j => x 2%nat j * P j gp)))) a).
Proof.
  intros n k M P W x a i B Ha H. unfold applied.
  rewrite (rsum_ext n _ (fun j => rsum k (fun gp => (mget (M gp) a 0%nat * (x 0%nat j * P j gp) + mget (M gp) a 1 * (x 1%nat j * P j gp) + mget (M gp) a 2 * (x 2%nat j * P j gp)) * W gp))).
  2:{ intros j Hj. cbn [rsum]. rewrite !H by lia.
      rewrite <- !rsum_scal_r, Rplus_0_l, <- !rsum_plus. apply rsum_ext. intros gp _. ring. }
  rewrite rsum_swap. apply rsum_ext. intros gp _. rewrite vget_mvec. cbn [vget ze qx qy].
  rewrite rsum_scal_r, Rmult_comm. f_equal. rewrite !rsum_plus, !rsum_scal. reflexivity.
Qed.

Lemma rsum_split : forall n k f, rsum (n + k) f = rsum n f + rsum k (fun i => f (n + i)%nat).
Proof. intros n k f. induction k as [|k IH]; [rewrite Nat.add_0_r; cbn; ring|]. rewrite Nat.add_succ_r. cbn [rsum]. rewrite IH. ring. Qed.
Lemma rsum_on : forall n y (F : nat -> R), (y < n)%nat -> rsum n (fun e => on e y (F e)) = F y.
Proof.
  intros n y F H. rewrite (rsum_ext n _ (fun e => if (e =? y)%nat then F y else 0)).
  - rewrite rsum_one. apply Nat.ltb_lt in H. rewrite H. reflexivity.
  - intros e _. unfold on. destruct (Nat.eqb_spec e y) as [->|]; reflexivity.
Qed.
Lemma rsum_V3 : forall m x z, V3 (rsum (ndof m) (fun j => x 0%nat j * GetPhi j z)) (rsum (ndof m) (fun j => x 1%nat j * GetPhi j z)) (rsum (ndof m) (fun j => x 2%nat j * GetPhi j z)) = expand m x z.
Proof. intros m x z. unfold expand. cbv zeta. f_equal; symmetry; apply vmsum_rsum. Qed.
Lemma rsum_V3e : forall m qh ed gp, V3 (rsum (nedof m) (fun j => qh ed 0%nat j * legendre_phi j (z1 m gp))) (rsum (nedof m) (fun j => qh ed 1%nat j * legendre_phi j (z1 m gp)))
  (rsum (nedof m) (fun j => qh ed 2%nat j * legendre_phi j (z1 m gp))) = u_edge m qh ed gp.
Proof. intros m qh ed gp. unfold u_edge. cbv zeta. f_equal; symmetry; apply vmsum_rsum. Qed.
Lemma leg_0 : forall x, legendre_phi 0 x = 1.
Proof. intros x. unfold legendre_phi, jacobi_polynomial, jacobi_rows, jacobi_first. cbn. reflexivity. Qed.

Section System.
  Context (m : mesh) (eaux : nat -> nat -> aux3 R) (g dt theta t : R) (qp rp : nat -> coeffs) (s0 : newton).
  Notation sys := (fun q qh => newton_system m eaux g dt theta t qp rp q qh s0).
  Notation ni := (length (m_intfaces m)).
  Notation nb := (length (m_bounds m)).

  (** ** The constant row of the two sides of an interface *)
  Lemma face_in_0 : forall e b j M a c, face_phi_phi m e b b 0 j M a c = phi_lambda_in m e b b j 0 M a c.
  Proof.
    intros e b j M a c. unfold face_phi_phi, phi_lambda_in, lambda_fact. apply vmsum_ext. intros gp _. rewrite phi0, leg_0. ring.
  Qed.
  Lemma face_ex_0 : forall e b b' j M a c, symmetric_weights m -> face_phi_phi m e b b' 0 j M a c = phi_lambda_ex m e b b' j 0 M a c.
  Proof.
    intros e b b' j M a c Sy. unfold face_phi_phi, phi_lambda_ex, lambda_fact. apply vmsum_ext. intros gp H. rewrite phi0, leg_0.
    assert (W : w1 m (mirror m gp) = w1 m gp) by (exact (Sy gp H)). rewrite W. ring.
  Qed.
  Lemma hat_in_0 : forall e b b' j M a c, phi_lambda_in m e b b' 0 j M a c = lambda_lambda m e b j 0 M a c.
  Proof.
    intros e b b' j M a c. unfold lambda_lambda, phi_lambda_in, lambda_fact. apply vmsum_ext. intros gp _. rewrite phi0, leg_0. ring.
  Qed.
  Lemma hat_ex_0 : forall e b b' j (M : nat -> nat -> mat3) a c,
    phi_lambda_ex m e b b' 0 j (fun gp => M (mirror m gp) gp) a c = lambda_lambda m e b j 0 (fun gp => M gp (mirror m gp)) a c.
  Proof.
    intros e b b' j M a c. unfold lambda_lambda, phi_lambda_ex, lambda_fact. rewrite (vmsum_mirror m). apply vmsum_ext. intros gp H.
    rewrite mirror_mirror by exact H. rewrite phi0, leg_0. ring.
  Qed.
  Lemma rhs_in_0 : forall e b b' F a, integration_face m e b b' F a 0%nat = edge_lambda m e b F a 0%nat.
  Proof.
    intros e b b' F a. unfold integration_face, edge_lambda, lambda_fact. apply vmsum_ext. intros gp _. rewrite phi0, leg_0. ring.
  Qed.
  Lemma rhs_ex_0 : forall e b b' (F : nat -> nat -> vec3 R) a, symmetric_weights m ->
    integration_face m e b b' (fun gp => F (mirror m gp) gp) a 0%nat = edge_lambda m e b (fun gp => F gp (mirror m gp)) a 0%nat.
  Proof.
    intros e b b' F a Sy. unfold integration_face, edge_lambda, lambda_fact. rewrite (vmsum_mirror m). apply vmsum_ext. intros gp H.
    rewrite mirror_mirror by exact H. rewrite phi0, leg_0. assert (W : w1 m (mirror m gp) = w1 m gp) by (exact (Sy gp H)). rewrite W. ring.
  Qed.

  Lemma int_rhs_0 : forall q qh ed a, symmetric_weights m -> (ed < ni)%nat -> in_range m ->
    rsum (m_n m) (fun e => int_rhs m eaux g theta q qh ed e a 0%nat) = (1 - theta) * nw_grhs (sys q qh) ed a 0%nat.
  Proof.
    intros q qh ed a Sy H Rg. cbv beta. rewrite grhs_int by exact H. unfold int_rhs. cbv zeta.
    assert (L : (ed < nedges m)%nat) by (unfold nedges, nint; lia).
    destruct (Rg ed (i_in (the_int m ed)) (i_bin (the_int m ed)) L ltac:(rewrite side_int by exact H; left; reflexivity)) as [R1 _].
    destruct (Rg ed (i_ex (the_int m ed)) (i_bex (the_int m ed)) L ltac:(rewrite side_int by exact H; right; left; reflexivity)) as [R2 _].
    rewrite rsum_plus, !(rsum_on (m_n m) _ (fun _ => _)) by assumption.
    unfold int_kern_rhs. cbv zeta. rewrite lambda_add, rhs_in_0.
    rewrite (rhs_ex_0 _ _ _ (fun g1 g2 => F_ex m eaux g qh ed g1 (normal m (i_in (the_int m ed)) (i_bin (the_int m ed))) (u_face m q (i_ex (the_int m ed)) (i_bex (the_int m ed)) g2)) a Sy).
    ring.
  Qed.

  (** Element rows summed over the mesh: interfaces give (1 - theta) times the
      interface rows. *)
  Definition face_lhs (q qh dq dqh : nat -> coeffs) (e ed a : nat) : R :=
    lsum (sides m ed) (fun ef => if (fst ef =? e)%nat then applied (nedof m) (nw_hat (sys q qh) e (snd ef)) (dqh ed) a 0%nat else 0).
  Lemma int_lhs_0 : forall q qh dq dqh ed a, conforming m -> symmetric_weights m -> in_range m -> (ed < ni)%nat ->
    rsum (m_n m) (fun e => applied (ndof m) (int_delta m eaux g theta qh ed e) (dq e) a 0%nat + face_lhs q qh dq dqh e ed a) =
    (1 - theta) * (lsum (sides m ed) (fun ef => applied (ndof m) (nw_glob (sys q qh) (fst ef) (snd ef)) (dq (fst ef)) a 0%nat) +
                   applied (nedof m) (nw_hglob (sys q qh) ed) (dqh ed) a 0%nat).
  Proof.
    intros q qh dq dqh ed a C Sy Rg H. set (f := the_int m ed). set (n := normal m (i_in f) (i_bin f)).
    assert (L : (ed < nedges m)%nat) by (unfold nedges, nint; lia).
    destruct (Rg ed (i_in f) (i_bin f) L ltac:(rewrite side_int by exact H; left; reflexivity)) as [R1 _].
    destruct (Rg ed (i_ex f) (i_bex f) L ltac:(rewrite side_int by exact H; right; left; reflexivity)) as [R2 _].
    rewrite rsum_plus. unfold face_lhs. rewrite side_int by exact H. fold f. unfold lsum. cbn [map fold_right fst snd].
    rewrite (rsum_ext (m_n m) (fun e => applied (ndof m) (int_delta m eaux g theta qh ed e) (dq e) a 0%nat)
      (fun e => on e (i_in f) ((1 - theta) * applied (ndof m) (nw_glob (sys q qh) (i_in f) (i_bin f)) (dq e) a 0%nat) +
                on e (i_ex f) ((1 - theta) * applied (ndof m) (nw_glob (sys q qh) (i_ex f) (i_bex f)) (dq e) a 0%nat))).
    2:{ intros e _. rewrite <- !applied_scal, <- !applied_on, <- applied_plus. apply applied_ext. intros j b _ _.
        unfold int_delta. cbv zeta. fold f. fold n. cbv beta. unfold f. rewrite glob_in, glob_ex by assumption. unfold in_glob, ex_glob. cbv zeta. fold f. fold n.
        rewrite face_in_0, face_ex_0 by exact Sy. reflexivity. }
    rewrite (rsum_ext (m_n m) (fun e => (if (i_in f =? e)%nat then applied (nedof m) (nw_hat (sys q qh) e (i_bin f)) (dqh ed) a 0%nat else 0) +
        ((if (i_ex f =? e)%nat then applied (nedof m) (nw_hat (sys q qh) e (i_bex f)) (dqh ed) a 0%nat else 0) + 0))
      (fun e => on e (i_in f) (applied (nedof m) (nw_hat (sys q qh) (i_in f) (i_bin f)) (dqh ed) a 0%nat) +
                on e (i_ex f) (applied (nedof m) (nw_hat (sys q qh) (i_ex f) (i_bex f)) (dqh ed) a 0%nat))).
    2:{ intros e _. unfold on. rewrite (Nat.eqb_sym (i_in f)), (Nat.eqb_sym (i_ex f)).
        destruct (Nat.eqb_spec e (i_in f)) as [E1|]; destruct (Nat.eqb_spec e (i_ex f)) as [E|]; try rewrite <- E1; try rewrite <- E; ring. }
    rewrite !rsum_plus.
    rewrite (rsum_on (m_n m) (i_in f) (fun e => (1 - theta) * applied (ndof m) (nw_glob (sys q qh) (i_in f) (i_bin f)) (dq e) a 0%nat)) by exact R1.
    rewrite (rsum_on (m_n m) (i_ex f) (fun e => (1 - theta) * applied (ndof m) (nw_glob (sys q qh) (i_ex f) (i_bex f)) (dq e) a 0%nat)) by exact R2.
    rewrite !(rsum_on (m_n m) _ (fun _ => _)) by assumption.
    assert (E : applied (nedof m) (nw_hat (sys q qh) (i_in f) (i_bin f)) (dqh ed) a 0%nat + applied (nedof m) (nw_hat (sys q qh) (i_ex f) (i_bex f)) (dqh ed) a 0%nat =
      (1 - theta) * applied (nedof m) (nw_hglob (sys q qh) ed) (dqh ed) a 0%nat).
    { rewrite <- applied_plus, <- applied_scal. apply applied_ext. intros j b _ _. cbv beta. unfold f. rewrite hat_in, hat_ex, hglob_int by assumption.
      unfold in_hat, ex_hat, int_kern_hat. cbv zeta. fold f. fold n. rewrite lambda_lambda_comm, lambda_lambda_add, hat_in_0.
      rewrite (hat_ex_0 _ _ _ _ (fun g1 g2 => dF_ex m eaux g qh ed g1 n (u_face m q (i_ex f) (i_bex f) g2))). ring. }
    rewrite E. ring.
  Qed.

  (** ** Boundary edges *)
  Definition bd_lhs (q qh dq dqh : nat -> coeffs) (ed a : nat) : R :=
    let b := the_bnd m ed in
    applied (ndof m) (fun i a j c => (1 - theta) * face_phi_phi m (b_elt b) (b_id b) (b_id b) j i (fun gp => tau_mat m eaux g qh ed gp (normal m (b_elt b) (b_id b))) a c) (dq (b_elt b)) a 0%nat +
    applied (nedof m) (bd_hat m eaux g theta q qh ed) (dqh ed) a 0%nat.
  Definition bd_rhs0 (q qh : nat -> coeffs) (ed a : nat) : R :=
    let b := the_bnd m ed in
    - (1 - theta) * integration_face m (b_elt b) (b_id b) (b_id b) (fun gp => F_in m eaux g qh ed gp (normal m (b_elt b) (b_id b)) (u_face m q (b_elt b) (b_id b) gp)) a 0%nat.
  Lemma bnd_lhs_0 : forall q qh dq dqh ed a, conforming m -> in_range m -> (ni <= ed < ni + nb)%nat ->
    rsum (m_n m) (fun e => applied (ndof m) (bnd_delta m eaux g theta qh ed e) (dq e) a 0%nat + face_lhs q qh dq dqh e ed a) = bd_lhs q qh dq dqh ed a.
  Proof.
    intros q qh dq dqh ed a C Rg H. unfold bd_lhs. cbv zeta. set (b := the_bnd m ed).
    assert (L : (ed < nedges m)%nat) by (unfold nedges, nint; lia).
    destruct (Rg ed (b_elt b) (b_id b) L ltac:(rewrite side_bnd by lia; left; reflexivity)) as [R1 _].
    rewrite rsum_plus. unfold face_lhs. rewrite side_bnd by lia. fold b. unfold lsum. cbn [map fold_right fst snd]. f_equal.
    - rewrite (rsum_ext (m_n m) _ (fun e => on e (b_elt b) (applied (ndof m) (fun i a j c => (1 - theta) *
        face_phi_phi m (b_elt b) (b_id b) (b_id b) j i (fun gp => tau_mat m eaux g qh ed gp (normal m (b_elt b) (b_id b))) a c) (dq e) a 0%nat))).
      + rewrite (rsum_on (m_n m) (b_elt b) (fun e => applied (ndof m) _ (dq e) a 0%nat)) by exact R1. reflexivity.
      + intros e _. rewrite <- applied_on. apply applied_ext. intros j c _ _. reflexivity.
    - rewrite (rsum_ext (m_n m) _ (fun e => on e (b_elt b) (applied (nedof m) (nw_hat (sys q qh) (b_elt b) (b_id b)) (dqh ed) a 0%nat))).
      + rewrite (rsum_on (m_n m) _ (fun _ => _)) by exact R1. apply applied_ext. intros j c _ _. cbv beta. unfold b. rewrite hat_bnd by assumption. reflexivity.
      + intros e _. unfold on. rewrite Nat.eqb_sym. destruct (Nat.eqb_spec e (b_elt b)) as [->|]; ring.
  Qed.

  (** ** Balance in terms of the element parts *)
  Lemma balance_raw : forall q qh dq dqh a, conforming m -> symmetric_weights m -> in_range m -> (a < 3)%nat -> solves m (sys q qh) dq dqh ->
    rsum (m_n m) (fun e => applied (ndof m) (elt_delta m g dt theta t qp rp q e) (dq e) a 0%nat) + rsum nb (fun k => bd_lhs q qh dq dqh (ni + k) a) =
    rsum (m_n m) (fun e => elt_rhs m g dt theta t qp rp q e a 0%nat) + rsum nb (fun k => bd_rhs0 q qh (ni + k) a).
  Proof.
    intros q qh dq dqh a C Sy Rg Ha [S1 S2].
    assert (N0 : (0 < ndof m)%nat) by (unfold ndof; rewrite LemmasBasis3.ndof_tri; cbn; pose proof (LemmasBasis3.tri_mono 1 (S (m_p m)) ltac:(lia)) as T; cbn in T; lia).
    assert (E0 : (0 < nedof m)%nat) by (unfold nedof; lia).
    assert (SumL : rsum (m_n m) (fun e => applied (ndof m) (nw_delta (sys q qh) e) (dq e) a 0%nat + rsum (nedges m) (fun ed => face_lhs q qh dq dqh e ed a)) =
      rsum (m_n m) (fun e => nw_rhs (sys q qh) e a 0%nat)).
    { apply rsum_ext. intros e He. exact (S1 e a 0%nat He Ha N0). }
    assert (Lhs : rsum (m_n m) (fun e => applied (ndof m) (nw_delta (sys q qh) e) (dq e) a 0%nat + rsum (nedges m) (fun ed => face_lhs q qh dq dqh e ed a)) =
      rsum (m_n m) (fun e => applied (ndof m) (elt_delta m g dt theta t qp rp q e) (dq e) a 0%nat) +
      rsum ni (fun ed => (1 - theta) * nw_grhs (sys q qh) ed a 0%nat) + rsum nb (fun k => bd_lhs q qh dq dqh (ni + k) a)).
    { rewrite (rsum_ext (m_n m) _ (fun e => applied (ndof m) (elt_delta m g dt theta t qp rp q e) (dq e) a 0%nat +
        rsum ni (fun ed => applied (ndof m) (int_delta m eaux g theta qh ed e) (dq e) a 0%nat + face_lhs q qh dq dqh e ed a) +
        rsum nb (fun k => applied (ndof m) (bnd_delta m eaux g theta qh (ni + k) e) (dq e) a 0%nat + face_lhs q qh dq dqh e (ni + k) a))).
      - rewrite !rsum_plus. f_equal; [f_equal|].
        + rewrite rsum_swap. apply rsum_ext. intros ed Hd. rewrite int_lhs_0 by assumption. f_equal. apply (S2 ed a 0%nat); [unfold nedges, nint; lia|exact Ha|exact E0].
        + rewrite rsum_swap. apply rsum_ext. intros k Hk. apply bnd_lhs_0; [assumption|assumption|lia].
      - intros e He. unfold nedges, nint. rewrite rsum_split, !rsum_plus.
        rewrite (applied_ext _ _ (fun i a j b => elt_delta m g dt theta t qp rp q e i a j b + rsum ni (fun ed => int_delta m eaux g theta qh ed e i a j b) + rsum nb (fun k => bnd_delta m eaux g theta qh (ni + k) e i a j b)))
          by (intros j b _ _; apply delta_entry; exact He).
        rewrite (applied_plus _ (fun i a j b => elt_delta m g dt theta t qp rp q e i a j b + rsum ni (fun ed => int_delta m eaux g theta qh ed e i a j b))), applied_plus.
        rewrite (applied_rsum _ ni (fun ed => int_delta m eaux g theta qh ed e)), (applied_rsum _ nb (fun k => bnd_delta m eaux g theta qh (ni + k) e)). ring. }
    assert (Rhs : rsum (m_n m) (fun e => nw_rhs (sys q qh) e a 0%nat) = rsum (m_n m) (fun e => elt_rhs m g dt theta t qp rp q e a 0%nat) +
      rsum ni (fun ed => (1 - theta) * nw_grhs (sys q qh) ed a 0%nat) + rsum nb (fun k => bd_rhs0 q qh (ni + k) a)).
    { rewrite (rsum_ext (m_n m) _ (fun e => elt_rhs m g dt theta t qp rp q e a 0%nat + rsum ni (fun ed => int_rhs m eaux g theta q qh ed e a 0%nat) +
        rsum nb (fun k => bnd_rhs m eaux g theta q qh (ni + k) e a 0%nat))) by (intros e He; apply rhs_entry; exact He).
      rewrite !rsum_plus. f_equal; [f_equal|].
      - rewrite rsum_swap. apply rsum_ext. intros ed Hd. apply int_rhs_0; assumption.
      - rewrite rsum_swap. apply rsum_ext. intros k Hk. unfold bnd_rhs, bd_rhs0. cbv zeta.
        destruct (Rg (ni + k)%nat (b_elt (the_bnd m (ni + k))) (b_id (the_bnd m (ni + k))) ltac:(unfold nedges, nint; lia) ltac:(rewrite side_bnd by lia; left; reflexivity)) as [R1 _].
        apply (rsum_on (m_n m) _ (fun _ => _)). exact R1. }
    lra.
  Qed.
End System.

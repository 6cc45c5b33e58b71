(** From the checked tables to the rules. *)
From Coq Require Import ZArith QArith Reals Qreals List Arith Lia Lra Bool.
From Coquelicot Require Import Coquelicot.
From Verif Require Import ModelIntegration SpecBasis SpecIntegration LemmasBasis LemmasBasis2 LemmasIntegration.
Import ListNotations.
Open Scope R_scope.

(** ** Linearity *)
Lemma quad1_ext : forall l f g, (forall x, f x = g x) -> quad1 l f = quad1 l g.
Proof. intros l f g H. unfold quad1. induction l as [|[w x] l IH]; cbn; [reflexivity|]. rewrite IH, H. reflexivity. Qed.
Lemma quad1_plus : forall l f g, quad1 l (fun x => f x + g x) = quad1 l f + quad1 l g.
Proof. intros l f g. unfold quad1. induction l as [|[w x] l IH]; cbn; [ring|]. rewrite IH. ring. Qed.
Lemma quad1_scal : forall l c f, quad1 l (fun x => c * f x) = c * quad1 l f.
Proof. intros l c f. unfold quad1. induction l as [|[w x] l IH]; cbn; [ring|]. rewrite IH. ring. Qed.
Lemma quad1_0 : forall l, quad1 l (fun _ => 0) = 0.
Proof. intros l. unfold quad1. induction l as [|[w x] l IH]; cbn; [ring|]. rewrite IH. ring. Qed.
Lemma quad1_poly : forall l n c, quad1 l (poly1 n c) = bsum n (fun k => c k * quad1 l (fun x => x ^ k)).
Proof.
  intros l n c. unfold poly1. induction n as [|n IH]; cbn [bsum]; [apply quad1_0|]. rewrite quad1_plus, quad1_scal, IH. reflexivity.
Qed.
Lemma quad2_plus : forall l f g, quad2 l (fun x y => f x y + g x y) = quad2 l f + quad2 l g.
Proof. intros l f g. unfold quad2. induction l as [|[w x] l IH]; cbn; [ring|]. rewrite IH. ring. Qed.
Lemma quad2_scal : forall l c f, quad2 l (fun x y => c * f x y) = c * quad2 l f.
Proof. intros l c f. unfold quad2. induction l as [|[w x] l IH]; cbn; [ring|]. rewrite IH. ring. Qed.
Lemma quad2_0 : forall l, quad2 l (fun _ _ => 0) = 0.
Proof. intros l. unfold quad2. induction l as [|[w x] l IH]; cbn; [ring|]. rewrite IH. ring. Qed.
Lemma quad2_bsum : forall l n (f : nat -> R -> R -> R), quad2 l (fun x y => bsum n (fun k => f k x y)) = bsum n (fun k => quad2 l (f k)).
Proof. intros l n f. induction n as [|n IH]; cbn [bsum]; [apply quad2_0|]. rewrite quad2_plus, IH. reflexivity. Qed.
Lemma quad2_poly : forall l d c, quad2 l (poly2 d c) = bsum (S d) (fun i => bsum (S (d - i)) (fun j => c i j * quad2 l (fun x y => x ^ i * y ^ j))).
Proof.
  intros l d c. unfold poly2. rewrite (quad2_bsum l (S d) (fun i x y => bsum (S (d - i)) (fun j => c i j * (x ^ i * y ^ j)))).
  apply bsum_ext. intros i _. rewrite (quad2_bsum l (S (d - i)) (fun j x y => c i j * (x ^ i * y ^ j))).
  apply bsum_ext. intros j _. apply quad2_scal.
Qed.
Lemma bsum_close : forall n (f g h : nat -> R), (forall k, (k < n)%nat -> Rabs (f k - g k) <= h k) -> Rabs (bsum n f - bsum n g) <= bsum n h.
Proof.
  induction n as [|n IH]; intros f g h H; cbn [bsum]; [rewrite Rminus_0_r, Rabs_R0; lra|].
  replace (bsum n f + f n - (bsum n g + g n)) with ((bsum n f - bsum n g) + (f n - g n)) by ring.
  eapply Rle_trans; [apply Rabs_triang|]. apply Rplus_le_compat; [apply IH; intros; apply H; lia|apply H; lia].
Qed.
Lemma scaled_close : forall c a b t, Rabs (a - b) <= t -> Rabs (c * a - c * b) <= t * Rabs c.
Proof.
  intros c a b t H. replace (c * a - c * b) with ((a - b) * c) by ring. rewrite Rabs_mult. apply Rmult_le_compat_r; [apply Rabs_pos|exact H].
Qed.
Lemma poly1_close : forall l n c t, (forall k, (k < n)%nat -> Rabs (quad1 l (fun x => x ^ k) - mom k) <= t) ->
  is_RInt (poly1 n c) (-1) 1 (bsum n (fun k => c k * mom k)) /\
  Rabs (quad1 l (poly1 n c) - bsum n (fun k => c k * mom k)) <= t * size1 n c.
Proof.
  intros l n c t H. split.
  - unfold poly1. apply (is_RInt_bsum n (fun k x => c k * x ^ k)). intros k _. apply is_RInt_sc, int_mom.
  - rewrite quad1_poly. unfold size1. rewrite <- bsum_scal. apply bsum_close. intros k Hk. apply scaled_close, H, Hk.
Qed.
Lemma poly2_close : forall l d c t, (forall i j, (i + j <= d)%nat -> Rabs (quad2 l (fun x y => x ^ i * y ^ j) - mom2 i j) <= t) ->
  let v := bsum (S d) (fun i => bsum (S (d - i)) (fun j => c i j * mom2 i j)) in
  is_triangle_int (poly2 d c) v /\ Rabs (quad2 l (poly2 d c) - v) <= t * size2 d c.
Proof.
  intros l d c t H v. split.
  - exists (fun y => bsum (S d) (fun i => bsum (S (d - i)) (fun j => c i j * inner2 i j y))). split.
    + intros y _. unfold poly2. apply (is_RInt_bsum (S d) (fun i x => bsum (S (d - i)) (fun j => c i j * (x ^ i * y ^ j)))). intros i _.
      apply (is_RInt_bsum (S (d - i)) (fun j x => c i j * (x ^ i * y ^ j))). intros j _. apply is_RInt_sc, int_inner2.
    + apply (is_RInt_bsum (S d) (fun i y => bsum (S (d - i)) (fun j => c i j * inner2 i j y))). intros i _.
      apply (is_RInt_bsum (S (d - i)) (fun j y => c i j * inner2 i j y)). intros j _. apply is_RInt_sc, int_outer2.
  - rewrite quad2_poly. unfold v, size2. rewrite <- bsum_scal. apply bsum_close. intros i Hi.
    rewrite <- bsum_scal. apply bsum_close. intros j Hj. apply scaled_close, H. lia.
Qed.

(** ** 1D *)
Definition lift1 (wx : R * R) : R * (R * R) := (fst wx, (snd wx, 0)).
Lemma gl_near : forall wx, gl_ok wx = true -> near s1 s1 1 0 0 0 (gl_int wx) (lift1 (to_R wx)).
Proof.
  intros [w x] H. unfold gl_ok in H. cbn [fst snd] in H. apply andb_true_iff in H. destruct H as [H H3].
  apply andb_true_iff in H. destruct H as [H1 H2]. apply Z.leb_le in H3.
  unfold near, gl_int, lift1, to_R, mono. cbn [fst snd].
  refine (conj _ (conj _ (conj H3 (conj _ _)))).
  - apply scaled_value; [discriminate|exact H2].
  - unfold Rdiv. ring.
  - discriminate.
  - rewrite (scaled_value s1 w ltac:(discriminate) H1). assert (N : IZR s1 <> 0) by (apply not_0_IZR; discriminate).
    replace (IZR (scaled s1 w) - IZR (scaled s1 w) / IZR s1 * (((Q2R x) ^ 0) * 0 ^ 0) * IZR s1) with 0 by (cbn [pow]; field; exact N).
    rewrite Rabs_R0. lra.
Qed.
Lemma gl_nears : forall l, forallb gl_ok l = true -> Forall2 (near s1 s1 1 0 0 0) (map gl_int l) (map lift1 (map to_R l)).
Proof.
  induction l as [|wx l IH]; intros H; cbn [map]; constructor; cbn [forallb] in H; apply andb_true_iff in H; destruct H as [H1 H2].
  - apply gl_near, H1.
  - apply IH, H2.
Qed.
Lemma msum_quad1 : forall l k, msum k 0 (map lift1 l) = quad1 l (fun x => x ^ k).
Proof.
  intros l k. unfold msum, quad1, mono. induction l as [|[w x] l IH]; [reflexivity|]. cbn [map fold_right lift1 fst snd] in *. rewrite IH. cbn [pow]. ring.
Qed.
Definition tol1 : R := / 10 ^ 26.
Lemma gl_moment : forall n k, (1 <= n <= 33)%nat -> (k < 2 * n)%nat -> Rabs (quad1 (map to_R (gl_data n)) (fun x => x ^ k) - mom k) <= tol1.
Proof.
  intros n k Hn Hk. pose proof (proj1 (forallb_forall _ _) gl_checked n ltac:(apply in_seq; lia)) as H.
  apply andb_true_iff in H. destruct H as [H1 H2].
  pose proof (check_all_ok s1 s1 1 ltac:(reflexivity) ltac:(reflexivity) ltac:(discriminate) gl_num1 gl_den1 1 (10 ^ 26)
    ltac:(intros; unfold gl_den1; lia) ltac:(reflexivity) (2 * n) (fun _ => 1%nat) 0 (map gl_int (gl_data n)) _ 0%Z ltac:(discriminate)
    (gl_nears _ H1) H2 k 0%nat Hk Nat.lt_0_1) as B.
  cbn [plus] in B. rewrite msum_quad1 in B.
  replace (mom k) with (IZR (gl_num1 k 0) / IZR (gl_den1 k 0)).
  - eapply Rle_trans; [exact B|]. unfold tol1. change (10 ^ 26)%Z with (10 ^ Z.of_nat 26)%Z. rewrite <- pow_IZR. lra.
  - unfold mom, gl_num1, gl_den1. rewrite minus_IZR, altz_pow, <- INR_IZR_INZ. reflexivity.
Qed.

Definition q_lt (a b : Q) : bool := (Qnum a * Zpos (Qden b) <? Qnum b * Zpos (Qden a))%Z.
Lemma q_lt_true : forall a b, q_lt a b = true -> Q2R a < Q2R b.
Proof. intros a b H. apply Qlt_Rlt. unfold q_lt in H. apply Z.ltb_lt in H. exact H. Qed.
Fixpoint q_increasing (l : list Q) : bool :=
  match l with
  | [] => true
  | x :: r => (match r with [] => true | y :: _ => q_lt x y end) && q_increasing r
  end.
Lemma q_increasing_true : forall l, q_increasing l = true -> increasing (map Q2R l).
Proof.
  induction l as [|x l IH]; intros H; [exact I|]. cbn [q_increasing] in H. apply andb_true_iff in H. destruct H as [H1 H2].
  cbn [map increasing]. split; [|exact (IH H2)]. destruct l as [|y l]; [exact I|]. cbn [map]. apply q_lt_true, H1.
Qed.
Definition gl_shape (n : nat) : bool :=
  (length (gl_data n) =? n)%nat && forallb (fun wx => q_lt 0 (fst wx) && q_lt (-1) (snd wx) && q_lt (snd wx) 1) (gl_data n)
  && q_increasing (map snd (gl_data n)).
Lemma gl_shaped : forallb gl_shape (seq 1 33) = true.
Proof. vm_compute. reflexivity. Qed.
Definition same_rounding (a b : Z * (N * Z)) : bool :=
  (fst a =? fst b)%Z && (fst (snd a) =? fst (snd b))%N && (snd (snd a) =? snd (snd b))%Z.
Definition negated (a : Z * (N * Z)) : Z * (N * Z) := ((- fst a)%Z, snd a).
Definition gl_sym (n : nat) : bool :=
  forallb (fun i => same_rounding (rounded (snd (nth (n - i - 1) (gl_data n) (0, 0)%Q))) (negated (rounded (snd (nth i (gl_data n) (0, 0)%Q))))
                    && same_rounding (rounded (fst (nth (n - i - 1) (gl_data n) (0, 0)%Q))) (rounded (fst (nth i (gl_data n) (0, 0)%Q)))) (seq 0 n).
Lemma gl_symmetric : forallb gl_sym (seq 1 33) = true.
Proof. vm_compute. reflexivity. Qed.

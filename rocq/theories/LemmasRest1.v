(** Proofs: the divergence theorem for quadrature rules on the master triangle. *)
From Coq Require Import Reals List Bool Arith Lra Lia.
From Coquelicot Require Import Coquelicot.
From Verif Require Import ModelShape ModelBasis SpecBasis SpecStepper LemmasRK LemmasBasis LemmasBasis2 LemmasBasis3 LemmasBasis4 ModelStep SpecStep LemmasStep ModelInit SpecRest.
Import ListNotations.
Open Scope R_scope.

(** ** Powers *)
Definition moment (k : nat) : R := (1 - (-1) ^ S k) / INR (S k).
Lemma INR_S_nz : forall n, INR (S n) <> 0.
Proof. intros n. apply not_0_INR. lia. Qed.
Lemma int_pow : forall n a b, is_RInt (fun t : R => t ^ n) a b ((b ^ S n - a ^ S n) / INR (S n)).
Proof.
  intros n a b. pose proof (INR_S_nz n) as N.
  replace ((b ^ S n - a ^ S n) / INR (S n)) with (minus (b ^ S n * / INR (S n)) (a ^ S n * / INR (S n)))
    by (unfold minus, plus, opp; cbn -[INR pow]; field; exact N).
  apply (is_RInt_derive (fun t => t ^ S n * / INR (S n)) (fun t => t ^ n)).
  - intros x _. auto_derive; [exact I|]. cbn [pred]. field. exact N.
  - intros x _. apply (ex_derive_continuous (fun t : R => t ^ n)). auto_derive. exact I.
Qed.
Lemma int_moment : forall k, is_RInt (fun t : R => t ^ k) (-1) 1 (moment k).
Proof.
  intros k. apply (is_RInt_eq (fun t => t ^ k) _ (-1) 1 ((1 ^ S k - (-1) ^ S k) / INR (S k))); [apply int_pow|reflexivity|].
  unfold moment. rewrite pow1. reflexivity.
Qed.
Lemma RInt_uniq : forall (f : R -> R) a b u v, is_RInt f a b u -> is_RInt f a b v -> u = v.
Proof. intros f a b u v H1 H2. rewrite <- (is_RInt_unique f a b u H1). exact (is_RInt_unique f a b v H2). Qed.
Lemma triangle_unique : forall f u v, is_triangle_int f u -> is_triangle_int f v -> u = v.
Proof.
  intros f u v [A [A1 A2]] [B [B1 B2]].
  assert (E : forall z, -1 <= z <= 1 -> A z = B z) by (intros z Hz; exact (RInt_uniq _ _ _ _ _ (A1 z Hz) (B1 z Hz))).
  apply (RInt_uniq A (-1) 1); [exact A2|]. apply (is_RInt_ext B); [|exact B2].
  intros x Hx. symmetry. apply E. rewrite Rmin_left, Rmax_right in Hx by lra. lra.
Qed.
Lemma triangle_ext : forall f g u, (forall x y, -1 <= y <= 1 -> f x y = g x y) -> is_triangle_int f u -> is_triangle_int g u.
Proof.
  intros f g u E [A [A1 A2]]. exists A. split; [|exact A2]. intros y Hy.
  apply (is_RInt_ext (fun x => f x y)); [|exact (A1 y Hy)]. intros x _. apply E. exact Hy.
Qed.
Lemma m1_sq : forall n, (-1) ^ n * (-1) ^ n = 1.
Proof. intros n. rewrite <- Rpow_mult_distr. replace (-1 * -1) with 1 by ring. apply pow1. Qed.
Lemma opp_pow : forall x n, (- x) ^ n = (-1) ^ n * x ^ n.
Proof. intros x n. replace (- x) with (-1 * x) by ring. apply Rpow_mult_distr. Qed.

(** ** Monomials *)
Lemma dx_triangle : forall i j,
  is_triangle_int (fun x y => INR i * (x ^ (pred i) * y ^ j)) ((-1) ^ i * moment (i + j) - (-1) ^ i * ((-1) ^ j * moment j)).
Proof.
  intros i j. exists (fun y => ((- y) ^ i - (-1) ^ i) * y ^ j). split.
  - intros y _. destruct i as [|i].
    + apply (is_RInt_eq (fun x => 0 * x ^ 0) _ (-1) (- y) (0 * (((- y) ^ 1 - (-1) ^ 1) / INR 1))).
      * apply is_RInt_sc, int_pow.
      * intros x. cbn. ring.
      * cbn. field.
    + apply (is_RInt_eq (fun x => (INR (S i) * y ^ j) * x ^ i) _ (-1) (- y) ((INR (S i) * y ^ j) * (((- y) ^ S i - (-1) ^ S i) / INR (S i)))).
      * apply is_RInt_sc, int_pow.
      * intros x. cbn [pred]. ring.
      * field. apply INR_S_nz.
  - apply (is_RInt_eq (fun y => (-1) ^ i * y ^ (i + j) + - (-1) ^ i * y ^ j) _ (-1) 1 ((-1) ^ i * moment (i + j) + - (-1) ^ i * moment j)).
    + apply is_RInt_pl; apply is_RInt_sc, int_moment.
    + intros y. rewrite opp_pow, pow_add. ring.
    + assert (E : (-1) ^ j * moment j = moment j); [|rewrite E; ring].
      unfold moment. cbn [pow]. unfold Rdiv. rewrite <- Rmult_assoc. f_equal. pose proof (m1_sq j). nra.
Qed.
Lemma dy_triangle : forall i j,
  is_triangle_int (fun x y => INR j * (x ^ i * y ^ (pred j))) ((-1) ^ i * moment (i + j) - (-1) ^ j * moment i).
Proof.
  intros i j. pose proof (INR_S_nz i) as N. exists (fun y => INR j * y ^ (pred j) * (((- y) ^ S i - (-1) ^ S i) / INR (S i))). split.
  - intros y _. apply (is_RInt_eq (fun x => (INR j * y ^ (pred j)) * x ^ i) _ (-1) (- y) ((INR j * y ^ (pred j)) * (((- y) ^ S i - (-1) ^ S i) / INR (S i)))).
    + apply is_RInt_sc, int_pow.
    + intros x. ring.
    + reflexivity.
  - destruct j as [|j].
    + apply (is_RInt_eq (fun y => 0 * y ^ 0) _ (-1) 1 (0 * moment 0)); [apply is_RInt_sc, int_moment| |].
      * intros y. change (INR 0) with 0. field. exact N.
      * rewrite Nat.add_0_r. assert (E : (-1) ^ i * moment i = moment i); [|rewrite E; cbn; ring].
        unfold moment. cbn [pow]. unfold Rdiv. rewrite <- Rmult_assoc. f_equal. pose proof (m1_sq i). nra.
    + cbn [pred].
      apply (is_RInt_eq (fun y => (INR (S j) * (-1) ^ S i / INR (S i)) * y ^ (i + S j) + (- (INR (S j) * (-1) ^ S i / INR (S i))) * y ^ j) _ (-1) 1
        ((INR (S j) * (-1) ^ S i / INR (S i)) * moment (i + S j) + (- (INR (S j) * (-1) ^ S i / INR (S i))) * moment j)).
      * apply is_RInt_pl; apply is_RInt_sc, int_moment.
      * intros y. rewrite opp_pow, pow_add. cbn [pow]. field. exact N.
      * pose proof (INR_S_nz j) as Nj. pose proof (INR_S_nz (i + S j)) as Ns. unfold moment.
        rewrite !(S_INR (i + S j)), !plus_INR in *. rewrite !(S_INR i), !(S_INR j) in *.
        cbn [pow]. rewrite pow_add. cbn [pow]. pose proof (m1_sq i) as Ei. pose proof (m1_sq j) as Ej.
        set (a := (-1) ^ i) in *. set (b := (-1) ^ j) in *. field_simplify_eq; [|split; [exact N|split; [exact Ns|exact Nj]]].
        replace (a ^ 2) with 1 by (rewrite <- Ei; ring). ring.
Qed.

(** ** Polynomials as sums of monomials *)
Local Notation term := (R * (nat * nat))%type.
Definition tval (l : list term) (x y : R) : R := lsum l (fun t => fst t * (x ^ fst (snd t) * y ^ snd (snd t))).
Definition tdeg (d : nat) (l : list term) : Prop := List.Forall (fun t => (fst (snd t) + snd (snd t) <= d)%nat) l.
Definition tdx (l : list term) : list term := map (fun t => (fst t * INR (fst (snd t)), (pred (fst (snd t)), snd (snd t)))) l.
Definition tdy (l : list term) : list term := map (fun t => (fst t * INR (snd (snd t)), (fst (snd t), pred (snd (snd t))))) l.

Lemma lsum_cons : forall (A : Type) (x : A) l f, lsum (x :: l) f = f x + lsum l f.
Proof. reflexivity. Qed.
Lemma lsum_app : forall (A : Type) (l l' : list A) f, lsum (l ++ l') f = lsum l f + lsum l' f.
Proof. intros A l l' f. induction l as [|x l IH]; [unfold lsum; cbn; ring|]. rewrite <- app_comm_cons, !lsum_cons, IH. ring. Qed.
Lemma lsum_map : forall (A B : Type) (g : A -> B) l f, lsum (map g l) f = lsum l (fun x => f (g x)).
Proof. intros A B g l f. induction l as [|x l IH]; [reflexivity|]. cbn [map]. rewrite !lsum_cons, IH. reflexivity. Qed.
Lemma lsum_scal : forall (A : Type) (l : list A) c f, lsum l (fun x => c * f x) = c * lsum l f.
Proof. intros A l c f. induction l as [|x l IH]; [unfold lsum; cbn; ring|]. rewrite !lsum_cons, IH. ring. Qed.
Lemma lsum_add : forall (A : Type) (l : list A) f g, lsum l (fun x => f x + g x) = lsum l f + lsum l g.
Proof. intros A l f g. induction l as [|x l IH]; [unfold lsum; cbn; ring|]. rewrite !lsum_cons, IH. ring. Qed.

Lemma tval_cons : forall t l x y, tval (t :: l) x y = fst t * (x ^ fst (snd t) * y ^ snd (snd t)) + tval l x y.
Proof. reflexivity. Qed.
Lemma poly_terms : forall d f, poly_deg d f -> exists l, tdeg d l /\ forall x y, f x y = tval l x y.
Proof.
  intros d f H. induction H as [c| | |d f g _ [l [L1 L2]] _ [l' [L1' L2']]|d e f g _ [l [L1 L2]] _ [l' [L1' L2']]|d e f Hle _ [l [L1 L2]]|d f g E _ [l [L1 L2]]].
  - exists [(c, (0, 0)%nat)]. split; [repeat constructor|]. intros x y. unfold tval, lsum. cbn. ring.
  - exists [(1, (1, 0)%nat)]. split; [repeat constructor|]. intros x y. unfold tval, lsum. cbn. ring.
  - exists [(1, (0, 1)%nat)]. split; [repeat constructor|]. intros x y. unfold tval, lsum. cbn. ring.
  - exists (l ++ l'). split; [apply Forall_app; split; assumption|]. intros x y. unfold tval. rewrite lsum_app, L2, L2'. reflexivity.
  - exists (flat_map (fun t => map (fun t' => (fst t * fst t', (fst (snd t) + fst (snd t'), snd (snd t) + snd (snd t'))%nat)) l') l). split.
    + apply Forall_flat_map. apply Forall_forall. intros t Ht. apply Forall_map, Forall_forall. intros t' Ht'.
      pose proof (proj1 (Forall_forall _ _) L1 t Ht) as A1. pose proof (proj1 (Forall_forall _ _) L1' t' Ht') as A2. cbn [fst snd] in *. cbn beta in A1, A2. lia.
    + intros x y. rewrite L2, L2'. clear L1 L2 L1' L2'. unfold tval. induction l as [|t l IH]; [unfold lsum; cbn; ring|].
      cbn [flat_map]. rewrite lsum_app, lsum_cons, Rmult_plus_distr_r, IH. f_equal.
      rewrite lsum_map, <- lsum_scal. apply lsum_ext. intros t' _. cbn [fst snd]. rewrite !pow_add. ring.
  - exists l. split; [|exact L2]. eapply Forall_impl; [|exact L1]. cbn. intros; lia.
  - exists l. split; [exact L1|]. intros x y. rewrite <- E. apply L2.
Qed.

Lemma tdx_derive : forall l x y, is_derive (fun t => tval l t y) x (tval (tdx l) x y).
Proof.
  intros l x y. induction l as [|[c [i j]] l IH].
  - unfold tval, lsum. cbn. apply is_derive_c.
  - apply (is_derive_e (fun t => t ^ i * (c * y ^ j) + tval l t y) _ x (INR i * x ^ pred i * (c * y ^ j) + tval (tdx l) x y)).
    + apply is_derive_p; [|exact IH]. apply is_derive_k. auto_derive; [exact I|]. ring.
    + intros t. rewrite tval_cons. cbn [fst snd]. ring.
    + change (tdx ((c, (i, j)) :: l)) with ((c * INR i, (pred i, j)) :: tdx l). rewrite tval_cons. cbn [fst snd]. ring.
Qed.
Lemma tdy_derive : forall l x y, is_derive (fun t => tval l x t) y (tval (tdy l) x y).
Proof.
  intros l x y. induction l as [|[c [i j]] l IH].
  - unfold tval, lsum. cbn. apply is_derive_c.
  - apply (is_derive_e (fun t => t ^ j * (c * x ^ i) + tval l x t) _ y (INR j * y ^ pred j * (c * x ^ i) + tval (tdy l) x y)).
    + apply is_derive_p; [|exact IH]. apply is_derive_k. auto_derive; [exact I|]. ring.
    + intros t. rewrite tval_cons. cbn [fst snd]. ring.
    + change (tdy ((c, (i, j)) :: l)) with ((c * INR j, (i, pred j)) :: tdy l). rewrite tval_cons. cbn [fst snd]. ring.
Qed.

(** ** Quadrature *)
Section Rules.
  Context (r2 : list (R * point)) (r1 : list (R * R)).
  Definition quad2 (f : R -> R -> R) : R := rsum (length r2) (fun gp =>
    fst (nth gp r2 (0, (0, 0))) * f (fst (snd (nth gp r2 (0, (0, 0))))) (snd (snd (nth gp r2 (0, (0, 0)))))).
  Definition quad1 (f : R -> R) : R := rsum (length r1) (fun gp => fst (nth gp r1 (0, 0)) * f (snd (nth gp r1 (0, 0)))).
  Definition on_face (b : nat) (f : R -> R -> R) : R :=
    quad1 (fun z => f (fst (BoundaryToMasterCoordinates b z)) (snd (BoundaryToMasterCoordinates b z))).

  Lemma quad2_ext : forall f g, (forall x y, f x y = g x y) -> quad2 f = quad2 g.
  Proof. intros f g E. apply rsum_ext. intros gp _. rewrite E. reflexivity. Qed.
  Lemma quad2_tval : forall l, quad2 (tval l) = lsum l (fun t => fst t * quad2 (fun x y => x ^ fst (snd t) * y ^ snd (snd t))).
  Proof.
    intros l. induction l as [|t l IH].
    - unfold quad2, tval, lsum. cbn [map fold_right]. apply rsum_const0. intros; ring.
    - rewrite lsum_cons, <- IH. unfold quad2. rewrite <- rsum_scal, <- rsum_plus. apply rsum_ext. intros gp _.
      unfold tval. rewrite lsum_cons. ring.
  Qed.
  Lemma quad1_ext : forall f g, (forall x, f x = g x) -> quad1 f = quad1 g.
  Proof. intros f g E. apply rsum_ext. intros gp _. rewrite E. reflexivity. Qed.
  Lemma on_face_tval : forall b l, on_face b (tval l) = lsum l (fun t => fst t * on_face b (fun x y => x ^ fst (snd t) * y ^ snd (snd t))).
  Proof.
    intros b l. induction l as [|t l IH].
    - unfold on_face, quad1, tval, lsum. cbn [map fold_right]. apply rsum_const0. intros; ring.
    - rewrite lsum_cons, <- IH. unfold on_face, quad1. rewrite <- rsum_scal, <- rsum_plus. apply rsum_ext. intros gp _.
      unfold tval. rewrite lsum_cons. ring.
  Qed.

  Lemma quad1_pow : forall d k, exact1 d r1 -> (k <= d)%nat -> quad1 (fun z => z ^ k) = moment k.
  Proof. intros d k H Hk. exact (RInt_uniq _ _ _ _ _ (H k Hk) (int_moment k)). Qed.
  Lemma quad1_scal : forall c f, quad1 (fun z => c * f z) = c * quad1 f.
  Proof. intros c f. unfold quad1. rewrite <- rsum_scal. apply rsum_ext. intros. ring. Qed.
  Lemma face_mono : forall d i j, exact1 d r1 -> (i + j <= d)%nat ->
    on_face 0 (fun x y => x ^ i * y ^ j) = (-1) ^ i * moment (i + j) /\
    on_face 1 (fun x y => x ^ i * y ^ j) = (-1) ^ i * ((-1) ^ j * moment j) /\
    on_face 2 (fun x y => x ^ i * y ^ j) = (-1) ^ j * moment i.
  Proof.
    intros d i j H Hd. unfold on_face. cbn [BoundaryToMasterCoordinates fst snd]. repeat split.
    - rewrite <- (quad1_pow d) by (assumption || lia). rewrite <- quad1_scal. apply quad1_ext. intros z. rewrite opp_pow, pow_add. ring.
    - rewrite <- (quad1_pow d j) by (assumption || lia). rewrite <- !quad1_scal. apply quad1_ext. intros z. rewrite opp_pow. ring.
    - rewrite <- (quad1_pow d i) by (assumption || lia). rewrite <- quad1_scal. apply quad1_ext. intros z. ring.
  Qed.
  Lemma quad2_exact : forall d i j, exact2 d r2 -> (i + j <= d)%nat -> forall v, is_triangle_int (fun x y => x ^ i * y ^ j) v ->
    quad2 (fun x y => x ^ i * y ^ j) = v.
  Proof. intros d i j H Hd v Hv. exact (triangle_unique _ _ _ (H i j Hd) Hv). Qed.
  Lemma quad2_poly : forall d f v, exact2 d r2 -> poly_deg d f -> is_triangle_int f v -> quad2 f = v.
  Proof.
    intros d f v H P Hv. destruct (poly_terms d f P) as [l [L E]].
    rewrite (quad2_ext f (tval l) E), quad2_tval. apply (triangle_unique (tval l)).
    - clear P Hv E. induction L as [|[c [i j]] l Hd L IH].
      + exists (fun _ => 0). unfold tval, lsum. cbn [map fold_right]. split; [intros z _|].
        * apply (is_RInt_eq (fun x => 0 * x ^ 0) _ _ _ (0 * (((- z) ^ 1 - (-1) ^ 1) / INR 1))); [apply is_RInt_sc, int_pow|intros; ring|ring].
        * apply (is_RInt_eq (fun x => 0 * x ^ 0) _ _ _ (0 * moment 0)); [apply is_RInt_sc, int_moment|intros; ring|ring].
      + rewrite lsum_cons. cbn [fst snd] in *. unfold tval.
        apply (triangle_ext (fun x y => c * (x ^ i * y ^ j) + tval l x y)); [intros x y _; rewrite lsum_cons; reflexivity|].
        apply tint_plus; [|exact IH]. apply tint_scal. exact (H i j Hd).
    - apply (triangle_ext f); [intros; apply E|exact Hv].
  Qed.

  (** The divergence theorem. *)
  Lemma divergence : forall d f, exact2 d r2 -> exact1 (S d) r1 -> poly_deg (S d) f -> exists l,
    (forall x y, f x y = tval l x y) /\
    quad2 (tval (tdx l)) = on_face 0 f - on_face 1 f /\
    quad2 (tval (tdy l)) = on_face 0 f - on_face 2 f.
  Proof.
    intros d f H2 H1 P. destruct (poly_terms _ f P) as [l [L E]]. exists l. split; [exact E|].
    assert (F : forall b, on_face b f = on_face b (tval l)) by (intros b; apply quad1_ext; intros; apply E).
    rewrite !F, !on_face_tval, !quad2_tval. unfold tdx, tdy. rewrite !lsum_map. clear P E F.
    induction L as [|[c [i j]] l Hd L IH]; [unfold lsum; cbn; split; ring|].
    rewrite !lsum_cons. destruct IH as [IH1 IH2]. rewrite IH1, IH2. cbn [fst snd] in *.
    destruct (face_mono (S d) i j H1 Hd) as [-> [-> ->]].
    assert (X : INR i * quad2 (fun x y => x ^ pred i * y ^ j) = (-1) ^ i * moment (i + j) - (-1) ^ i * ((-1) ^ j * moment j)).
    { apply (triangle_unique (fun x y => INR i * (x ^ pred i * y ^ j))); [|apply dx_triangle]. destruct i as [|i].
      - change (INR 0) with 0. rewrite Rmult_0_l. pose proof (dx_triangle 0 j) as D.
        replace ((-1) ^ 0 * moment (0 + j) - (-1) ^ 0 * ((-1) ^ j * moment j)) with 0 in D; [exact D|].
        assert (E : (-1) ^ j * moment j = moment j); [|rewrite E; cbn; ring].
        unfold moment. cbn [pow]. unfold Rdiv. rewrite <- Rmult_assoc. f_equal. pose proof (m1_sq j). nra.
      - apply tint_scal. apply (H2 i j). lia. }
    assert (Y : INR j * quad2 (fun x y => x ^ i * y ^ pred j) = (-1) ^ i * moment (i + j) - (-1) ^ j * moment i).
    { apply (triangle_unique (fun x y => INR j * (x ^ i * y ^ pred j))); [|apply dy_triangle]. destruct j as [|j].
      - change (INR 0) with 0. rewrite Rmult_0_l. pose proof (dy_triangle i 0) as D.
        replace ((-1) ^ i * moment (i + 0) - (-1) ^ 0 * moment i) with 0 in D; [exact D|].
        rewrite Nat.add_0_r. assert (E : (-1) ^ i * moment i = moment i); [|rewrite E; cbn; ring].
        unfold moment. cbn [pow]. unfold Rdiv. rewrite <- Rmult_assoc. f_equal. pose proof (m1_sq i). nra.
      - apply tint_scal. apply (H2 i j). cbn [pred]. lia. }
    split; [rewrite (Rmult_assoc c (INR i)), X|rewrite (Rmult_assoc c (INR j)), Y]; ring.
  Qed.
End Rules.

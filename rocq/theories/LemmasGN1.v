(** Proofs: elimination of the element unknowns of the dispersive correction. *)
From Coq Require Import Reals List Arith Bool Lia Lra Permutation.
From Verif Require Import Num Outcome ModelSWE LemmasSWE ModelStep ModelIHDG ModelCond SpecStepper SpecStep SpecCond LemmasRK LemmasStep LemmasCond ModelGN.
Import ListNotations.
Open Scope R_scope.

(** ** Matrix times vector *)
Definition mul (n : nat) (A : nat -> nat -> R) (v : nat -> R) (i : nat) : R := rsum n (fun l => A i l * v l).
Lemma mul_ext : forall n A B u v i, (forall l, (l < n)%nat -> A i l = B i l) -> (forall l, (l < n)%nat -> u l = v l) -> mul n A u i = mul n B v i.
Proof. intros. unfold mul. apply rsum_ext. intros l Hl. rewrite H, H0 by exact Hl. reflexivity. Qed.
Lemma mul_mm : forall n k A B v i, mul n (mm k A B) v i = mul k A (mul n B v) i.
Proof.
  intros. unfold mul. rewrite (rsum_ext n _ (fun l => rsum k (fun p => A i p * (B p l * v l)))).
  - rewrite rsum_swap. apply rsum_ext. intros p _. rewrite rsum_scal. reflexivity.
  - intros l _. rewrite mm_eq, <- rsum_scal_r. apply rsum_ext. intros. ring.
Qed.
Lemma mul_minus2 : forall n A B v i, mul n (minus2 A B) v i = mul n A v i - mul n B v i.
Proof. intros. unfold mul, minus2. rewrite <- rsum_minus. apply rsum_ext. intros. ring. Qed.
Lemma mul_plus2 : forall n A B v i, mul n (plus2 A B) v i = mul n A v i + mul n B v i.
Proof. intros. unfold mul, plus2. rewrite <- rsum_plus. apply rsum_ext. intros. ring. Qed.
Lemma mul_minus : forall n A u v i, mul n A (fun l => u l - v l) i = mul n A u i - mul n A v i.
Proof. intros. unfold mul. rewrite <- rsum_minus. apply rsum_ext. intros. ring. Qed.
Lemma mul_plus : forall n A u v i, mul n A (fun l => u l + v l) i = mul n A u i + mul n A v i.
Proof. intros. unfold mul. rewrite <- rsum_plus. apply rsum_ext. intros. ring. Qed.
Lemma mul_opp : forall n A v i, mul n A (fun l => - v l) i = - mul n A v i.
Proof. intros. unfold mul. rewrite <- rsum_opp. apply rsum_ext. intros. ring. Qed.
Lemma mul_neg : forall n A v i, mul n (fun r c => - A r c) v i = - mul n A v i.
Proof. intros. unfold mul. rewrite <- rsum_opp. apply rsum_ext. intros. ring. Qed.
Lemma mul_sum : forall n A (k : nat) f i, mul n A (fun l => rsum k (fun b => f b l)) i = rsum k (fun b => mul n A (f b) i).
Proof.
  intros. unfold mul. rewrite (rsum_ext n _ (fun l => rsum k (fun b => A i l * f b l))) by (intros; rewrite rsum_scal; reflexivity).
  apply rsum_swap.
Qed.
Lemma mv_mul : forall n A v i, mv n A v i = mul n A v i.
Proof. intros. apply mv_eq. Qed.
Lemma mul_inverse : forall n A B v i, two_sided n A B -> (i < n)%nat -> mul n A (mul n B v) i = v i.
Proof. intros n A B v i H Hi. exact (two_sided_apply n A B v i H Hi). Qed.

(** ** One element *)
Section Element.
  Context (n1 n2 nh : nat) (A B C D Di : nat -> nat -> R) (r : nat -> R) (F G F' : nat -> nat -> nat -> R) (r' : nat -> R).
  Context (HD : two_sided n2 D Di).
  Let A' := minus2 A (mm n2 (mm n2 B Di) C).
  Context (HU : forall v x x', solves n1 A' v x -> solves n1 A' v x' -> agree n1 x x').
  Context (HF : forall b j, (b < 3)%nat -> (j < nh)%nat ->
             solves n1 A' (fun l => minus2 (F b) (mm n2 (mm n2 B Di) (G b)) l j) (fun i => F' b i j)).
  Context (Hr : solves n1 A' r r').
  Context (z : nat -> nat -> R).

  Definition fsum (M : nat -> nat -> nat -> R) (l : nat) : R := rsum 3 (fun b => mul nh (M b) (z b) l).
  Definition el1 (x y : nat -> R) : Prop := forall l, (l < n1)%nat -> mul n1 A x l + mul n2 B y l + fsum F l = r l.
  Definition el2 (x y : nat -> R) : Prop := forall l, (l < n2)%nat -> mul n1 C x l + mul n2 D y l + fsum G l = 0.
  Definition x_of (l : nat) : R := r' l - fsum F' l.
  Definition y_of (l : nat) : R := - mul n2 Di (fun p => mul n1 C x_of p + fsum G p) l.

  Lemma schur_solves : solves n1 A' (fun l => r l - fsum (fun b => minus2 (F b) (mm n2 (mm n2 B Di) (G b))) l) x_of.
  Proof.
    intros l Hl. change (mul n1 A' x_of l = r l - fsum (fun b => minus2 (F b) (mm n2 (mm n2 B Di) (G b))) l). unfold x_of.
    rewrite mul_minus. f_equal; [apply Hr; exact Hl|].
    unfold fsum at 1. rewrite mul_sum. unfold fsum. apply rsum_ext. intros b Hb.
    rewrite <- mul_mm. apply mul_ext; [|reflexivity]. intros j Hj. rewrite mm_eq. exact (HF b j Hb Hj l Hl).
  Qed.
  Lemma fsum_mm : forall k P M l, fsum (fun b => mm k P (M b)) l = mul k P (fsum M) l.
  Proof. intros. unfold fsum. rewrite mul_sum. apply rsum_ext. intros. apply mul_mm. Qed.
  Lemma fsum_minus2 : forall M P l, fsum (fun b => minus2 (M b) (P b)) l = fsum M l - fsum P l.
  Proof. intros. unfold fsum. rewrite <- rsum_minus. apply rsum_ext. intros. apply mul_minus2. Qed.

  Lemma el_x_y : el1 x_of y_of /\ el2 x_of y_of.
  Proof.
    split; intros l Hl.
    - pose proof (schur_solves l Hl) as S. change (mul n1 A' x_of l = r l - fsum (fun b => minus2 (F b) (mm n2 (mm n2 B Di) (G b))) l) in S.
      unfold A' in S. rewrite mul_minus2, !mul_mm, fsum_minus2, fsum_mm in S. unfold y_of. rewrite mul_opp.
      rewrite (mul_ext n2 B B (mul n2 Di (fun p => mul n1 C x_of p + fsum G p)) (fun l => mul n2 Di (mul n1 C x_of) l + mul n2 Di (fsum G) l)) by (intros; first [apply mul_plus|reflexivity]).
      rewrite mul_plus. rewrite mul_mm in S. lra.
    - unfold y_of. rewrite mul_opp, (mul_inverse _ _ _ _ _ HD Hl). lra.
  Qed.
  Lemma el_unique : forall x y, el1 x y -> el2 x y -> agree n1 x x_of /\ agree n2 y y_of.
  Proof.
    intros x y E1 E2.
    assert (Y : forall l, (l < n2)%nat -> y l = - mul n2 Di (fun p => mul n1 C x p + fsum G p) l).
    { intros l Hl. rewrite <- (mul_inverse _ _ _ y l (two_sided_sym _ _ _ HD) Hl). rewrite <- mul_opp.
      apply mul_ext; [reflexivity|]. intros p Hp. specialize (E2 p Hp). lra. }
    assert (X : agree n1 x x_of).
    { refine (HU _ x x_of _ schur_solves). intros l Hl.
      change (mul n1 A' x l = r l - fsum (fun b => minus2 (F b) (mm n2 (mm n2 B Di) (G b))) l).
      unfold A'. rewrite mul_minus2, !mul_mm, fsum_minus2, fsum_mm. specialize (E1 l Hl).
      rewrite (mul_ext n2 B B y (fun p => - (mul n2 Di (mul n1 C x) p + mul n2 Di (fsum G) p))) in E1
        by (intros; first [rewrite Y by assumption; rewrite mul_plus; reflexivity|reflexivity]).
      rewrite mul_opp, mul_plus in E1. rewrite mul_mm. lra. }
    split; [exact X|]. intros l Hl. rewrite Y by exact Hl. unfold y_of. f_equal. apply mul_ext; [reflexivity|].
    intros p Hp. f_equal. apply mul_ext; [reflexivity|exact X].
  Qed.

  (** What the element adds to an edge equation. *)
  Lemma couple_sum : forall K L k,
    mul n1 K x_of k + mul n2 L y_of k =
    mul n1 (minus2 K (mm n2 (mm n2 L Di) C)) r' k -
    rsum 3 (fun b => mul nh (plus2 (mm n2 (mm n2 L Di) (G b)) (mm n1 (minus2 K (mm n2 (mm n2 L Di) C)) (F' b))) (z b) k).
  Proof.
    intros K L k.
    rewrite (rsum_ext 3 _ (fun b => mul nh (mm n2 (mm n2 L Di) (G b)) (z b) k + mul nh (mm n1 (minus2 K (mm n2 (mm n2 L Di) C)) (F' b)) (z b) k))
      by (intros; apply mul_plus2).
    rewrite rsum_plus. change (rsum 3 (fun b => mul nh (mm n2 (mm n2 L Di) (G b)) (z b) k)) with (fsum (fun b => mm n2 (mm n2 L Di) (G b)) k).
    change (rsum 3 (fun b => mul nh (mm n1 (minus2 K (mm n2 (mm n2 L Di) C)) (F' b)) (z b) k)) with (fsum (fun b => mm n1 (minus2 K (mm n2 (mm n2 L Di) C)) (F' b)) k).
    rewrite !fsum_mm.
    assert (E : mul n1 (minus2 K (mm n2 (mm n2 L Di) C)) r' k - mul n1 (minus2 K (mm n2 (mm n2 L Di) C)) (fsum F') k
       = mul n1 (minus2 K (mm n2 (mm n2 L Di) C)) x_of k) by (unfold x_of; rewrite mul_minus; reflexivity).
    match goal with |- _ = ?a - (?b + ?c) => replace (a - (b + c)) with (a - c - b) by ring end. rewrite E.
    rewrite mul_minus2, !mul_mm. unfold y_of. rewrite mul_opp.
    rewrite (mul_ext n2 L L (mul n2 Di (fun p => mul n1 C x_of p + fsum G p)) (fun l => mul n2 Di (mul n1 C x_of) l + mul n2 Di (fsum G) l)) by (intros; first [apply mul_plus|reflexivity]).
    rewrite mul_plus. ring.
  Qed.
End Element.

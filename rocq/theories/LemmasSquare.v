(** Proofs: square systems with trivial kernel can be solved. *)
From Coq Require Import Reals List Arith Bool Lia Lra.
From Verif Require Import Num Outcome ModelSWE LemmasSWE ModelCond SpecStepper SpecCond LemmasRK LemmasStep LemmasCond.
Import ListNotations.
Open Scope R_scope.

(** ** Trivial kernel means invertible *)
Definition skip (p c : nat) : nat := if Nat.ltb c p then c else S c.
Lemma rsum_skip : forall n p f, (p < S n)%nat -> rsum (S n) f = f p + rsum n (fun c => f (skip p c)).
Proof.
  induction n as [|n IH]; intros p f Hp.
  - replace p with 0%nat by lia. cbn. ring.
  - destruct (Nat.eq_dec p (S n)) as [->|N].
    + cbn [rsum]. rewrite (rsum_ext n (fun c => f (skip (S n) c)) f).
      * unfold skip. destruct (Nat.ltb_spec n (S n)); [ring|lia].
      * intros c Hc. unfold skip. destruct (Nat.ltb_spec c (S n)); [reflexivity|lia].
    + change (rsum (S (S n)) f) with (rsum (S n) f + f (S n)). rewrite (IH p f) by lia. cbn [rsum].
      unfold skip at 3. destruct (Nat.ltb_spec n p); [lia|ring].
Qed.
Lemma zero_or_not : forall n (f : nat -> R), (forall c, (c < n)%nat -> f c = 0) \/ exists c, (c < n)%nat /\ f c <> 0.
Proof.
  induction n as [|n IH]; intros f; [left; lia|]. destruct (IH f) as [H|(c & H1 & H2)].
  - destruct (Req_EM_T (f n) 0) as [E|E].
    + left. intros c Hc. destruct (Nat.eq_dec c n) as [->|]; [exact E|apply H; lia].
    + right. exists n. split; [lia|exact E].
  - right. exists c. split; [lia|exact H2].
Qed.
Lemma kernel_vector : forall k n M, (k < n)%nat -> exists x, (exists j, (j < n)%nat /\ x j <> 0) /\ forall r, (r < k)%nat -> rsum n (fun c => M r c * x c) = 0.
Proof.
  induction k as [|k IH]; intros n M Hk.
  - exists (fun _ => 1). split; [exists 0%nat; split; [exact Hk|lra]|lia].
  - destruct (zero_or_not n (M k)) as [Z|(p & Hp & Np)].
    + destruct (IH n M ltac:(lia)) as (x & Hx & SS). exists x. split; [exact Hx|]. intros r Hr. destruct (Nat.eq_dec r k) as [->|]; [|apply SS; lia].
      apply rsum_const0. intros c Hc. rewrite Z by exact Hc. ring.
    + destruct n as [|n]; [lia|]. destruct (IH n (fun r c => M r (skip p c) - M r p * M k (skip p c) / M k p) ltac:(lia)) as (x & (j & Hj & Nj) & SS).
      set (s := rsum n (fun c => M k (skip p c) * x c)).
      assert (SK : forall c, skip p c <> p) by (intros c; unfold skip; destruct (Nat.ltb_spec c p); lia).
      set (X := fun c => if Nat.eqb c p then - s / M k p else x (if Nat.ltb c p then c else (c - 1)%nat)).
      assert (XS : forall c, X (skip p c) = x c).
      { intros c. unfold X. destruct (Nat.eqb_spec (skip p c) p) as [E|_]; [exfalso; exact (SK c E)|]. f_equal. unfold skip. destruct (Nat.ltb_spec c p) as [L|L].
        - destruct (Nat.ltb_spec c p); lia.
        - destruct (Nat.ltb_spec (S c) p); lia. }
      assert (XP : X p = - s / M k p) by (unfold X; rewrite Nat.eqb_refl; reflexivity).
      assert (Row : forall r, rsum (S n) (fun c => M r c * X c) = M r p * (- s / M k p) + rsum n (fun c => M r (skip p c) * x c)).
      { intros r. rewrite (rsum_skip n p) by exact Hp. rewrite XP. f_equal. apply rsum_ext. intros c _. rewrite XS. reflexivity. }
      exists X. split.
      * exists (skip p j). split; [unfold skip; destruct (Nat.ltb_spec j p); lia|rewrite XS; exact Nj].
      * intros r Hr. rewrite Row. destruct (Nat.eq_dec r k) as [->|N]; [fold s; field; exact Np|].
        specialize (SS r ltac:(lia)). rewrite (rsum_ext n _ (fun c => M r (skip p c) * x c - M r p / M k p * (M k (skip p c) * x c))) in SS by (intros; field; exact Np).
        rewrite rsum_minus, rsum_scal in SS. fold s in SS. rewrite <- SS. field. exact Np.
Qed.
Lemma injective_solvable : forall n M, (forall x, solves n M (fun _ => 0) x -> agree n x (fun _ => 0)) -> forall b, exists x, solves n M b x.
Proof.
  intros n M HI b. destruct (kernel_vector n (S n) (fun r c => if Nat.ltb c n then M r c else b r) ltac:(lia)) as (x & (j & Hj & Nj) & SS).
  assert (Row : forall r, (r < n)%nat -> rsum n (fun c => M r c * x c) + b r * x n = 0).
  { intros r Hr. rewrite <- (SS r Hr). cbn [rsum]. destruct (Nat.ltb_spec n n); [lia|]. f_equal. apply rsum_ext. intros c Hc. destruct (Nat.ltb_spec c n); [reflexivity|lia]. }
  destruct (Req_EM_T (x n) 0) as [Z|NZ].
  - exfalso. apply Nj. destruct (Nat.eq_dec j n) as [->|]; [exact Z|]. apply (HI x); [|lia]. intros r Hr. specialize (Row r Hr). rewrite Z in Row. lra.
  - exists (fun c => - x c / x n). intros r Hr. specialize (Row r Hr).
    rewrite (rsum_ext n _ (fun c => - / x n * (M r c * x c))) by (intros; field; exact NZ). rewrite rsum_scal.
    replace (rsum n (fun c => M r c * x c)) with (- (b r * x n)) by lra. field. exact NZ.
Qed.
(** A right inverse of an injective matrix is two-sided. *)
Lemma choose_columns : forall n (P : nat -> (nat -> R) -> Prop), (forall j, (j < n)%nat -> exists x, P j x) -> exists X : nat -> nat -> R, forall j, (j < n)%nat -> P j (X j).
Proof.
  induction n as [|n IH]; intros P H; [exists (fun _ _ => 0); lia|]. destruct (IH P ltac:(intros; apply H; lia)) as (X & HX). destruct (H n ltac:(lia)) as (x & Hx).
  exists (fun j => if Nat.eqb j n then x else X j). intros j Hj. destruct (Nat.eqb_spec j n) as [->|]; [exact Hx|apply HX; lia].
Qed.
Lemma injective_inverse : forall n M, (forall x, solves n M (fun _ => 0) x -> agree n x (fun _ => 0)) -> exists B, two_sided n M B.
Proof.
  intros n M HI. destruct (choose_columns n (fun j x => solves n M (fun r => if Nat.eqb r j then 1 else 0) x)) as (X & HX); [intros j _; apply injective_solvable; exact HI|].
  exists (fun r c => X c r). assert (R1 : forall i j, (i < n)%nat -> (j < n)%nat -> rsum n (fun l => M i l * X j l) = if Nat.eqb i j then 1 else 0) by (intros i j Hi Hj; exact (HX j Hj i Hi)).
  assert (L1 : forall i j, (i < n)%nat -> (j < n)%nat -> rsum n (fun l => X l i * M l j) = if Nat.eqb i j then 1 else 0).
  { intros i j Hi Hj. apply Rminus_diag_uniq. apply (HI (fun i => rsum n (fun l => X l i * M l j) - (if Nat.eqb i j then 1 else 0))); [|exact Hi]. clear i Hi.
    intros r Hr. rewrite (rsum_ext n _ (fun c => rsum n (fun l => M r c * (X l c * M l j)) - M r c * (if Nat.eqb c j then 1 else 0))) by (intros; rewrite rsum_scal; ring).
    rewrite rsum_minus, rsum_swap. rewrite (rsum_ext n (fun l => rsum n (fun c => M r c * (X l c * M l j))) (fun l => if Nat.eqb l r then M l j else 0)).
    - rewrite (rsum_pick n r (fun l => M l j)) by exact Hr. rewrite (rsum_ext n _ (fun c => if Nat.eqb c j then M r c else 0)) by (intros c _; destruct (Nat.eqb c j); ring).
      rewrite (rsum_pick n j (fun c => M r c)) by exact Hj. ring.
    - intros l Hl. rewrite (rsum_ext n _ (fun c => M l j * (M r c * X l c))) by (intros; ring). rewrite rsum_scal, R1 by assumption. rewrite Nat.eqb_sym. destruct (Nat.eqb l r); ring. }
  intros i j Hi Hj. split; [apply R1|apply L1]; assumption.
Qed.

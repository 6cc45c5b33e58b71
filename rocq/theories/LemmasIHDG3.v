(** Entries of the implicit HDG Newton system, kernel by kernel. *)
From Coq Require Import Reals List Bool Arith Lra Lia.
From Coquelicot Require Import Coquelicot.
From Verif Require Import Num ModelSWE ModelShape ModelBasis ModelJac SpecJac SpecStepper LemmasSWE LemmasRK LemmasBasis2 LemmasBasis3 LemmasBasis4
  ModelStep LemmasStep ModelIHDG SpecIHDG LemmasIHDG1 LemmasIHDG2.
Import ListNotations.
Open Scope R_scope.

(** ** Expansions with one coefficient changed *)
Lemma vmsum_bump : forall n c x d t, (d < n)%nat ->
  vmsum n (fun i => (if (i =? d)%nat then t else c i) * x i) = vmsum n (fun i => c i * x i) + (t - c d) * x d.
Proof.
  intros n c x d t. induction n as [|n IH]; intros H; [lia|]. cbn [vmsum].
  destruct (Nat.eq_dec d n) as [E|N].
  - subst d. rewrite Nat.eqb_refl. rewrite (vmsum_ext n _ (fun i => c i * x i)); [ring|].
    intros i Hi. assert (K : (i =? n)%nat = false) by (apply Nat.eqb_neq; lia). rewrite K. reflexivity.
  - assert (K : (n =? d)%nat = false) by (apply Nat.eqb_neq; lia). rewrite K, IH by lia. ring.
Qed.
Lemma bump_other : forall q e v d t e', e' <> e -> forall a i, bump q e v d t e' a i = q e' a i.
Proof. intros q e v d t e' N a i. unfold bump. apply Nat.eqb_neq in N. rewrite N. reflexivity. Qed.
Lemma row_bump : forall n (x : nat -> R) q e v d t, (v < 3)%nat -> (d < n)%nat ->
  let row (c : coeffs) var := vmsum n (fun i => c var i * x i) in
  V3 (row (bump q e v d t e) 0%nat) (row (bump q e v d t e) 1%nat) (row (bump q e v d t e) 2%nat) =
  vset (V3 (row (q e) 0%nat) (row (q e) 1%nat) (row (q e) 2%nat)) v
       (vget (V3 (row (q e) 0%nat) (row (q e) 1%nat) (row (q e) 2%nat)) v + (t - q e v d) * x d).
Proof.
  intros n x q e v d t Hv Hd row.
  assert (S : row (bump q e v d t e) v = row (q e) v + (t - q e v d) * x d).
  { unfold row, bump. rewrite !Nat.eqb_refl. cbn [andb]. exact (vmsum_bump n (q e v) x d t Hd). }
  assert (O : forall a, a <> v -> row (bump q e v d t e) a = row (q e) a).
  { intros a N. unfold row, bump. apply vmsum_ext. intros i _. apply Nat.eqb_neq in N. rewrite N, andb_false_r. reflexivity. }
  revert v Hv S O. intros [|[|[|v]]] Hv S O; try lia; cbn [vset vget ze qx qy]; rewrite S, !O by discriminate; reflexivity.
Qed.
Lemma row_other : forall n (x : nat -> R) q e v d t e', e' <> e -> forall a,
  vmsum n (fun i => bump q e v d t e' a i * x i) = vmsum n (fun i => q e' a i * x i).
Proof. intros n x q e v d t e' N a. apply vmsum_ext. intros i _. rewrite bump_other by exact N. reflexivity. Qed.

Section Bumps.
  Context (m : mesh) (eaux : nat -> nat -> aux3 R).
  Lemma expand_bump : forall q e v d t z, (v < 3)%nat -> (d < ndof m)%nat ->
    expand m (bump q e v d t e) z = vset (expand m (q e) z) v (vget (expand m (q e) z) v + (t - q e v d) * GetPhi d z).
  Proof. intros q e v d t z Hv Hd. exact (row_bump (ndof m) (fun i => GetPhi i z) q e v d t Hv Hd). Qed.
  Lemma expand_other : forall q e v d t e' z, e' <> e -> expand m (bump q e v d t e') z = expand m (q e') z.
  Proof.
    intros q e v d t e' z N. unfold expand. cbv zeta.
    rewrite !(row_other (ndof m) (fun i => GetPhi i z) q e v d t e' N). reflexivity.
  Qed.
  Lemma edge_bump : forall qh ed v d t gp, (v < 3)%nat -> (d < nedof m)%nat ->
    u_edge m (bump qh ed v d t) ed gp =
    vset (u_edge m qh ed gp) v (vget (u_edge m qh ed gp) v + (t - qh ed v d) * legendre_phi d (z1 m gp)).
  Proof. intros qh ed v d t gp Hv Hd. exact (row_bump (nedof m) (fun i => legendre_phi i (z1 m gp)) qh ed v d t Hv Hd). Qed.
  Lemma edge_other : forall qh ed v d t ed' gp, ed' <> ed -> u_edge m (bump qh ed v d t) ed' gp = u_edge m qh ed' gp.
  Proof.
    intros qh ed v d t ed' gp N. unfold u_edge. cbv zeta.
    rewrite !(row_other (nedof m) (fun i => legendre_phi i (z1 m gp)) qh ed v d t ed' N). reflexivity.
  Qed.
End Bumps.

(** ** Derivatives of sums *)
Lemma vmsum_der : forall n (f : nat -> R -> R) (d : nat -> R) x, (forall k, (k < n)%nat -> is_derive (f k) x (d k)) ->
  is_derive (fun t => vmsum n (fun k => f k t)) x (vmsum n d).
Proof.
  induction n as [|n IH]; intros f d x H; cbn [vmsum]; [apply is_derive_c|].
  apply is_derive_p; [apply IH; intros; apply H; lia|apply H; lia].
Qed.
Lemma rsum_der : forall n (f : nat -> R -> R) (d : nat -> R) x, (forall k, (k < n)%nat -> is_derive (f k) x (d k)) ->
  is_derive (fun t => rsum n (fun k => f k t)) x (rsum n d).
Proof.
  intros n f d x H. refine (is_derive_e _ _ _ _ _ (vmsum_der n f d x H) _ _); [intros y|]; apply vmsum_rsum.
Qed.
(** The workhorse: a quadrature sum of a function of the state, along one coefficient. *)
Lemma sum_line : forall n (f : nat -> vec3 R -> R) (u : nat -> vec3 R) (D : nat -> nat -> R) (W c : nat -> R) v t0, (v < 3)%nat ->
  (forall gp, (gp < n)%nat -> vgrad (f gp) (u gp) (D gp)) ->
  is_derive (fun t => vmsum n (fun gp => f gp (vset (u gp) v (vget (u gp) v + (t - t0) * c gp)) * W gp)) t0
    (vmsum n (fun gp => D gp v * c gp * W gp)).
Proof.
  intros n f u D W c v t0 Hv H. apply vmsum_der. intros k Hk. apply is_derive_k. apply (grad_line (f k) (u k) (D k)); [exact Hv|exact (H k Hk)].
Qed.

(** ** Folds over kernels *)
Section Folds.
  Context {St : Type} (get : St -> R).
  Lemma fold_keep : forall (step : St -> nat -> St) l s, (forall s x, In x l -> get (step s x) = get s) -> get (fold_left step l s) = get s.
  Proof.
    intros step l. induction l as [|x l IH]; intros s H; [reflexivity|]. cbn [fold_left].
    rewrite IH by (intros s' y Hy; apply H; right; exact Hy). apply H. left. reflexivity.
  Qed.
  Lemma fold_set : forall (step : St -> nat -> St) c x l s, NoDup l -> In x l -> (forall s, get (step s x) = c) ->
    (forall s y, In y l -> y <> x -> get (step s y) = get s) -> get (fold_left step l s) = c.
  Proof.
    intros step c x l. induction l as [|y l IH]; intros s ND Hx Hc Ho; [destruct Hx|]. cbn [fold_left].
    inversion ND as [|? ? Hn ND']; subst. destruct (Nat.eq_dec y x) as [E|N].
    - subst y. rewrite fold_keep; [apply Hc|]. intros s' z Hz. apply Ho; [right; exact Hz|]. intros E. subst z. contradiction.
    - apply IH; [exact ND'| |exact Hc|].
      + destruct Hx as [E|Hx]; [congruence|exact Hx].
      + intros s' z Hz. apply Ho. right. exact Hz.
  Qed.
  Lemma fold_acc : forall (step : St -> nat -> St) (f : nat -> R) n k s, (forall s x, (k <= x < k + n)%nat -> get (step s x) = get s + f x) ->
    get (fold_left step (seq k n) s) = get s + rsum n (fun i => f (k + i)%nat).
  Proof.
    intros step f n. induction n as [|n IH]; intros k s H; [cbn; ring|]. cbn [seq fold_left].
    rewrite IH by (intros s' x Hx; apply H; lia). rewrite H by lia. rewrite rsum_front. rewrite Nat.add_0_r.
    rewrite (rsum_ext n (fun i => f (S k + i)%nat) (fun i => f (k + S i)%nat)); [ring|]. intros i _. f_equal. lia.
  Qed.
End Folds.

Lemma upd_get : forall (A : Type) (f : nat -> A) k x j, upd f k x j = if (j =? k)%nat then x else f j.
Proof.
  intros A f k x j. destruct (Nat.eqb_spec j k) as [E|N]; [subst; apply upd_same|apply upd_other; congruence].
Qed.

From Coq Require Import ZArith NArith List Bool Arith Reals Sorted Permutation Lia Lra.
From Verif Require Import Num Outcome ModelMesh ModelPart SpecPart.
Import ListNotations.

(** ** Maps *)
Section Maps.
  Context {V : Type}.
  Implicit Types m : list (N * V).
  Lemma afind_In : forall m k v, afind m k = Some v -> In (k, v) m.
  Proof.
    induction m as [|[j w] m IH]; intros k v H; [discriminate|]. cbn in H.
    destruct (N.eqb_spec k j) as [->|]; [injection H as ->; left; reflexivity | right; apply IH, H].
  Qed.
  Lemma afind_None : forall m k, afind m k = None <-> ~ In k (map fst m).
  Proof.
    induction m as [|[j w] m IH]; intros k; cbn; [tauto|].
    destruct (N.eqb_spec k j) as [->|n]; [split; [discriminate | tauto]|]. rewrite IH. split; [intros H [E|E]; [congruence | tauto] | tauto].
  Qed.
  Lemma afind_keys : forall m k, In k (map fst m) -> exists v, afind m k = Some v.
  Proof.
    intros m k H. destruct (afind m k) as [v|] eqn:E; [exists v; reflexivity|].
    apply afind_None in E. contradiction.
  Qed.
  Lemma In_afind : forall m k v, NoDup (map fst m) -> In (k, v) m -> afind m k = Some v.
  Proof.
    induction m as [|[j w] m IH]; intros k v Hn Hi; [destruct Hi|]. cbn in Hn |- *. inversion Hn as [|? ? H1 H2]; subst.
    destruct Hi as [E|Hi].
    - injection E as -> ->. rewrite N.eqb_refl. reflexivity.
    - destruct (N.eqb_spec k j) as [->|]; [|apply IH; assumption].
      exfalso. apply H1. apply (in_map fst) in Hi. exact Hi.
  Qed.
  Lemma aset_find : forall m k v j, afind (aset m k v) j = if (j =? k)%N then Some v else afind m j.
  Proof.
    induction m as [|[i w] m IH]; intros k v j; cbn; [destruct (j =? k)%N; reflexivity|].
    destruct (N.eqb_spec k i) as [->|n]; cbn.
    - destruct (j =? i)%N; reflexivity.
    - rewrite IH. destruct (N.eqb_spec j i) as [->|]; [|reflexivity].
      destruct (N.eqb_spec i k); [congruence | reflexivity].
  Qed.
  Lemma aset_keys : forall m k v, In k (map fst m) -> map fst (aset m k v) = map fst m.
  Proof.
    induction m as [|[i w] m IH]; intros k v H; [destruct H|]. cbn.
    destruct (N.eqb_spec k i) as [->|n]; cbn; [reflexivity|]. f_equal. apply IH. destruct H as [H|H]; [cbn in H; congruence | exact H].
  Qed.
  Lemma aset_keys_new : forall m k v, ~ In k (map fst m) -> aset m k v = m ++ [(k, v)].
  Proof.
    induction m as [|[i w] m IH]; intros k v H; [reflexivity|]. cbn.
    destruct (N.eqb_spec k i) as [->|n]; cbn; [exfalso; apply H; left; reflexivity|]. f_equal. apply IH. intros K. apply H. right. exact K.
  Qed.
  Lemma aset_NoDup : forall m k v, NoDup (map fst m) -> NoDup (map fst (aset m k v)).
  Proof.
    intros m k v H. destruct (in_dec N.eq_dec k (map fst m)) as [i|n].
    - rewrite aset_keys by assumption. exact H.
    - rewrite aset_keys_new by assumption. rewrite map_app. cbn.
      apply Permutation_NoDup with (k :: map fst m); [apply Permutation_cons_append | constructor; assumption].
  Qed.
  Lemma aset_In : forall m k v j w, NoDup (map fst m) -> (In (j, w) (aset m k v) <-> (j = k /\ w = v) \/ (j <> k /\ In (j, w) m)).
  Proof.
    intros m k v j w Hn. pose proof (aset_NoDup m k v Hn) as Hn'. split.
    - intros H. apply In_afind in H; [|assumption]. rewrite aset_find in H. destruct (N.eqb_spec j k) as [->|].
      + injection H as ->. auto.
      + right. split; [assumption | apply afind_In, H].
    - intros H. apply afind_In. rewrite aset_find. destruct H as [[-> ->]|[n H]].
      + rewrite N.eqb_refl. reflexivity.
      + destruct (N.eqb_spec j k); [contradiction | apply In_afind; assumption].
  Qed.
  Lemma afind_app : forall m1 m2 k, afind (m1 ++ m2) k = match afind m1 k with Some v => Some v | None => afind m2 k end.
  Proof. induction m1 as [|[j w] m1 IH]; intros m2 k; [reflexivity|]. cbn. destruct (k =? j)%N; [reflexivity | apply IH]. Qed.
  Lemma afind_perm : forall m1 m2 k, NoDup (map fst m1) -> Permutation m1 m2 -> afind m1 k = afind m2 k.
  Proof.
    intros m1 m2 k Hn Hp. assert (Hn2 : NoDup (map fst m2)) by (eapply Permutation_NoDup; [apply Permutation_map, Hp | exact Hn]).
    destruct (afind m1 k) as [v|] eqn:E.
    - symmetry. apply In_afind; [exact Hn2|]. apply (Permutation_in _ Hp). apply afind_In, E.
    - symmetry. apply afind_None. apply afind_None in E. intros K. apply E.
      apply (Permutation_in _ (Permutation_sym (Permutation_map fst Hp))). exact K.
  Qed.
End Maps.

Lemma pair_eqb_spec : forall a b, reflect (a = b) (pair_eqb a b).
Proof.
  intros [a b] [c d]. unfold pair_eqb. cbn. destruct (N.eqb_spec a c), (N.eqb_spec b d); cbn; constructor; congruence.
Qed.
Lemma existsb_pair : forall e s, existsb (pair_eqb e) s = true <-> In e s.
Proof.
  intros e s. rewrite existsb_exists. split.
  - intros (x & H & E). destruct (pair_eqb_spec e x); [subst; exact H | discriminate].
  - intros H. exists e. split; [exact H|]. destruct (pair_eqb_spec e e); [reflexivity | contradiction].
Qed.
Lemma existsb_N : forall e s, existsb (N.eqb e) s = true <-> In e s.
Proof.
  intros e s. rewrite existsb_exists. split.
  - intros (x & H & E). apply N.eqb_eq in E. subst. exact H.
  - intros H. exists e. split; [exact H | apply N.eqb_refl].
Qed.
Lemma padd_In : forall s e x, In x (padd s e) <-> x = e \/ In x s.
Proof.
  intros s e x. unfold padd. destruct (existsb (pair_eqb e) s) eqn:E.
  - apply existsb_pair in E. split; [tauto|]. intros [->|H]; assumption.
  - rewrite in_app_iff. cbn. split; [intros [H|[H|[]]]; auto | intros [->|H]; auto].
Qed.
Lemma NoDup_snoc : forall A (l : list A) x, NoDup l -> ~ In x l -> NoDup (l ++ [x]).
Proof.
  intros A l x H N. apply Permutation_NoDup with (x :: l); [apply Permutation_cons_append | constructor; assumption].
Qed.
Lemma padd_NoDup : forall s e, NoDup s -> NoDup (padd s e).
Proof.
  intros s e H. unfold padd. destruct (existsb (pair_eqb e) s) eqn:E; [exact H|].
  apply NoDup_snoc; [exact H|]. intros K. apply existsb_pair in K. congruence.
Qed.
Lemma fold_padd : forall l s, NoDup s -> NoDup (fold_left padd l s) /\ forall x, In x (fold_left padd l s) <-> In x s \/ In x l.
Proof.
  induction l as [|e l IH]; intros s H; cbn; [split; [exact H | tauto]|].
  destruct (IH (padd s e) (padd_NoDup s e H)) as [A B]. split; [exact A|]. intros x. rewrite B, padd_In. intuition.
Qed.

Section PMaps.
  Context {V : Type}.
  Implicit Types m : list ((N * N) * V).
  Lemma pfind_In : forall m k v, pfind m k = Some v -> In (k, v) m.
  Proof.
    induction m as [|[j w] m IH]; intros k v H; [discriminate|]. cbn in H.
    destruct (pair_eqb_spec k j) as [->|]; [injection H as ->; left; reflexivity | right; apply IH, H].
  Qed.
  Lemma pfind_None : forall m k, pfind m k = None <-> ~ In k (map fst m).
  Proof.
    induction m as [|[j w] m IH]; intros k; cbn; [tauto|].
    destruct (pair_eqb_spec k j) as [->|n]; [split; [discriminate | tauto]|]. rewrite IH. split; [intros H [E|E]; [congruence | tauto] | tauto].
  Qed.
  Lemma pset_find : forall m k v j, pfind (pset m k v) j = if pair_eqb j k then Some v else pfind m j.
  Proof.
    induction m as [|[i w] m IH]; intros k v j; cbn; [destruct (pair_eqb j k); reflexivity|].
    destruct (pair_eqb_spec k i) as [->|n]; cbn.
    - destruct (pair_eqb j i); reflexivity.
    - rewrite IH. destruct (pair_eqb_spec j i) as [->|]; [|reflexivity].
      destruct (pair_eqb_spec i k); [congruence | reflexivity].
  Qed.
  Lemma pset_keys : forall m k v, In k (map fst m) -> map fst (pset m k v) = map fst m.
  Proof.
    induction m as [|[i w] m IH]; intros k v H; [destruct H|]. cbn.
    destruct (pair_eqb_spec k i) as [->|n]; cbn; [reflexivity|]. f_equal. apply IH. destruct H as [H|H]; [cbn in H; congruence | exact H].
  Qed.
  Lemma In_pfind : forall m k v, NoDup (map fst m) -> In (k, v) m -> pfind m k = Some v.
  Proof.
    induction m as [|[j w] m IH]; intros k v Hn Hi; [destruct Hi|]. cbn in Hn |- *. inversion Hn as [|? ? H1 H2]; subst.
    destruct Hi as [E|Hi].
    - injection E as -> ->. destruct (pair_eqb_spec k k); [reflexivity | contradiction].
    - destruct (pair_eqb_spec k j) as [->|]; [|apply IH; assumption].
      exfalso. apply H1. apply (in_map fst) in Hi. exact Hi.
  Qed.
  Lemma pfind_app : forall m1 m2 k, pfind (m1 ++ m2) k = match pfind m1 k with Some v => Some v | None => pfind m2 k end.
  Proof. induction m1 as [|[j w] m1 IH]; intros m2 k; [reflexivity|]. cbn. destruct (pair_eqb k j); [reflexivity | apply IH]. Qed.
End PMaps.

(** ** Sorting *)
Lemma insert_sorted_perm : forall x l, Permutation (x :: l) (insert_sorted x l).
Proof.
  induction l as [|y l IH]; cbn; [reflexivity|]. destruct (x <=? y)%N; [reflexivity|].
  rewrite perm_swap. apply perm_skip, IH.
Qed.
Lemma isort_perm : forall l, Permutation l (isort l).
Proof. induction l as [|x l IH]; cbn; [reflexivity|]. rewrite <- insert_sorted_perm. apply perm_skip, IH. Qed.
Lemma insert_sorted_le : forall x l, StronglySorted N.le l -> StronglySorted N.le (insert_sorted x l).
Proof.
  induction l as [|y l IH]; cbn; intros H; [repeat constructor|]. inversion H as [|? ? H1 H2]; subst.
  destruct (N.leb_spec x y) as [L|L].
  - constructor; [exact H|]. constructor; [exact L|]. rewrite Forall_forall in *. intros z Hz. specialize (H2 z Hz). lia.
  - constructor; [apply IH, H1|]. rewrite Forall_forall in *. intros z Hz.
    apply (Permutation_in _ (Permutation_sym (insert_sorted_perm x l))) in Hz. destruct Hz as [<-|Hz]; [lia | apply H2, Hz].
Qed.
Lemma isort_le : forall l, StronglySorted N.le (isort l).
Proof. induction l as [|x l IH]; cbn; [constructor | apply insert_sorted_le, IH]. Qed.
Lemma isort_lt : forall l, NoDup l -> StronglySorted N.lt (isort l).
Proof.
  intros l H. assert (D : NoDup (isort l)) by (eapply Permutation_NoDup; [apply isort_perm | exact H]).
  pose proof (isort_le l) as S. revert D S. generalize (isort l). clear. induction l as [|x l IH]; intros D S; constructor.
  - inversion D; inversion S; subst. apply IH; assumption.
  - inversion D as [|? ? D1 D2]; inversion S as [|? ? S1 S2]; subst. rewrite Forall_forall in *. intros z Hz. specialize (S2 z Hz).
    assert (x <> z) by (intros ->; contradiction). lia.
Qed.
Lemma isort_In : forall l x, In x (isort l) <-> In x l.
Proof. intros l x. split; apply Permutation_in; [symmetry|]; apply isort_perm. Qed.
Lemma isort_length : forall l, length (isort l) = length l.
Proof. intros l. symmetry. apply Permutation_length, isort_perm. Qed.
Lemma sorted_NoDup : forall l, StronglySorted N.lt l -> NoDup l.
Proof.
  induction l as [|x l IH]; intros H; constructor; inversion H as [|? ? H1 H2]; subst.
  - intros K. rewrite Forall_forall in H2. specialize (H2 x K). lia.
  - apply IH, H1.
Qed.

Lemma ofold_app : forall (A S : Type) (f : S -> A -> outcome S) l m s, ofold f (l ++ m) s = bind (ofold f l s) (ofold f m).
Proof. intros A S0 f l m. induction l as [|a l IHl]; intros s; [reflexivity|]. cbn. destruct (f s a); cbn; [apply IHl|reflexivity|reflexivity]. Qed.

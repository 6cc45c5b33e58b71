From Coq Require Import String ZArith Reals List Bool Arith Lia Lra.
From Verif Require Import Num Outcome ModelSWE ModelShape ModelBasis ModelVtk SpecShape SpecVtk.
Import ListNotations.
Open Scope R_scope.

Definition tri (m : nat) : nat := (m * (m + 1) / 2)%nat.
Lemma tri_S : forall m, tri (S m) = (tri m + S m)%nat.
Proof.
  intros m. unfold tri. replace (S m * (S m + 1))%nat with (m * (m + 1) + S m * 2)%nat by nia.
  rewrite Nat.div_add by lia. reflexivity.
Qed.
Lemma tri_mono : forall a b, (a <= b)%nat -> (tri a <= tri b)%nat.
Proof. intros a b H. induction H; [lia | rewrite tri_S; lia]. Qed.
Lemma tri_sq : forall n, (1 <= n)%nat -> (tri n + tri (n - 1) = n * n)%nat.
Proof.
  intros n H. destruct n; [lia |]. clear H. replace (S n - 1)%nat with n by lia. induction n; [reflexivity |].
  rewrite (tri_S (S n)), (tri_S n). rewrite tri_S in IHn. nia.
Qed.
Lemma tri_def : forall m, ((m + 1) * (m + 2) / 2 = tri (m + 1))%nat.
Proof. intros m. unfold tri. f_equal. lia. Qed.

Lemma loop_app : forall a b w, loop (a ++ b) w = loop a w ++ loop b w.
Proof. intros. unfold loop. apply flat_map_app. Qed.
Lemma loop_nth : forall a b i j w, (j < w i)%nat -> nth (length (loop a w) + j) (loop (a ++ i :: b) w) (0%nat, 0%nat) = (i, j).
Proof.
  intros a b i j w H. rewrite loop_app, app_nth2 by lia. replace (length (loop a w) + j - length (loop a w))%nat with j by lia.
  unfold loop at 1. cbn [flat_map]. rewrite app_nth1 by (rewrite map_length, seq_length; exact H).
  rewrite (nth_indep _ (0%nat, 0%nat) (i, 0%nat)) by (rewrite map_length, seq_length; exact H).
  rewrite (map_nth (fun j => (i, j))), seq_nth by exact H. reflexivity.
Qed.
Lemma loop_nth_lt : forall a b i j w, (j < w i)%nat -> (length (loop a w) + j < length (loop (a ++ i :: b) w))%nat.
Proof.
  intros. rewrite loop_app, app_length. unfold loop at 3. cbn [flat_map]. rewrite app_length, map_length, seq_length. lia.
Qed.
Lemma loop_In : forall is w i j, In (i, j) (loop is w) <-> In i is /\ (j < w i)%nat.
Proof.
  intros is w i j. unfold loop. rewrite in_flat_map. split.
  - intros [x [Hx H]]. apply in_map_iff in H as [y [E H]]. injection E as -> ->. apply in_seq in H. split; [exact Hx | lia].
  - intros [Hi H]. exists i. split; [exact Hi |]. apply in_map. apply in_seq. lia.
Qed.
Lemma loop_NoDup : forall is w, NoDup is -> NoDup (loop is w).
Proof.
  intros is w H. induction H as [| i is Hi _ IH]; [constructor |]. unfold loop. cbn [flat_map]. fold (loop is w).
  assert (A : forall (l : list nat) (r : list (nat * nat)), NoDup l -> NoDup r -> (forall j, In j l -> ~ In (i, j) r) -> NoDup (map (fun j => (i, j)) l ++ r)).
  { intros l r Hl Hr. induction Hl as [| j l Hj _ IHl]; intros D; cbn; [exact Hr |]. constructor.
    - rewrite in_app_iff. intros [K | K]; [| exact (D j (or_introl eq_refl) K)].
      apply in_map_iff in K as [y [E K]]. injection E as ->. contradiction.
    - apply IHl. intros j' Hj'. apply D. right. exact Hj'. }
  apply A; [apply seq_NoDup | exact IH |]. intros j _ K. apply loop_In in K. tauto.
Qed.
Lemma loop_length_points : forall n i, (i <= n + 1)%nat -> length (loop (seq 0 i) (fun i => (n - i + 1)%nat)) = (tri (n + 1) - tri (n + 1 - i))%nat.
Proof.
  intros n. induction i; intros H; [cbn; replace (n + 1 - 0)%nat with (n + 1)%nat by lia; lia |].
  rewrite seq_S, loop_app, app_length, IHi by lia. unfold loop. cbn [flat_map]. rewrite app_length, map_length, seq_length. cbn [length Nat.add].
  replace (n + 1 - i)%nat with (S (n + 1 - S i)) by lia. rewrite tri_S.
  pose proof (tri_mono (S (n + 1 - S i)) (n + 1) ltac:(lia)) as K. rewrite tri_S in K. lia.
Qed.
Lemma loop_length_up : forall n i, (i <= n)%nat -> length (loop (seq 0 i) (fun i => (n - i)%nat)) = (tri n - tri (n - i))%nat.
Proof.
  intros n. induction i; intros H; [cbn; replace (n - 0)%nat with n by lia; lia |].
  rewrite seq_S, loop_app, app_length, IHi by lia. unfold loop. cbn [flat_map]. rewrite app_length, map_length, seq_length. cbn [length Nat.add].
  replace (n - i)%nat with (S (n - S i)) by lia. rewrite tri_S.
  pose proof (tri_mono (S (n - S i)) n ltac:(lia)) as K. rewrite tri_S in K. lia.
Qed.
Lemma loop_length_down : forall n i, (1 + i <= n)%nat -> length (loop (seq 1 i) (fun i => (n - i)%nat)) = (tri (n - 1) - tri (n - 1 - i))%nat.
Proof.
  intros n. induction i; intros H; [cbn; replace (n - 1 - 0)%nat with (n - 1)%nat by lia; lia |].
  rewrite seq_S, loop_app, app_length, IHi by lia. unfold loop. cbn [flat_map]. rewrite app_length, map_length, seq_length. cbn [length Nat.add].
  replace (n - 1 - i)%nat with (S (n - 1 - S i)) by lia. rewrite tri_S.
  pose proof (tri_mono (S (n - 1 - S i)) (n - 1) ltac:(lia)) as K. rewrite tri_S in K. lia.
Qed.

Section N.
  Context (n : nat) (Hn : (1 <= n)%nat).
  Let np : nat := tri (n + 1).

  Lemma points_len : length (point_loop n) = np.
  Proof. unfold point_loop. rewrite loop_length_points by lia. replace (n + 1 - (n + 1))%nat with 0%nat by lia. unfold np. cbn. lia. Qed.
  Lemma up_len : length (up_loop n) = tri n.
  Proof. unfold up_loop. rewrite loop_length_up by lia. replace (n - n)%nat with 0%nat by lia. cbn. lia. Qed.
  Lemma down_len : length (down_loop n) = tri (n - 1).
  Proof. unfold down_loop. rewrite loop_length_down by lia. replace (n - 1 - (n - 1))%nat with 0%nat by lia. cbn. lia. Qed.
  Lemma up_In : forall i j, In (i, j) (up_loop n) <-> (i + j < n)%nat.
  Proof. intros. unfold up_loop. rewrite loop_In, in_seq. lia. Qed.
  Lemma down_In : forall i j, In (i, j) (down_loop n) <-> (1 <= i /\ i + j < n)%nat.
  Proof. intros. unfold down_loop. rewrite loop_In, in_seq. lia. Qed.
  Lemma point_In : forall i j, In (i, j) (point_loop n) <-> (i + j <= n)%nat.
  Proof. intros. unfold point_loop. rewrite loop_In, in_seq. lia. Qed.

  (** Place of a grid point in the list. *)
  Definition pos (i j : nat) : nat := (np - tri (n + 1 - i) + j)%nat.
  Lemma pos_nth : forall i j, (i + j <= n)%nat -> nth (pos i j) (point_loop n) (0%nat, 0%nat) = (i, j).
  Proof.
    intros i j H. unfold point_loop. replace (n + 1)%nat with (i + S (n - i))%nat at 1 by lia. rewrite seq_app. cbn [seq Nat.add].
    unfold pos, np. rewrite <- (loop_length_points n i) by lia. apply (loop_nth (seq 0 i) (seq (S i) (n - i)) i j). lia.
  Qed.
  Lemma pos_lt : forall i j, (i + j <= n)%nat -> (pos i j < np)%nat.
  Proof.
    intros i j H. rewrite <- points_len. unfold point_loop. replace (n + 1)%nat with (i + S (n - i))%nat at 1 by lia. rewrite seq_app. cbn [seq Nat.add].
    unfold pos, np. rewrite <- (loop_length_points n i) by lia. apply (loop_nth_lt (seq 0 i) (seq (S i) (n - i)) i j). lia.
  Qed.
  Lemma pos_row : forall i j, (i + j < n)%nat -> pos (S i) j = (pos i j + (n + 1 - i))%nat.
  Proof.
    intros i j H. unfold pos. replace (n + 1 - i)%nat with (S (n + 1 - S i)) by lia. rewrite tri_S.
    pose proof (tri_mono (S (n + 1 - S i)) (n + 1) ltac:(lia)) as K. rewrite tri_S in K. unfold np. lia.
  Qed.
  Lemma pt_ID_pos : forall k i j, (i <= n)%nat -> pt_ID n k (i, j) = (k + pos i j)%nat.
  Proof.
    intros k i j H. unfold pt_ID, pos. cbn [fst snd]. rewrite !tri_def. replace (n - i + 1)%nat with (n + 1 - i)%nat by lia.
    pose proof (tri_mono (n + 1 - i) (n + 1) ltac:(lia)) as K. unfold np. lia.
  Qed.
  Lemma up_corners : forall k i j, (i + j < n)%nat ->
    up_cell n k (i, j) = [5; k + pos i j; k + pos i (j + 1); k + pos (S i) j]%nat.
  Proof.
    intros k i j H. unfold up_cell, straight_triangle. rewrite pt_ID_pos by lia. cbn [fst]. rewrite pos_row by exact H.
    replace (pos i (j + 1)) with (pos i j + 1)%nat by (unfold pos; lia). rewrite !Nat.add_assoc. reflexivity.
  Qed.
  Lemma down_corners : forall k i j, (1 <= i)%nat -> (i + j < n)%nat ->
    down_cell n k (i, j) = [5; k + pos i j; k + pos i (j + 1); k + pos (i - 1) (j + 1)]%nat.
  Proof.
    intros k i j Hi H. unfold down_cell, straight_triangle. rewrite pt_ID_pos by lia. cbn [fst].
    destruct i as [| i]; [lia |]. replace (S i - 1)%nat with i by lia.
    replace (pos (S i) (j + 1)) with (pos (S i) j + 1)%nat by (unfold pos; lia).
    pose proof (pos_row i j ltac:(lia)) as E. replace (pos i (j + 1)) with (pos i j + 1)%nat by (unfold pos; lia).
    rewrite E. replace (k + (pos i j + (n + 1 - i)) - (n + 2 - S i) + 1)%nat with (k + (pos i j + 1))%nat by lia.
    rewrite !Nat.add_assoc. reflexivity.
  Qed.
End N.

(** ** Lists built element by element *)
Lemma fold_app_map : forall (A B : Type) (f : A -> list B) l acc, fold_left (fun acc a => acc ++ f a) l acc = acc ++ flat_map f l.
Proof. intros A B f l. induction l; intros acc; cbn; [rewrite app_nil_r; reflexivity |]. rewrite IHl, app_assoc. reflexivity. Qed.

Lemma flat_len : forall (A B : Type) (f : A -> list B) m l, (forall a, length (f a) = m) -> length (flat_map f l) = (length l * m)%nat.
Proof. intros A B f m l H. induction l; cbn; [reflexivity |]. rewrite app_length, H, IHl. lia. Qed.
Lemma slice_flat : forall (A B : Type) (f : A -> list B) m l e d, (forall a, length (f a) = m) -> (e < length l)%nat ->
  slice m e (flat_map f l) = f (nth e l d).
Proof.
  intros A B f m l. induction l as [| a l IH]; intros e d H He; [cbn in He; lia |]. destruct e.
  - unfold slice. cbn [Nat.mul skipn flat_map nth]. rewrite firstn_app, H, Nat.sub_diag, firstn_O, app_nil_r.
    rewrite <- (H a). apply firstn_all.
  - cbn [nth]. rewrite <- (IH e d H ltac:(cbn in He; lia)). unfold slice. cbn [flat_map]. f_equal.
    replace (S e * m)%nat with (m + e * m)%nat by lia. rewrite skipn_app, skipn_all2 by (rewrite H; lia). cbn.
    f_equal. rewrite H. lia.
Qed.
Lemma nth_flat : forall (A B : Type) (f : A -> list B) m l e i d db, (forall a, length (f a) = m) -> (e < length l)%nat -> (i < m)%nat ->
  nth (e * m + i) (flat_map f l) db = nth i (f (nth e l d)) db.
Proof.
  intros A B f m l. induction l as [| a l IH]; intros e i d db H He Hi; [cbn in He; lia |]. cbn [flat_map]. destruct e.
  - cbn [Nat.mul Nat.add nth]. apply app_nth1. rewrite H. exact Hi.
  - rewrite app_nth2 by (rewrite H; lia). rewrite H. replace (S e * m + i - m)%nat with (e * m + i)%nat by lia.
    cbn [nth]. apply IH; [exact H | cbn in He; lia | exact Hi].
Qed.

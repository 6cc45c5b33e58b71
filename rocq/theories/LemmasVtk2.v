From Coq Require Import String ZArith Reals List Bool Arith Lia Lra.
From Verif Require Import Num Outcome ModelSWE ModelShape ModelBasis ModelVtk SpecShape SpecVtk LemmasVtk1.
Import ListNotations.
Open Scope R_scope.

Section N.
  Context (n : nat) (Hn : (1 <= n)%nat).
  Let np : nat := tri (n + 1).
  Definition cells_at (e : nat) : list (list nat) :=
    map (up_cell n (e * tri (n + 1))) (up_loop n) ++ map (down_cell n (e * tri (n + 1))) (down_loop n).
  Definition points_of (e : elem) : list (R * R * R) := map (vtk_point n (el_nodes e)) (point_loop n).

  Lemma points_of_len : forall e, length (points_of e) = np.
  Proof. intros. unfold points_of. rewrite map_length. apply (points_len n Hn). Qed.
  Lemma cells_at_len : forall e, length (cells_at e) = (n * n)%nat.
  Proof. intros. unfold cells_at. rewrite app_length, !map_length, (up_len n Hn), (down_len n Hn) by exact Hn. apply tri_sq. exact Hn. Qed.

  Lemma get_fold : forall els P C k, length P = (k * np)%nat ->
    fold_left (get_vtk n) (map el_nodes els) (P, C) =
      (P ++ flat_map points_of els, C ++ flat_map cells_at (seq k (length els))).
  Proof.
    induction els as [| e els IH]; intros P C k H; cbn [map fold_left flat_map length seq]; [rewrite !app_nil_r; reflexivity |].
    unfold get_vtk at 2. cbn [fst snd]. rewrite (IH _ _ (S k)).
    - rewrite H. change (points_of e) with (map (vtk_point n (el_nodes e)) (point_loop n)). change (cells_at k) with (map (up_cell n (k * np)) (up_loop n) ++ map (down_cell n (k * np)) (down_loop n)). rewrite <- !app_assoc. reflexivity.
    - rewrite app_length, H, map_length, (points_len n Hn). unfold np. lia.
  Qed.
  Lemma geometry_lists : forall els, geometry n els = (flat_map points_of els, flat_map cells_at (seq 0 (length els))).
  Proof. intros els. unfold geometry. rewrite (get_fold els [] [] 0) by reflexivity. reflexivity. Qed.

  (** A grid point of a triangle. *)
  Definition gpt (a b c : pt) (i j : nat) : pt := comb a b c (1 - (INR i + INR j) / INR n) (INR j / INR n) (INR i / INR n).
  Lemma n_pos : 0 < INR n.
  Proof. apply lt_0_INR. lia. Qed.
  Lemma vtk_gpt : forall nd i j, vtk_point n nd (i, j) = (gpt (nd 0%nat) (nd 1%nat) (nd 2%nat) i j, 0).
  Proof.
    intros nd i j. pose proof n_pos as N. unfold vtk_point, grid, dz, gpt, comb. cbn [fst snd].
    f_equal. f_equal; field; lra.
  Qed.
  Lemma corner_at : forall els e i j d, (e < length els)%nat -> (i + j <= n)%nat ->
    nth (e * np + pos n i j) (flat_map points_of els) d = (gpt (el_nodes (nth e els (Elem 0 (fun _ => (0, 0)) (fun _ => V3 0 0 0) (fun _ => 0) true true)) 0%nat)
      (el_nodes (nth e els (Elem 0 (fun _ => (0, 0)) (fun _ => V3 0 0 0) (fun _ => 0) true true)) 1%nat)
      (el_nodes (nth e els (Elem 0 (fun _ => (0, 0)) (fun _ => V3 0 0 0) (fun _ => 0) true true)) 2%nat) i j, 0).
  Proof.
    intros els e i j d He H. set (d0 := Elem 0 _ _ _ true true).
    rewrite (nth_flat _ _ points_of np els e (pos n i j) d0 d points_of_len He (pos_lt n Hn i j H)).
    unfold points_of. rewrite (nth_indep _ d (vtk_point n (el_nodes (nth e els d0)) (0%nat, 0%nat))) by (rewrite map_length, (points_len n Hn); apply pos_lt; [exact Hn | exact H]).
    rewrite map_nth, (pos_nth n Hn) by exact H. apply vtk_gpt.
  Qed.

  (** The two kinds of cells by row and column. *)
  Inductive is_cell (e : nat) : list nat -> bool -> nat -> nat -> Prop :=
  | is_up : forall i j, (i + j < n)%nat -> is_cell e [e * np + pos n i j; e * np + pos n i (j + 1); e * np + pos n (S i) j]%nat true i j
  | is_down : forall i j, (S i + j < n)%nat -> is_cell e [e * np + pos n (S i) j; e * np + pos n (S i) (j + 1); e * np + pos n i (j + 1)]%nat false i j.

  Definition kind (k : nat) : bool := (k <? tri n)%nat.
  Definition row_of (k : nat) : nat := if kind k then fst (nth k (up_loop n) (0, 0)%nat) else (fst (nth (k - tri n) (down_loop n) (0, 0)%nat) - 1)%nat.
  Definition col_of (k : nat) : nat := if kind k then snd (nth k (up_loop n) (0, 0)%nat) else snd (nth (k - tri n) (down_loop n) (0, 0)%nat).
  Lemma cell_kind : forall e k, (k < n * n)%nat -> is_cell e (nth k (map (@tl nat) (cells_at e)) []) (kind k) (row_of k) (col_of k).
  Proof.
    intros e k H. unfold cells_at, row_of, col_of, kind. rewrite map_app, !map_map. destruct (Nat.ltb_spec k (tri n)) as [L | L].
    - rewrite app_nth1 by (rewrite map_length, (up_len n Hn); exact L).
      rewrite (nth_indep _ [] (tl (up_cell n (e * tri (n + 1)) (0%nat, 0%nat)))) by (rewrite map_length, (up_len n Hn); exact L).
      rewrite (map_nth (fun x => tl (up_cell n (e * tri (n + 1)) x))).
      assert (L2 : (k < length (up_loop n))%nat) by (rewrite (up_len n Hn); exact L).
      pose proof (nth_In (up_loop n) (0%nat, 0%nat) L2) as I.
      destruct (nth k (up_loop n) (0%nat, 0%nat)) as [i j]. apply (up_In n Hn) in I. rewrite (up_corners n Hn) by (try lia; exact I). cbn [tl fst snd].
      apply is_up. exact I.
    - rewrite app_nth2 by (rewrite map_length, (up_len n Hn); exact L). rewrite map_length, (up_len n Hn).
      assert (L' : (k - tri n < length (down_loop n))%nat) by (rewrite (down_len n Hn) by exact Hn; pose proof (tri_sq n Hn); lia).
      rewrite (nth_indep _ [] (tl (down_cell n (e * tri (n + 1)) (0%nat, 0%nat)))) by (rewrite map_length; exact L').
      rewrite (map_nth (fun x => tl (down_cell n (e * tri (n + 1)) x))).
      pose proof (nth_In (down_loop n) (0%nat, 0%nat) L') as I.
      destruct (nth (k - tri n) (down_loop n) (0%nat, 0%nat)) as [i j]. apply (down_In n Hn) in I. destruct I as [I1 I2]. rewrite (down_corners n Hn) by assumption. cbn [tl fst snd].
      destruct i as [| i]; [lia |]. replace (S i - 1)%nat with i by lia. apply is_down. exact I2.
  Qed.
  Lemma cell_unique : forall k k', (k < n * n)%nat -> (k' < n * n)%nat -> kind k = kind k' -> row_of k = row_of k' -> col_of k = col_of k' -> k = k'.
  Proof.
    intros k k' H H' K. unfold row_of, col_of. rewrite <- K. revert K. unfold kind. destruct (Nat.ltb_spec k (tri n)) as [L | L], (Nat.ltb_spec k' (tri n)) as [L' | L']; try discriminate; intros _ E1 E2.
    - apply (proj1 (NoDup_nth (up_loop n) (0%nat, 0%nat)) (loop_NoDup _ _ (seq_NoDup _ _))); [rewrite (up_len n Hn); exact L | rewrite (up_len n Hn); exact L' |].
      destruct (nth k (up_loop n) _), (nth k' (up_loop n) _). cbn in E1, E2. congruence.
    - assert (M : (k - tri n < length (down_loop n))%nat) by (rewrite (down_len n Hn) by exact Hn; pose proof (tri_sq n Hn); lia).
      assert (M' : (k' - tri n < length (down_loop n))%nat) by (rewrite (down_len n Hn) by exact Hn; pose proof (tri_sq n Hn); lia).
      enough (k - tri n = k' - tri n)%nat by lia.
      apply (proj1 (NoDup_nth (down_loop n) (0%nat, 0%nat)) (loop_NoDup _ _ (seq_NoDup _ _))); [exact M | exact M' |].
      pose proof (nth_In (down_loop n) (0%nat, 0%nat) M) as I. pose proof (nth_In (down_loop n) (0%nat, 0%nat) M') as I'.
      destruct (nth (k - tri n) (down_loop n) _), (nth (k' - tri n) (down_loop n) _). apply (down_In n Hn) in I. apply (down_In n Hn) in I'. cbn [fst snd] in E1, E2. f_equal; lia.
  Qed.
  Lemma cell_exists_up : forall i j, (i + j < n)%nat -> exists k, (k < n * n)%nat /\ kind k = true /\ row_of k = i /\ col_of k = j.
  Proof.
    intros i j H. destruct (In_nth (up_loop n) (i, j) (0%nat, 0%nat) (proj2 (up_In n Hn i j) H)) as [k [L E]]. rewrite (up_len n Hn) in L.
    pose proof (tri_sq n Hn). exists k. unfold row_of, col_of, kind. rewrite (proj2 (Nat.ltb_lt _ _) L), E. cbn. repeat split; lia.
  Qed.
  Lemma cell_exists_down : forall i j, (S i + j < n)%nat -> exists k, (k < n * n)%nat /\ kind k = false /\ row_of k = i /\ col_of k = j.
  Proof.
    intros i j H. destruct (In_nth (down_loop n) (S i, j) (0%nat, 0%nat) (proj2 (down_In n Hn (S i) j) ltac:(lia))) as [k [L E]]. rewrite (down_len n Hn) in L by exact Hn.
    pose proof (tri_sq n Hn). exists (tri n + k)%nat. unfold row_of, col_of, kind. rewrite (proj2 (Nat.ltb_ge _ _)) by lia.
    replace (tri n + k - tri n)%nat with k by lia. rewrite E. cbn [fst snd]. repeat split; lia.
  Qed.
End N.

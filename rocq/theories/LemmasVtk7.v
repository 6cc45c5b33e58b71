From Coq Require Import String ZArith Reals List Bool Arith Lia Lra.
From Verif Require Import Num Outcome ModelSWE ModelShape ModelBasis.
From Verif Require Import ModelVtk SpecStepper SpecShape SpecVtk LemmasVtk1 LemmasVtk2 LemmasVtk3 LemmasVtk4 LemmasVtk6.
Import ListNotations.
Open Scope R_scope.

Section N.
  Context (n : nat) (Hn : (1 <= n)%nat) (p : nat).
  Let np : nat := tri (n + 1).
  Definition zp : list point := map (grid n) (point_loop n).
  Definition zc : list point := map (up_centre n) (up_loop n) ++ map (down_centre n) (down_loop n).
  Lemma zp_len : length zp = np.
  Proof. unfold zp. rewrite map_length. apply (points_len n Hn). Qed.
  Lemma zc_len : length zc = (n * n)%nat.
  Proof. unfold zc. rewrite app_length, !map_length, (up_len n Hn), (down_len n Hn). apply tri_sq. exact Hn. Qed.
  Lemma post_point : VTKPostPoint n = Ok zp.
  Proof.
    unfold VTKPostPoint, filled. fold zp. rewrite tri_def. fold np. rewrite zp_len, Nat.leb_refl, Nat.sub_diag. cbn. rewrite app_nil_r. reflexivity.
  Qed.
  Lemma post_cell : VTKPostCell n = Ok zc.
  Proof. unfold VTKPostCell, filled. fold zc. rewrite zc_len, Nat.leb_refl, Nat.sub_diag. cbn. rewrite app_nil_r. reflexivity. Qed.

  Definition the_data (els : list elem) : data :=
    Data (flat_map (fun e => map (values p (el_q e)) zp) els) (flat_map (fun e => map (values p (el_q e)) zc) els)
         (flat_map (fun e => map (value p (el_bath e)) zp) els) (flat_map (fun e => map (value p (el_bath e)) zc) els)
         (flat_map (fun e => repeat (el_id e) (n * n)) els) (flat_map (fun e => repeat (el_wet e) (n * n)) els) (flat_map (fun e => repeat (el_gone e) (n * n)) els).
  Lemma collect_ok : forall els, collect n p els = Ok (the_data els).
  Proof.
    intros els. unfold collect. rewrite post_point, post_cell. cbn [bind]. unfold the_data, write_q, write_aux, write_cells.
    rewrite !fold_app_map. reflexivity.
  Qed.
  Lemma geometry_sizes : forall els, length (fst (geometry n els)) = (length els * np)%nat /\ length (snd (geometry n els)) = (length els * (n * n))%nat.
  Proof.
    intros els. rewrite (geometry_lists n Hn). cbn [fst snd]. split.
    - apply flat_len. apply (points_of_len n Hn).
    - rewrite (flat_len _ _ _ (n * n)%nat) by (apply (cells_at_len n Hn)). rewrite seq_length. reflexivity.
  Qed.
  Lemma data_consistent : forall els els0, length els0 = length els ->
    consistent (length (fst (geometry n els0))) (length (snd (geometry n els0))) (the_data els).
  Proof.
    intros els els0 H. destruct (geometry_sizes els0) as [-> ->]. rewrite H. unfold consistent, the_data. cbn [d_qp d_qc d_ap d_ac d_id d_wet d_gone].
    repeat apply conj; apply flat_len; intros; rewrite ?map_length, ?repeat_length; try apply zp_len; try apply zc_len; reflexivity.
  Qed.

  (** Local coordinates. *)
  Lemma grid_in : forall i j, (i + j <= n)%nat -> in_reference (grid n (i, j)).
  Proof.
    intros i j H. pose proof (n_pos n Hn) as N. apply le_INR in H. rewrite plus_INR in H. pose proof (pos_INR i) as I. pose proof (pos_INR j) as J.
    unfold in_reference, grid, dz. cbn [fst snd].
    assert (Q : 0 < 2 / INR n) by (apply Rdiv_lt_0_compat; lra).
    assert (K : 2 / INR n * (INR i + INR j) <= 2).
    { apply (Rmult_le_reg_r (INR n)); [exact N |]. replace (2 / INR n * (INR i + INR j) * INR n) with (2 * (INR i + INR j)) by (field; lra). lra. }
    repeat apply conj; nra.
  Qed.
  Lemma image_grid : forall nd i j, image (nd 0%nat) (nd 1%nat) (nd 2%nat) (grid n (i, j)) = gpt n (nd 0%nat) (nd 1%nat) (nd 2%nat) i j.
  Proof.
    intros nd i j. pose proof (n_pos n Hn) as N. unfold image, grid, dz, gpt. cbn [fst snd]. f_equal; field; lra.
  Qed.
  Definition zmix (z0 z1 z2 : pt) (u v w : R) : pt := comb z0 z1 z2 u v w.
  Lemma image_mix : forall a b c z0 z1 z2 u v w, u + v + w = 1 ->
    image a b c (comb z0 z1 z2 u v w) = comb (image a b c z0) (image a b c z1) (image a b c z2) u v w.
  Proof. intros. replace u with (1 - v - w) by lra. unfold image, comb. cbn [fst snd]. f_equal; field. Qed.
  Lemma ref_mix : forall z0 z1 z2 u v w, in_reference z0 -> in_reference z1 -> in_reference z2 -> 0 <= u -> 0 <= v -> 0 <= w -> u + v + w = 1 ->
    in_reference (comb z0 z1 z2 u v w).
  Proof.
    intros [a0 b0] [a1 b1] [a2 b2] u v w (A1 & A2 & A3) (B1 & B2 & B3) (C1 & C2 & C3) Hu Hv Hw HS. unfold in_reference, comb. cbn [fst snd] in *.
    repeat apply conj; nra.
  Qed.

  (** Rows, columns and local corners of a cell. *)
  Definition zcorner (k j : nat) : pt :=
    let r := row_of n k in let c := col_of n k in
    if kind n k then match j with 0%nat => grid n (r, c) | 1%nat => grid n (r, (c + 1)%nat) | _ => grid n (S r, c) end
    else match j with 0%nat => grid n (S r, c) | 1%nat => grid n (S r, (c + 1)%nat) | _ => grid n (r, (c + 1)%nat) end.
  Definition gcorner (k j : nat) : nat * nat :=
    let r := row_of n k in let c := col_of n k in
    if kind n k then match j with 0%nat => (r, c) | 1%nat => (r, (c + 1)%nat) | _ => (S r, c) end
    else match j with 0%nat => (S r, c) | 1%nat => (S r, (c + 1)%nat) | _ => (r, (c + 1)%nat) end.
  Lemma cell_bound : forall k, (k < n * n)%nat -> if kind n k then (row_of n k + col_of n k < n)%nat else (S (row_of n k) + col_of n k < n)%nat.
  Proof. intros k H. destruct (cell_kind n Hn 0 k H); assumption. Qed.
  Lemma gcorner_le : forall k j, (k < n * n)%nat -> (fst (gcorner k j) + snd (gcorner k j) <= n)%nat.
  Proof. intros k j H. pose proof (cell_bound k H) as B. unfold gcorner. destruct (kind n k); destruct j as [| [| j]]; cbn [fst snd]; lia. Qed.
  Lemma zcorner_in : forall k j, (k < n * n)%nat -> in_reference (zcorner k j).
  Proof. intros k j H. pose proof (cell_bound k H) as B. unfold zcorner. destruct (kind n k); destruct j as [| [| j]]; apply grid_in; lia. Qed.
  Lemma cell_index : forall e k j, (k < n * n)%nat -> (j < 3)%nat ->
    nth j (nth k (map (@tl nat) (cells_at n e)) []) 0%nat = (e * np + pos n (fst (gcorner k j)) (snd (gcorner k j)))%nat.
  Proof.
    intros e k j H Hj. pose proof (cell_kind n Hn e k H) as IC. unfold gcorner. destruct IC; destruct j as [| [| [| j]]]; try lia; reflexivity.
  Qed.
  Lemma zcorner_g : forall k j, zcorner k j = grid n (gcorner k j).
  Proof. intros. unfold zcorner, gcorner. destruct (kind n k); destruct j as [| [| j]]; reflexivity. Qed.
  (** The centre of the master element's list is the centroid of the local corners. *)
  Lemma centre_mean : forall k, (k < n * n)%nat -> nth k zc (0, 0) = comb (zcorner k 0) (zcorner k 1) (zcorner k 2) (/ 3) (/ 3) (/ 3).
  Proof.
    intros k H. pose proof (n_pos n Hn) as N. unfold zc, zcorner, row_of, col_of, kind. destruct (Nat.ltb_spec k (tri n)) as [L | L].
    - rewrite app_nth1 by (rewrite map_length, (up_len n Hn); exact L).
      rewrite (nth_indep _ (0, 0) (up_centre n (0%nat, 0%nat))) by (rewrite map_length, (up_len n Hn); exact L). rewrite map_nth.
      destruct (nth k (up_loop n) (0%nat, 0%nat)) as [i j]. unfold up_centre, grid, comb, dz. cbn [fst snd]. rewrite ?plus_INR, ?S_INR; change (INR 0) with 0; f_equal; field; lra.
    - assert (L' : (k - tri n < length (down_loop n))%nat) by (rewrite (down_len n Hn); pose proof (tri_sq n Hn); lia).
      rewrite app_nth2 by (rewrite map_length, (up_len n Hn); exact L). rewrite map_length, (up_len n Hn).
      rewrite (nth_indep _ (0, 0) (down_centre n (0%nat, 0%nat))) by (rewrite map_length; exact L'). rewrite map_nth.
      pose proof (nth_In (down_loop n) (0%nat, 0%nat) L') as I.
      destruct (nth (k - tri n) (down_loop n) (0%nat, 0%nat)) as [i j]. apply (down_In n Hn) in I. destruct i as [| i]; [lia |].
      unfold down_centre, grid, comb, dz. cbn [fst snd]. replace (S i - 1)%nat with i by lia. rewrite ?plus_INR, ?S_INR; change (INR 0) with 0; f_equal; field; lra.
  Qed.

  Context (els : list elem) (e : nat) (He : (e < length els)%nat).
  Let P := fst (geometry n els).
  Let Cs := map (@tl nat) (snd (geometry n els)).
  Let E := nth e els none.
  Let a := el_nodes E 0%nat.
  Let b := el_nodes E 1%nat.
  Let c := el_nodes E 2%nat.

  Lemma point_at : forall i j d, (i + j <= n)%nat -> nth (e * np + pos n i j) P d = (image a b c (grid n (i, j)), 0).
  Proof.
    intros i j d H. unfold P. rewrite (geometry_lists n Hn). cbn [fst]. unfold np. rewrite (corner_at n Hn) by assumption. fold none. fold E. unfold a, b, c.
    rewrite image_grid. reflexivity.
  Qed.
  Lemma cell_at : forall k, (k < n * n)%nat -> nth (e * (n * n) + k) Cs [] = nth k (map (@tl nat) (cells_at n e)) [].
  Proof.
    intros k H. unfold Cs. rewrite (geometry_lists n Hn). cbn [snd].
    rewrite (nth_indep (map _ (flat_map _ _)) [] (tl [])) by (rewrite map_length, (flat_len _ _ _ (n * n)%nat) by (apply (cells_at_len n Hn)); rewrite seq_length; nia).
    rewrite (nth_indep (map _ (cells_at n e)) [] (tl [])) by (rewrite map_length, (cells_at_len n Hn); exact H).
    rewrite !map_nth. rewrite (nth_flat _ _ (cells_at n) (n * n)%nat (seq 0 (length els)) e k 0%nat) by (try apply (cells_at_len n Hn); rewrite ?seq_length; assumption).
    rewrite seq_nth by exact He. reflexivity.
  Qed.
  Lemma corner_image : forall k j, (k < n * n)%nat -> (j < 3)%nat -> corner P (nth (e * (n * n) + k) Cs []) j = image a b c (zcorner k j).
  Proof.
    intros k j H Hj. unfold corner. rewrite cell_at by exact H. rewrite cell_index by assumption. rewrite point_at by (apply gcorner_le; exact H). rewrite zcorner_g, <- surjective_pairing. reflexivity.
  Qed.
  Lemma slice_cells : slice (n * n) e Cs = map (@tl nat) (cells_at n e).
  Proof.
    unfold Cs. rewrite (geometry_lists n Hn). cbn [snd]. rewrite flat_map_concat_map, concat_map, map_map, <- flat_map_concat_map.
    rewrite (slice_flat _ _ (fun x => map (@tl nat) (cells_at n x)) (n * n)%nat (seq 0 (length els)) e 0%nat).
    - rewrite seq_nth by exact He. reflexivity.
    - intros x. rewrite map_length. apply (cells_at_len n Hn).
    - rewrite seq_length. exact He.
  Qed.
  Lemma qp_at : forall i d, (i < np)%nat -> nth (e * np + i) (d_qp (the_data els)) d = values p (el_q E) (nth i zp (0, 0)) .
  Proof.
    intros i d H. cbn [the_data d_qp]. rewrite (nth_flat _ _ _ np els e i none) by (try (intros; rewrite map_length; apply zp_len); assumption). fold E.
    rewrite (nth_indep _ d (values p (el_q E) (0, 0))) by (rewrite map_length, zp_len; exact H). apply map_nth.
  Qed.
  Lemma ap_at : forall i d, (i < np)%nat -> nth (e * np + i) (d_ap (the_data els)) d = value p (el_bath E) (nth i zp (0, 0)) .
  Proof.
    intros i d H. cbn [the_data d_ap]. rewrite (nth_flat _ _ _ np els e i none) by (try (intros; rewrite map_length; apply zp_len); assumption). fold E.
    rewrite (nth_indep _ d (value p (el_bath E) (0, 0))) by (rewrite map_length, zp_len; exact H). apply map_nth.
  Qed.
  Lemma qc_at : forall i d, (i < n * n)%nat -> nth (e * (n * n) + i) (d_qc (the_data els)) d = values p (el_q E) (nth i zc (0, 0)) .
  Proof.
    intros i d H. cbn [the_data d_qc]. rewrite (nth_flat _ _ _ (n * n)%nat els e i none) by (try (intros; rewrite map_length; apply zc_len); assumption). fold E.
    rewrite (nth_indep _ d (values p (el_q E) (0, 0))) by (rewrite map_length, zc_len; exact H). apply map_nth.
  Qed.
  Lemma ac_at : forall i d, (i < n * n)%nat -> nth (e * (n * n) + i) (d_ac (the_data els)) d = value p (el_bath E) (nth i zc (0, 0)) .
  Proof.
    intros i d H. cbn [the_data d_ac]. rewrite (nth_flat _ _ _ (n * n)%nat els e i none) by (try (intros; rewrite map_length; apply zc_len); assumption). fold E.
    rewrite (nth_indep _ d (value p (el_bath E) (0, 0))) by (rewrite map_length, zc_len; exact H). apply map_nth.
  Qed.
  Lemma rep_at : forall (A : Type) (f : elem -> A) i d, (i < n * n)%nat -> nth (e * (n * n) + i) (flat_map (fun e => repeat (f e) (n * n)) els) d = f E.
  Proof.
    intros A f i d H. rewrite (nth_flat _ _ _ (n * n)%nat els e i none) by (try (intros; apply repeat_length); assumption). fold E.
    rewrite (nth_indep _ d (f E)) by (rewrite repeat_length; exact H). apply nth_repeat.
  Qed.
  Lemma values_field : forall u z, values p u z = field3 p u z.
  Proof. intros. unfold values, field3. rewrite !value_field. reflexivity. Qed.
  Lemma zp_grid : forall i, (i < np)%nat -> exists r s, (r + s <= n)%nat /\ nth i zp (0, 0) = grid n (r, s) /\ i = pos n r s.
  Proof.
    intros i H. unfold zp. unfold np in H. rewrite <- (points_len n Hn) in H.
    rewrite (nth_indep _ (0, 0) (grid n (0%nat, 0%nat))) by (rewrite map_length; exact H). rewrite map_nth.
    pose proof (nth_In (point_loop n) (0%nat, 0%nat) H) as I. destruct (nth i (point_loop n) (0%nat, 0%nat)) as [r s] eqn:Q. apply (point_In n Hn) in I.
    exists r, s. split; [exact I | split; [reflexivity |]].
    apply (proj1 (NoDup_nth (point_loop n) (0%nat, 0%nat)) (loop_NoDup _ _ (seq_NoDup _ _))); [exact H | rewrite (points_len n Hn); apply (pos_lt n Hn); exact I |].
    rewrite Q, (pos_nth n Hn) by exact I. reflexivity.
  Qed.
  (** Order one: linear interpolation on the cells is the solution. *)
  Lemma field1_mix : forall f z0 z1 z2 u v w, in_reference z0 -> in_reference z1 -> in_reference z2 -> 0 <= u -> 0 <= v -> 0 <= w -> u + v + w = 1 ->
    field 1 f (comb z0 z1 z2 u v w) = u * field 1 f z0 + v * field 1 f z1 + w * field 1 f z2.
  Proof.
    intros f z0 z1 z2 u v w H0 H1 H2 Hu Hv Hw HS. rewrite !field1 by (try assumption; apply ref_mix; assumption).
    unfold comb. cbn [fst snd]. replace u with (1 - v - w) by lra. field.
  Qed.
  Lemma zp_corner : forall k j, (k < n * n)%nat -> nth (pos n (fst (gcorner k j)) (snd (gcorner k j))) zp (0, 0) = zcorner k j.
  Proof.
    intros k j H. pose proof (gcorner_le k j H) as G. unfold zp.
    rewrite (nth_indep _ (0, 0) (grid n (0%nat, 0%nat))) by (rewrite map_length, (points_len n Hn); apply (pos_lt n Hn); exact G).
    rewrite map_nth, (pos_nth n Hn) by exact G. rewrite zcorner_g, <- surjective_pairing. reflexivity.
  Qed.
  Lemma corner_qp : forall k j, (k < n * n)%nat -> (j < 3)%nat ->
    nth (nth j (nth (e * (n * n) + k) Cs []) 0%nat) (d_qp (the_data els)) (V3 0 0 0) = field3 p (el_q E) (zcorner k j).
  Proof.
    intros k j H Hj. rewrite cell_at, cell_index by assumption. rewrite qp_at by (apply (pos_lt n Hn), gcorner_le; exact H).
    rewrite zp_corner by exact H. apply values_field.
  Qed.
End N.

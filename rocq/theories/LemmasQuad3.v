(** Quadrilateral mesh generator: coordinates, areas, reading the mesh back. *)
From Coq Require Import Reals ZArith NArith List Arith Bool Lia Lra Permutation.
From Verif Require Import Num Outcome ModelMesh ModelQuad SpecMesh SpecShape SpecStep SpecStepper SpecQuad LemmasRK LemmasStep LemmasCond LemmasQuad LemmasQuad2
  LemmasMesh LemmasMesh2 LemmasMesh3 LemmasMesh4 LemmasMesh5 LemmasMesh6 LemmasMesh7 LemmasMesh8 LemmasMesh9 PropsMesh.
Import ListNotations.
Open Scope R_scope.

Definition rN (k : N) : R := IZR (Z.of_N k).
Lemma rN_pos : forall k, (0 < k)%N -> 0 < rN k.
Proof. intros k H. apply (IZR_lt 0). lia. Qed.
Lemma rN_add : forall a b, rN (a + b) = rN a + rN b.
Proof. intros. unfold rN. rewrite N2Z.inj_add. apply plus_IZR. Qed.
Lemma rN_le : forall a b, (a <= b)%N -> rN a <= rN b.
Proof. intros. apply IZR_le. lia. Qed.
Lemma rN_1 : rN 1 = 1. Proof. reflexivity. Qed.

(** ** Nodes *)
Definition node_coord (p1 p2 p3 p4 : pt) (bath : R -> R -> R) (m n v : N) : R * R * R :=
  let q := quad_point p1 p2 p3 p4 m n (v mod (m + 1)) (v / (m + 1)) in (fst q, snd q, bath (fst q) (snd q)).
Lemma bilinear_point : forall (a b c d : R) m n i j, (0 < m)%N -> (0 < n)%N ->
  bilinear a b c d (shape4 m n i j) =
  ((rN m - rN i) * (rN n - rN j) * a + rN i * (rN n - rN j) * b + rN i * rN j * c + (rN m - rN i) * rN j * d) / (rN m * rN n).
Proof.
  intros a b c d m n i j Hm Hn. apply rN_pos in Hm. apply rN_pos in Hn. unfold bilinear, shape4, zofN. num_R. fold (rN m) (rN n) (rN i) (rN j). field. lra.
Qed.
Lemma make_nodes_ok : forall p1 p2 p3 p4 bath m n, fits m n ->
  make_nodes p1 p2 p3 p4 bath m n = Ok (map (fun v => (v, node_coord p1 p2 p3 p4 bath m n v)) (nrange ((m + 1) * (n + 1)))).
Proof.
  intros p1 p2 p3 p4 bath m n (Hm & Hn & H1 & H2). unfold make_nodes. rewrite u32_small by exact H2. apply fill_ok.
  - intros w Hw. unfold node_writes in Hw. apply in_flat_map in Hw. destruct Hw as (i & Hi & Hw). apply in_map_iff in Hw. destruct Hw as (j & <- & Hj).
    apply in_nrange in Hi. apply in_nrange in Hj. cbn [fst snd].
    assert (E : (j * (m + 1) + i = nd m i j)%N) by (unfold nd; lia). pose proof (nd_lt m n i j ltac:(lia) ltac:(lia)) as L. rewrite E, u32_small by lia.
    split; [exact L|]. f_equal. unfold node_coord.
    assert (E1 : (nd m i j mod (m + 1) = i)%N) by (symmetry; apply (N.mod_unique _ (m + 1) j i); unfold nd; lia).
    assert (E2 : (nd m i j / (m + 1) = j)%N) by (symmetry; apply (N.div_unique _ (m + 1) j i); unfold nd; lia).
    rewrite E1, E2, !bilinear_point by assumption. reflexivity.
  - intros k Hk. apply in_map_iff.
    set (i := (k mod (m + 1))%N). set (j := (k / (m + 1))%N).
    assert (Hi : (i < m + 1)%N) by (apply N.mod_lt; lia). assert (Hj : (j < n + 1)%N) by (apply N.div_lt_upper_bound; lia).
    assert (E : (k = j * (m + 1) + i)%N) by (pose proof (N.div_mod k (m + 1) ltac:(lia)); subst i j; lia).
    eexists (k, _). split; [reflexivity|]. unfold node_writes. apply in_flat_map. exists i. split; [apply in_nrange; exact Hi|]. apply in_map_iff. exists j.
    split; [|apply in_nrange; exact Hj]. rewrite <- E, u32_small by lia. reflexivity.
Qed.

Section Coordinates.
  Context (p1 p2 p3 p4 : pt) (bath : R -> R -> R) (m n : N) (Hm : (0 < m)%N) (Hn : (0 < n)%N).
  Notation qp i j := (quad_point p1 p2 p3 p4 m n i j).
  Definition node_list : mesh_nodes := map (fun v => (v, node_coord p1 p2 p3 p4 bath m n v)) (nrange ((m + 1) * (n + 1))).

  Lemma node_at_ok : forall i j q, (i <= m)%N -> (j <= n)%N -> (node_at node_list (nd m i j) q <-> q = qp i j).
  Proof.
    intros i j q Hi Hj.
    assert (E1 : (nd m i j mod (m + 1) = i)%N) by (symmetry; apply (N.mod_unique _ (m + 1) j i); unfold nd; lia).
    assert (E2 : (nd m i j / (m + 1) = j)%N) by (symmetry; apply (N.div_unique _ (m + 1) j i); unfold nd; lia).
    unfold node_at, node_list. split.
    - intros (z & H). apply in_map_iff in H. destruct H as (v & H & _). unfold node_coord in H. cbv zeta in H.
      assert (v = nd m i j) by (apply (f_equal fst) in H; exact H). subst v. rewrite E1, E2 in H. destruct q as [x y]. cbn [fst snd] in H.
      apply (f_equal snd) in H. cbn [snd] in H. assert (Hx := f_equal (fun t => fst (fst t)) H). assert (Hy := f_equal (fun t => snd (fst t)) H). cbn [fst snd] in Hx, Hy.
      rewrite (surjective_pairing (qp i j)). congruence.
    - intros ->. exists (bath (fst (qp i j)) (snd (qp i j))). apply in_map_iff. exists (nd m i j). unfold node_coord. rewrite E1, E2. split; [reflexivity|].
      apply in_nrange. apply nd_lt; assumption.
  Qed.

  (** Jacobian of the bilinear map, up to scaling. *)
  Definition jac (u v : R) : R :=
    (1 - u) * (1 - v) * orient p4 p1 p2 + u * (1 - v) * orient p1 p2 p3 + u * v * orient p2 p3 p4 + (1 - u) * v * orient p3 p4 p1.
  Definition sqp (u v : R) : pt :=
    ((1 - u) * (1 - v) * fst p1 + u * (1 - v) * fst p2 + u * v * fst p3 + (1 - u) * v * fst p4,
     (1 - u) * (1 - v) * snd p1 + u * (1 - v) * snd p2 + u * v * snd p3 + (1 - u) * v * snd p4).
  Lemma qp_sqp : forall i j, qp i j = sqp (rN i / rN m) (rN j / rN n).
  Proof.
    intros i j. assert (Hm' := rN_pos m Hm). assert (Hn' := rN_pos n Hn). unfold quad_point, sqp. cbv zeta.
    fold (rN m) (rN n) (rN i) (rN j). apply f_equal2; field; lra.
  Qed.
  Lemma orient_up0 : forall u v a b, orient (sqp u v) (sqp (u + a) (v + b)) (sqp u (v + b)) = a * b * jac u (v + b).
  Proof. intros. unfold orient, sqp, jac, orient. cbn [fst snd]. ring. Qed.
  Lemma orient_up1 : forall u v a b, orient (sqp u v) (sqp (u + a) v) (sqp (u + a) (v + b)) = a * b * jac (u + a) v.
  Proof. intros. unfold orient, sqp, jac, orient. cbn [fst snd]. ring. Qed.
  Lemma orient_down0 : forall u v a b, orient (sqp u v) (sqp (u + a) v) (sqp u (v + b)) = a * b * jac u v.
  Proof. intros. unfold orient, sqp, jac, orient. cbn [fst snd]. ring. Qed.
  Lemma orient_down1 : forall u v a b, orient (sqp (u + a) v) (sqp (u + a) (v + b)) (sqp u (v + b)) = a * b * jac (u + a) (v + b).
  Proof. intros. unfold orient, sqp, jac, orient. cbn [fst snd]. ring. Qed.

  Lemma jac_pos : convex_ccw p1 p2 p3 p4 -> forall u v, 0 <= u <= 1 -> 0 <= v <= 1 -> 0 < jac u v.
  Proof.
    intros (A & B & C & D) u v Hu Hv. unfold jac.
    assert (E : forall x y o, 0 <= x -> 0 <= y -> 0 < o -> 0 <= x * y * o) by (intros; apply Rmult_le_pos; [apply Rmult_le_pos|]; lra).
    assert (Hs : 1 = (1 - u) * (1 - v) + u * (1 - v) + u * v + (1 - u) * v) by ring.
    set (lo := Rmin (Rmin (orient p4 p1 p2) (orient p1 p2 p3)) (Rmin (orient p2 p3 p4) (orient p3 p4 p1))).
    assert (L : 0 < lo) by (unfold lo; repeat apply Rmin_glb_lt; assumption).
    assert (L1 : lo <= orient p4 p1 p2) by (eapply Rle_trans; [apply Rmin_l|apply Rmin_l]).
    assert (L2 : lo <= orient p1 p2 p3) by (eapply Rle_trans; [apply Rmin_l|apply Rmin_r]).
    assert (L3 : lo <= orient p2 p3 p4) by (eapply Rle_trans; [apply Rmin_r|apply Rmin_l]).
    assert (L4 : lo <= orient p3 p4 p1) by (eapply Rle_trans; [apply Rmin_r|apply Rmin_r]).
    assert (G : forall x y o, 0 <= x -> 0 <= y -> lo <= o -> x * y * lo <= x * y * o).
    { intros x y o Hx Hy Ho. apply Rmult_le_compat_l; [apply Rmult_le_pos; assumption|exact Ho]. }
    pose proof (G (1 - u) (1 - v) _ ltac:(lra) ltac:(lra) L1). pose proof (G u (1 - v) _ ltac:(lra) ltac:(lra) L2).
    pose proof (G u v _ ltac:(lra) ltac:(lra) L3). pose proof (G (1 - u) v _ ltac:(lra) ltac:(lra) L4).
    assert (1 * lo = (1 - u) * (1 - v) * lo + u * (1 - v) * lo + u * v * lo + (1 - u) * v * lo) by (rewrite Hs at 1; ring). lra.
  Qed.

  Definition tri_orient (t : N * N * N) (pos : N -> pt) : R := orient (pos (vertex t 0)) (pos (vertex t 1)) (pos (vertex t 2)).
  (** Position of a node from its number. *)
  Definition node_pos (v : N) : pt := qp (v mod (m + 1)) (v / (m + 1)).
  Lemma node_pos_nd : forall i j, (i <= m)%N -> node_pos (nd m i j) = qp i j.
  Proof.
    intros i j Hi. unfold node_pos.
    assert (E1 : (nd m i j mod (m + 1) = i)%N) by (symmetry; apply (N.mod_unique _ (m + 1) j i); unfold nd; lia).
    assert (E2 : (nd m i j / (m + 1) = j)%N) by (symmetry; apply (N.div_unique _ (m + 1) j i); unfold nd; lia).
    rewrite E1, E2. reflexivity.
  Qed.

  Lemma cell_orient : forall c i j h, (i < m)%N -> (j < n)%N ->
    tri_orient (cell_tri m c i j h) node_pos =
    / rN m * / rN n * jac ((rN i + (match c, h with Up, false | Down, false => 0 | _, _ => 1 end)) / rN m)
                          ((rN j + (match c, h with Up, true | Down, false => 0 | _, _ => 1 end)) / rN n).
  Proof.
    intros c i j h Hi Hj. assert (Hm' := rN_pos m Hm). assert (Hn' := rN_pos n Hn).
    assert (U : forall k, rN (k + 1) / rN m = rN k / rN m + / rN m) by (intros; rewrite rN_add, rN_1; field; lra).
    assert (V : forall k, rN (k + 1) / rN n = rN k / rN n + / rN n) by (intros; rewrite rN_add, rN_1; field; lra).
    assert (U1 : (rN i + 1) / rN m = rN i / rN m + / rN m) by (field; lra). assert (V1 : (rN j + 1) / rN n = rN j / rN n + / rN n) by (field; lra).
    unfold tri_orient. destruct c, h; cbn [cell_tri vertex Nat.modulo Nat.divmod fst snd nth Nat.sub]; rewrite !node_pos_nd by lia; rewrite !qp_sqp, ?U, ?V, ?Rplus_0_r, ?U1, ?V1.
    - apply orient_up1.
    - apply orient_up0.
    - apply orient_down1.
    - apply orient_down0.
  Qed.

  Lemma frac_unit : forall k M, (k <= M)%N -> (0 < M)%N -> 0 <= rN k / rN M <= 1.
  Proof.
    intros k M H HM. assert (HM' := rN_pos M HM). pose proof (rN_le k M H). pose proof (rN_le 0 k ltac:(lia)) as Z. change (rN 0) with 0 in Z. split.
    - apply Rmult_le_pos; [exact Z|]. left. apply Rinv_0_lt_compat. exact HM'.
    - apply (Rmult_le_reg_r (rN M)); [exact HM'|]. unfold Rdiv. rewrite Rmult_assoc, Rinv_l by lra. lra.
  Qed.
  Lemma cell_ccw : convex_ccw p1 p2 p3 p4 -> forall c i j h, (i < m)%N -> (j < n)%N -> 0 < tri_orient (cell_tri m c i j h) node_pos.
  Proof.
    intros Cv c i j h Hi Hj. rewrite cell_orient by assumption. apply Rmult_lt_0_compat; [apply Rmult_lt_0_compat; apply Rinv_0_lt_compat, rN_pos; assumption|].
    apply jac_pos; [exact Cv| |].
    - destruct c, h; rewrite ?Rplus_0_r, <- ?rN_1, <- ?rN_add; apply frac_unit; lia.
    - destruct c, h; rewrite ?Rplus_0_r, <- ?rN_1, <- ?rN_add; apply frac_unit; lia.
  Qed.

  Lemma quad_ccw : forall pat, convex_ccw p1 p2 p3 p4 -> forall e t, In (e, t) (quad_elements pat m n) -> element_ccw node_list t.
  Proof.
    intros pat Cv e t H. apply in_quad_elements in H; [|exact Hm]. destruct H as (i & j & h & Hi & Hj & -> & ->).
    exists (node_pos (vertex (cell_tri m (cut_of pat i j) i j h) 0)), (node_pos (vertex (cell_tri m (cut_of pat i j) i j h) 1)), (node_pos (vertex (cell_tri m (cut_of pat i j) i j h) 2)).
    assert (P := cell_ccw Cv (cut_of pat i j) i j h Hi Hj). unfold tri_orient in P.
    destruct (cut_of pat i j), h; cbn [cell_tri vertex Nat.modulo Nat.divmod fst snd nth Nat.sub] in P |- *; rewrite !node_pos_nd in P by lia; rewrite !node_pos_nd by lia;
      (split; [apply node_at_ok; [lia|lia|reflexivity]|]; split; [apply node_at_ok; [lia|lia|reflexivity]|]; split; [apply node_at_ok; [lia|lia|reflexivity]|exact P]).
  Qed.

  (** ** Area *)
  Lemma jac_affine : forall u v, jac u v = jac 0 0 + u * (jac 1 0 - jac 0 0) + v * (jac 0 1 - jac 0 0).
  Proof. intros. unfold jac, orient. ring. Qed.
  Lemma cell_area : forall c i j, (i < m)%N -> (j < n)%N ->
    tri_orient (cell_tri m c i j false) node_pos + tri_orient (cell_tri m c i j true) node_pos =
    / rN m * / rN n * (2 * jac 0 0 + (jac 1 0 - jac 0 0) * ((2 * rN i + 1) / rN m) + (jac 0 1 - jac 0 0) * ((2 * rN j + 1) / rN n)).
  Proof.
    intros c i j Hi Hj. assert (Hm' := rN_pos m Hm). assert (Hn' := rN_pos n Hn). rewrite !cell_orient by assumption.
    set (J := jac). assert (A : forall u v, J u v = J 0 0 + u * (J 1 0 - J 0 0) + v * (J 0 1 - J 0 0)) by exact jac_affine.
    destruct c; rewrite (A ((_ + 0) / _) _), (A ((_ + 1) / _) _); field; lra.
  Qed.

  Lemma rsum_pairs : forall k f, rsum (2 * k) f = rsum k (fun i => f (2 * i)%nat + f (2 * i + 1)%nat).
  Proof.
    induction k as [|k IH]; intros f; [reflexivity|]. replace (2 * S k)%nat with (S (S (2 * k))) by lia. cbn [rsum]. rewrite IH. rewrite (Nat.add_1_r (2 * k)). ring.
  Qed.
  Lemma rsum_app : forall a b f, rsum (a + b) f = rsum a f + rsum b (fun i => f (a + i)%nat).
  Proof.
    intros a b f. induction b as [|b IH]; [rewrite Nat.add_0_r; cbn; ring|]. rewrite Nat.add_succ_r. cbn [rsum]. rewrite IH. ring.
  Qed.
  Lemma rsum_grid : forall a b f, rsum (a * b) f = rsum b (fun j => rsum a (fun i => f (i + a * j)%nat)).
  Proof.
    intros a b f. induction b as [|b IH]; [rewrite Nat.mul_0_r; reflexivity|]. rewrite Nat.mul_succ_r, rsum_app, IH. cbn [rsum]. f_equal.
    apply rsum_ext. intros i _. f_equal. lia.
  Qed.
  Lemma rsum_odd : forall k a b, rsum k (fun i => a + b * (2 * INR i + 1)) = a * INR k + b * (INR k * INR k).
  Proof. induction k as [|k IH]; intros; [cbn; ring|]. cbn [rsum]. rewrite IH, S_INR. ring. Qed.
  Lemma rN_INR : forall k, rN (N.of_nat k) = INR k.
  Proof. intros. unfold rN. rewrite nat_N_Z. symmetry. apply INR_IZR_INZ. Qed.

  Lemma quad_area : forall pat, elements_area2 node_pos (quad_elements pat m n) = orient p1 p2 p3 + orient p3 p4 p1.
  Proof.
    intros pat. unfold elements_area2, quad_elements, nrange. rewrite map_map, LemmasCond.lsum_map, lsum_seq. cbn [snd].
    set (a := N.to_nat m). set (b := N.to_nat n). assert (Ea : m = N.of_nat a) by lia. assert (Eb : n = N.of_nat b) by lia.
    replace (N.to_nat (2 * m * n)) with (2 * (a * b))%nat by lia. rewrite rsum_pairs, rsum_grid.
    assert (Hm' := rN_pos m Hm). assert (Hn' := rN_pos n Hn).
    rewrite (rsum_ext b _ (fun j => rsum a (fun i => / rN m * / rN n * (2 * jac 0 0 + (jac 0 1 - jac 0 0) * ((2 * INR j + 1) / rN n)) +
        / rN m * / rN n * (jac 1 0 - jac 0 0) / rN m * (2 * INR i + 1)))).
    2:{ intros j Hj. apply rsum_ext. intros i Hi.
        assert (I0 : N.of_nat (2 * (i + a * j)) = eid m (N.of_nat i) (N.of_nat j) false) by (unfold eid; lia).
        assert (I1 : N.of_nat (2 * (i + a * j) + 1) = eid m (N.of_nat i) (N.of_nat j) true) by (unfold eid; lia).
        rewrite I0, I1, !tri_of_eid by lia. pose proof (cell_area (cut_of pat (N.of_nat i) (N.of_nat j)) (N.of_nat i) (N.of_nat j) ltac:(lia) ltac:(lia)) as Q.
        unfold tri_orient in Q. rewrite Q, !rN_INR. field. lra. }
    rewrite (rsum_ext b _ (fun j => (INR a * (/ rN m * / rN n * (2 * jac 0 0)) + / rN m * / rN n * (jac 1 0 - jac 0 0) / rN m * (INR a * INR a)) +
        INR a * (/ rN m * / rN n * (jac 0 1 - jac 0 0) / rN n) * (2 * INR j + 1))).
    2:{ intros j Hj. rewrite rsum_odd. field. lra. }
    rewrite rsum_odd. rewrite <- (rN_INR a), <- (rN_INR b), <- Ea, <- Eb.
    replace (orient p1 p2 p3 + orient p3 p4 p1) with (2 * jac 0 0 + (jac 1 0 - jac 0 0) + (jac 0 1 - jac 0 0)) by (unfold jac, orient; ring).
    field. lra.
  Qed.
End Coordinates.

(** ** Reading the mesh *)
Lemma face_on_perm : forall els els' f q, Permutation els els' -> face_on els f q -> face_on els' f q.
Proof. intros els els' f q P (t & H & R). exists t. split; [exact (Permutation_in _ P H)|exact R]. Qed.
Lemma share_perm : forall els els' f g, Permutation els els' -> share_edge els f g -> share_edge els' f g.
Proof. intros els els' f g P (Hne & q & r & A & B & C). split; [exact Hne|]. exists q, r. split; [eapply face_on_perm; eauto|]. split; [eapply face_on_perm; eauto|exact C]. Qed.
Lemma ids_ok_perm : forall els els', Permutation els els' -> ids_ok els -> ids_ok els'.
Proof.
  intros els els' P [A B]. split; [eapply Permutation_NoDup; [apply Permutation_map; exact P|exact A]|].
  intros e t H. apply B. exact (Permutation_in _ (Permutation_sym P) H).
Qed.
Lemma at_most_two_perm : forall els els', Permutation els els' -> at_most_two els -> at_most_two els'.
Proof. intros els els' P A f g h H1 H2 H3. apply Permutation_sym in P. apply (A f g h); eapply share_perm; eauto. Qed.
Lemma meet_once_perm : forall els els', Permutation els els' -> meet_once els -> meet_once els'.
Proof.
  intros els els' P [A B]. apply Permutation_sym in P. split.
  - intros f g H. apply A. eapply share_perm; eauto.
  - intros f g f' g' H H' E1 E2. apply (B f g f' g'); [eapply share_perm; eauto|eapply share_perm; eauto|exact E1|exact E2].
Qed.
Lemma conforming_perm : forall els els' lists, Permutation els els' -> conforming els lists -> conforming els' lists.
Proof.
  intros els els' lists P (A & B & C & D). assert (P' := Permutation_sym P). split; [eapply at_most_two_perm; eauto|]. split; [eapply meet_once_perm; eauto|]. split.
  - intros f q Hf. destruct (C f q (face_on_perm _ _ _ _ P' Hf)) as [[(g & G) X]|[G X]]; [left|right].
    + split; [exists g; eapply share_perm; eauto|exact X].
    + split; [intros g Hg; apply (G g); eapply share_perm; eauto|exact X].
  - intros l x y Hl H. destruct (D l x y Hl H) as (f & q & Hf & E & U). exists f, q. split; [eapply face_on_perm; eauto|]. split; [exact E|].
    intros f' q' Hf'. apply U. eapply face_on_perm; eauto.
Qed.

Open Scope N_scope.
Definition known_type (t : N) : Prop := t = bt_land \/ t = bt_tide \/ t = bt_flow \/ t = bt_function \/ t = bt_outflow.

Section Reading.
  Context (types : list N) (lists : list (list N)) (els : list element).
  Context (HL : length types = length lists) (HT : Forall known_type types) (HC : conforming els lists).
  Notation mesh := (Adcirc els (open_lists types lists) (land_segments types lists) []).

  Lemma seg_in : forall s, In s (land_segments types lists) -> exists k c, (k < length lists)%nat /\
    land_code (nth k types 0) = Some c /\ s = Segment c (nth k lists []) None.
  Proof.
    intros s H. unfold land_segments in H. apply in_flat_map in H. destruct H as ([t l] & Hin & H). cbn [fst snd] in H.
    destruct (land_code t) as [c|] eqn:E; [|destruct H]. destruct H as [<-|[]].
    apply In_nth with (d := (0, [])) in Hin. destruct Hin as (k & Hk & Hin). rewrite combine_length, HL, Nat.min_id in Hk. rewrite combine_nth in Hin by exact HL. injection Hin as <- <-.
    exists k, c. auto.
  Qed.
  Lemma code_cases : forall t c, land_code t = Some c -> seg_kind c = Some t /\ (c = 0 \/ c = 2 \/ c = 77 \/ c = 88) /\ t <> bt_tide.
  Proof.
    intros t c H. unfold land_code in H. destruct (N.eqb_spec t bt_land) as [->|]; [injection H as <-; repeat split; auto; discriminate|].
    destruct (N.eqb_spec t bt_flow) as [->|]; [injection H as <-; repeat split; auto; discriminate|].
    destruct (N.eqb_spec t bt_function) as [->|]; [injection H as <-; repeat split; auto; discriminate|].
    destruct (N.eqb_spec t bt_outflow) as [->|]; [injection H as <-; repeat split; auto; discriminate|]. discriminate.
  Qed.
  Lemma segs_read_ok : segs_read mesh.
  Proof.
    intros s H. cbn [ad_segs] in H. destruct (seg_in s H) as (k & c & _ & E & ->). destruct (code_cases _ _ E) as (_ & [->|[->|[->| ->]]] & _); (split; [reflexivity|]); cbn; discriminate.
  Qed.
  Lemma no_conn : forall s c, In s (land_segments types lists) -> sg_ibconn s = Some c -> False.
  Proof. intros s c H E. destruct (seg_in s H) as (k & c' & _ & _ & ->). discriminate. Qed.
  Lemma barriers_none : barriers_ok (ad_segs mesh).
  Proof.
    split.
    - intros s c H E. exfalso. exact (no_conn s c H E).
    - intros i j l m' l' m'' x y (s & c & H & E & _). exfalso. apply nth_error_In in H. exact (no_conn s c H E).
  Qed.
  Lemma seg_ids_small : (forall l x, In l lists -> In x l -> x < 4294967296) -> seg_ids_ok (ad_segs mesh).
  Proof.
    intros B s x H [Hx|(c & E & _)]; [|exfalso; exact (no_conn s c H E)]. destruct (seg_in s H) as (k & c & Hk & _ & ->). cbn in Hx.
    apply (B (nth k lists [])); [apply nth_In; exact Hk|exact Hx].
  Qed.

  (** A face on list k carries the type of list k. *)
  Lemma list_type : forall f q k, face_on els f q -> (k < length lists)%nat -> neighbours (nth k lists []) (fst q) (snd q) ->
    classified mesh (fst q) (snd q) (nth k types 0).
  Proof.
    intros f q k Hf Hk HN. destruct HC as (_ & _ & C & _).
    assert (U : forall k', (k' < length lists)%nat -> neighbours (nth k' lists []) (fst q) (snd q) -> k' = k).
    { destruct (C f q Hf) as [[_ X]|[_ (s & Hs & _ & X)]].
      - exfalso. apply (X (nth k lists [])); [apply nth_In; exact Hk|exact HN].
      - intros k' Hk' H'. rewrite (X k Hk HN). apply X; assumption. }
    assert (Hk' : (k < length types)%nat) by lia.
    assert (Hc : forall t l, In (t, l) (combine types lists) -> neighbours l (fst q) (snd q) -> t = nth k types 0 /\ l = nth k lists []).
    { intros t l Hin Hn. apply In_nth with (d := (0, [])) in Hin. destruct Hin as (k' & Hb & Hin). rewrite combine_length, HL, Nat.min_id in Hb. rewrite combine_nth in Hin by exact HL.
      injection Hin as <- <-. rewrite (U k' Hb Hn). auto. }
    pose proof (proj1 (Forall_forall _ _) HT (nth k types 0) (nth_In _ _ Hk')) as KT.
    destruct (N.eq_dec (nth k types 0) bt_tide) as [E|E].
    - rewrite E. apply cl_open with (l := nth k lists []); [|exact HN]. cbn [ad_nbdv]. unfold open_lists. apply in_flat_map. exists (nth k types 0, nth k lists []).
      split; [rewrite <- combine_nth by exact HL; apply nth_In; rewrite combine_length; lia|]. cbn [fst snd]. rewrite E, N.eqb_refl. left. reflexivity.
    - assert (Code : exists c, land_code (nth k types 0) = Some c).
      { unfold land_code. destruct KT as [X|[X|[X|[X|X]]]]; try contradiction; rewrite X; eexists; reflexivity. }
      destruct Code as (c & Code). destruct (code_cases _ _ Code) as (SK & _ & _).
      assert (Sp : exists l1 l2, combine types lists = l1 ++ (nth k types 0, nth k lists []) :: l2 /\ length l1 = k).
      { assert (Hl : (k < length (combine types lists))%nat) by (rewrite combine_length; lia).
        destruct (nth_split (combine types lists) (0, []) Hl) as (l1 & l2 & Q1 & Q2). rewrite combine_nth in Q1 by exact HL. eauto. }
      destruct Sp as (l1 & l2 & Sp & Len).
      apply cl_segment with (s1 := flat_map (fun tl => match land_code (fst tl) with Some c => [Segment c (snd tl) None] | None => [] end) l1)
        (s := Segment c (nth k lists []) None) (s2 := flat_map (fun tl => match land_code (fst tl) with Some c => [Segment c (snd tl) None] | None => [] end) l2).
      + intros l Hl Hn. cbn [ad_nbdv] in Hl. unfold open_lists in Hl. apply in_flat_map in Hl. destruct Hl as ([t l'] & Hin & Hl). cbn [fst snd] in Hl.
        destruct (N.eqb_spec t bt_tide) as [Et|]; [|destruct Hl]. destruct Hl as [->|[]]. destruct (Hc t l Hin Hn) as [Ec _]. congruence.
      + cbn [ad_segs]. unfold land_segments. rewrite Sp, flat_map_app. cbn [flat_map fst snd]. rewrite Code. reflexivity.
      + exact SK.
      + left. exact HN.
      + intros s' Hs' _ Hh. apply in_flat_map in Hs'. destruct Hs' as ([t l] & Hin & Hs'). cbn [fst snd] in Hs'. destruct (land_code t) as [c'|]; [|destruct Hs'].
        destruct Hs' as [<-|[]]. destruct Hh as [Hh|(cc & X & _)]; [|discriminate]. cbn [sg_nbvv] in Hh.
        apply In_nth with (d := (0, [])) in Hin. destruct Hin as (k' & Hb & Hin).
        assert (Hin2 : nth k' (combine types lists) (0, []) = (t, l)) by (rewrite Sp, app_nth1 by exact Hb; exact Hin).
        rewrite combine_nth in Hin2 by exact HL. injection Hin2 as _ <-.
        assert (k' = k).
        { apply U; [|exact Hh]. lia. }
        lia.
  Qed.

  Lemma boundary_face_classified : forall f q, face_on els f q -> (forall g, ~ share_edge els f g) ->
    exists k, (k < length lists)%nat /\ neighbours (nth k lists []) (fst q) (snd q) /\ classified mesh (fst q) (snd q) (nth k types 0).
  Proof.
    intros f q Hf Hs. assert (C := proj1 (proj2 (proj2 HC))). destruct (C f q Hf) as [[(g & G) _]|[_ (k & Hk & HN & _)]]; [exfalso; exact (Hs g G)|].
    exists k. split; [exact Hk|]. split; [exact HN|]. exact (list_type f q k Hf Hk HN).
  Qed.
  Lemma known_not_levee : forall k, (k < length types)%nat -> nth k types 0 <> bt_levee /\ nth k types 0 <> bt_internal /\ nth k types 0 < 128.
  Proof.
    intros k Hk. pose proof (proj1 (Forall_forall _ _) HT _ (nth_In types 0 Hk)) as [->|[->|[->|[->| ->]]]]; repeat split; try discriminate; reflexivity.
  Qed.

  Context (HI : ids_ok els).
  Lemma metadata_total : forall order, Permutation order (edge_dictionary els) -> exists t, mesh_metadata mesh order = Ok t.
  Proof.
    intros order P. apply C14_construction_succeeds; [exact HI|exact (proj1 HC)|exact segs_read_ok|exact barriers_none|exact P|].
    intros f q Hf Hs. destruct (boundary_face_classified f q Hf Hs) as (k & Hk & _ & K). exists (nth k types 0). split; [exact K|].
    intros E. exfalso. destruct (known_not_levee k ltac:(lia)) as (X & _). contradiction.
  Qed.
  Lemma metadata_types : forall t, metadata_of mesh t -> forall f q k, face_on els f q -> (k < length lists)%nat ->
    neighbours (nth k lists []) (fst q) (snd q) -> et_get t f = Some (DEFAULT_ID, nth k types 0).
  Proof.
    intros t Ht f q k Hf Hk HN. assert (C := proj1 (proj2 (proj2 HC))).
    assert (Hs : forall g, ~ share_edge els f g).
    { destruct (C f q Hf) as [[_ X]|[X _]]; [|exact X]. exfalso. apply (X (nth k lists [])); [apply nth_In; exact Hk|exact HN]. }
    destruct (C14_unshared_faces_carry_their_type mesh t HI (proj1 HC) segs_read_ok Ht f q Hf Hs) as (bt & K & _ & G & _).
    assert (K' := list_type f q k Hf Hk HN). apply (C42_boundary_classification mesh) in K; [|exact segs_read_ok].
    apply (C42_boundary_classification mesh) in K'; [|exact segs_read_ok]. assert (bt = nth k types 0) by congruence. subst bt. apply G.
    exact (proj1 (known_not_levee k ltac:(lia))).
  Qed.
  Lemma serial_start : forall t rb, metadata_of mesh t -> raw_of mesh t rb -> (forall k, (k < length types)%nat -> nth k types 0 <> bt_outflow) -> initialize_serial rb = Ok tt.
  Proof.
    intros t rb Ht Hr Ho. apply (C36_no_outflow_all_consumed mesh t rb HI (proj1 HC)); [|exact Ht|exact Hr].
    intros s Hs E. cbn [ad_segs] in Hs. destruct (seg_in s Hs) as (k & c & Hk & Ec & ->). cbn in E. subst c. unfold land_code in Ec.
    destruct (N.eqb_spec (nth k types 0) bt_land); [discriminate|]. destruct (N.eqb_spec (nth k types 0) bt_flow); [discriminate|].
    destruct (N.eqb_spec (nth k types 0) bt_function); [discriminate|]. destruct (N.eqb_spec (nth k types 0) bt_outflow) as [E|]; [|discriminate].
    exact (Ho k ltac:(lia) E).
  Qed.
  Lemma outflow_stops : forall t rb, metadata_of mesh t -> raw_of mesh t rb ->
    (exists k x y, (k < length types)%nat /\ nth k types 0 = bt_outflow /\ neighbours (nth k lists []) x y) -> initialize_serial rb = Throw.
  Proof.
    intros t rb Ht Hr (k & x & y & Hk & E & HN). assert (D := proj2 (proj2 (proj2 HC))). assert (Hk' : (k < length lists)%nat) by lia.
    destruct (D (nth k lists []) x y (nth_In _ _ Hk') HN) as (f & q & Hf & HS & _).
    assert (HN' : neighbours (nth k lists []) (fst q) (snd q)).
    { destruct q as [a b]. destruct HS as [HS|HS]; cbn in HS; injection HS as -> ->; cbn; [exact HN|]. destruct HN; [right|left]; assumption. }
    assert (C := proj1 (proj2 (proj2 HC))).
    assert (Hs : forall g, ~ share_edge els f g).
    { destruct (C f q Hf) as [[_ X]|[X _]]; [|exact X]. exfalso. apply (X (nth k lists [])); [apply nth_In; exact Hk'|exact HN']. }
    assert (K := list_type f q k Hf Hk' HN'). rewrite E in K.
    destruct (C15_boundary_faces mesh t rb HI (proj1 HC) segs_read_ok Ht Hr bt_outflow ltac:(discriminate) ltac:(discriminate) ltac:(left; reflexivity)) as [_ G].
    assert (In f (map snd (rb bt_outflow))) as Hin by (apply G; eauto).
    unfold initialize_serial. destruct (forallb _ _) eqn:F; [|reflexivity]. rewrite forallb_forall in F. specialize (F 4%nat ltac:(apply in_seq; lia)). cbv zeta in F.
    change (N.of_nat 4) with bt_outflow in F. change (bound_consumed bt_outflow || intface_consumed bt_outflow)%bool with false in F. cbn [orb] in F.
    destruct (rb bt_outflow); [destruct Hin|discriminate].
  Qed.
End Reading.

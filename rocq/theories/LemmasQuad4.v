(** Quadrilateral mesh generator: the theorems. *)
From Coq Require Import Reals ZArith NArith List Arith Bool Lia Lra Permutation.
From Verif Require Import Num Outcome ModelMesh ModelQuad SpecMesh SpecShape SpecStep SpecQuad LemmasStep LemmasCond LemmasQuad LemmasQuad2 LemmasQuad3.
Import ListNotations.
Open Scope R_scope.

Lemma quad_mesh_eq : forall p1 p2 p3 p4 bath pat types m n, fits m n ->
  quad_mesh p1 p2 p3 p4 bath pat types m n = Ok (node_list p1 p2 p3 p4 bath m n, quad_adcirc types m n (quad_elements pat m n)).
Proof. intros. unfold quad_mesh. rewrite make_nodes_ok, make_elements_ok by assumption. reflexivity. Qed.

Lemma quad_complete : forall p1 p2 p3 p4 bath pat types m n, fits m n ->
  exists nodes mesh, quad_mesh p1 p2 p3 p4 bath pat types m n = Ok (nodes, mesh) /\
    map fst nodes = nrange ((m + 1) * (n + 1)) /\ map fst (ad_elements mesh) = nrange (2 * m * n) /\
    (forall i j q, (i <= m)%N -> (j <= n)%N -> (node_at nodes (i + (m + 1) * j) q <-> q = quad_point p1 p2 p3 p4 m n i j)) /\
    (forall e t k, In (e, t) (ad_elements mesh) -> (vertex t k < (m + 1) * (n + 1))%N) /\
    (forall v, (v < (m + 1) * (n + 1))%N -> exists e t k, In (e, t) (ad_elements mesh) /\ (k < 3)%nat /\ vertex t k = v).
Proof.
  intros p1 p2 p3 p4 bath pat types m n F. assert (F' := F). destruct F' as (Hm & Hn & _). eexists _, _. split; [apply quad_mesh_eq; exact F|].
  split. { unfold node_list. rewrite map_map. cbn [fst]. apply map_id. }
  cbn [ad_elements quad_adcirc]. split; [apply quad_ids|]. split; [|split].
  - intros i j q Hi Hj. apply node_at_ok; assumption.
  - intros e t k H. eapply vertex_range; eauto.
  - intros v Hv. apply nodes_used; assumption.
Qed.

Lemma quad_conforms : forall p1 p2 p3 p4 bath pat types m n nodes mesh, fits m n ->
  quad_mesh p1 p2 p3 p4 bath pat types m n = Ok (nodes, mesh) -> conforming (ad_elements mesh) (boundary_nodes m n).
Proof.
  intros p1 p2 p3 p4 bath pat types m n nodes mesh F E. rewrite quad_mesh_eq in E by exact F. injection E as <- <-. cbn [ad_elements quad_adcirc].
  destruct F as (Hm & Hn & _ & H2). apply quad_conforming; assumption.
Qed.

Lemma nth_range : forall (g : N -> N) k t v, nth_error (map g (nrange (k + 1))) t = Some v -> (N.of_nat t <= k)%N /\ v = g (N.of_nat t).
Proof.
  intros g k t v H. unfold nrange in H. rewrite map_map in H. assert (L : (t < N.to_nat (k + 1))%nat).
  { rewrite <- (seq_length (N.to_nat (k + 1)) 0), <- (map_length (fun x => g (N.of_nat x))). apply nth_error_Some. congruence. }
  split; [lia|]. rewrite nth_error_map, (nth_error_nth' _ 0%nat) in H by (rewrite seq_length; exact L). rewrite seq_nth in H by exact L. cbn [option_map Nat.add] in H. congruence.
Qed.
Lemma quad_boundary_lists : forall p1 p2 p3 p4 bath pat types m n nodes mesh, fits m n ->
  quad_mesh p1 p2 p3 p4 bath pat types m n = Ok (nodes, mesh) ->
  forall k v, (nth_error (nth 0 (boundary_nodes m n) []) k = Some v -> node_at nodes v (quad_point p1 p2 p3 p4 m n (N.of_nat k) 0)) /\
    (nth_error (nth 1 (boundary_nodes m n) []) k = Some v -> node_at nodes v (quad_point p1 p2 p3 p4 m n m (N.of_nat k))) /\
    (nth_error (nth 2 (boundary_nodes m n) []) k = Some v -> node_at nodes v (quad_point p1 p2 p3 p4 m n (N.of_nat k) n)) /\
    (nth_error (nth 3 (boundary_nodes m n) []) k = Some v -> node_at nodes v (quad_point p1 p2 p3 p4 m n 0 (N.of_nat k))).
Proof.
  intros p1 p2 p3 p4 bath pat types m n nodes mesh F E k v. rewrite quad_mesh_eq in E by exact F. injection E as <- <-. assert (F' := F). destruct F' as (Hm & Hn & _ & H2).
  assert (U : forall i j, (i <= m)%N -> (j <= n)%N -> u32 (nd m i j) = nd m i j) by (intros i j A B; apply u32_small; pose proof (nd_lt m n i j A B); lia).
  cbn [boundary_nodes nth]. repeat apply conj; intros H; apply nth_range in H; destruct H as [Hk ->].
  - replace (N.of_nat k) with (nd m (N.of_nat k) 0) at 1 by (unfold nd; lia). apply node_at_ok; solve [lia|reflexivity].
  - replace (m + N.of_nat k * (m + 1))%N with (nd m m (N.of_nat k)) by (unfold nd; lia). rewrite U by lia. apply node_at_ok; solve [lia|reflexivity].
  - replace (N.of_nat k + (m + 1) * n)%N with (nd m (N.of_nat k) n) by (unfold nd; lia). rewrite U by lia. apply node_at_ok; solve [lia|reflexivity].
  - replace (N.of_nat k * (m + 1))%N with (nd m 0 (N.of_nat k)) by (unfold nd; lia). rewrite U by lia. apply node_at_ok; solve [lia|reflexivity].
Qed.

Lemma quad_counter_clockwise : forall p1 p2 p3 p4 bath pat types m n nodes mesh, fits m n -> convex_ccw p1 p2 p3 p4 ->
  quad_mesh p1 p2 p3 p4 bath pat types m n = Ok (nodes, mesh) -> forall e t, In (e, t) (ad_elements mesh) -> element_ccw nodes t.
Proof.
  intros p1 p2 p3 p4 bath pat types m n nodes mesh F C E. rewrite quad_mesh_eq in E by exact F. injection E as <- <-. destruct F as (Hm & Hn & _). cbn [ad_elements quad_adcirc].
  apply quad_ccw; assumption.
Qed.

Lemma quad_total_area : forall p1 p2 p3 p4 bath pat types m n nodes mesh pos, fits m n ->
  quad_mesh p1 p2 p3 p4 bath pat types m n = Ok (nodes, mesh) -> (forall v, (v < (m + 1) * (n + 1))%N -> node_at nodes v (pos v)) ->
  elements_area2 pos (ad_elements mesh) = orient p1 p2 p3 + orient p3 p4 p1.
Proof.
  intros p1 p2 p3 p4 bath pat types m n nodes mesh pos F E HP. rewrite quad_mesh_eq in E by exact F. injection E as <- <-. destruct F as (Hm & Hn & _). cbn [ad_elements quad_adcirc].
  rewrite <- (quad_area p1 p2 p3 p4 m n Hm Hn pat). unfold elements_area2. apply lsum_ext. intros [e t] Hin. cbn [snd].
  assert (Q : forall k, pos (vertex t k) = node_pos p1 p2 p3 p4 m n (vertex t k)).
  { intros k. assert (L := vertex_range pat m n Hm Hn e t k Hin). specialize (HP _ L).
    set (v := vertex t k) in *. set (i := (v mod (m + 1))%N). set (j := (v / (m + 1))%N).
    assert (Hi : (i <= m)%N) by (pose proof (N.mod_lt v (m + 1) ltac:(lia)); subst i; lia).
    assert (Hj : (j <= n)%N) by (assert (j < n + 1)%N by (apply N.div_lt_upper_bound; lia); lia).
    assert (Ev : v = nd m i j) by (unfold nd; pose proof (N.div_mod v (m + 1) ltac:(lia)); subst i j; lia).
    rewrite Ev in HP at 1. apply node_at_ok in HP; [|assumption..]. rewrite HP. reflexivity. }
  rewrite !Q. reflexivity.
Qed.

Lemma quad_readable : forall p1 p2 p3 p4 bath pat types m n nodes mesh els, fits m n -> length types = 4%nat -> Forall known_type types ->
  quad_mesh p1 p2 p3 p4 bath pat types m n = Ok (nodes, mesh) -> Permutation els (ad_elements mesh) ->
  let read := Adcirc els (ad_nbdv mesh) (ad_segs mesh) (ad_nbgn mesh) in
  ids_ok els /\ conforming els (boundary_nodes m n) /\ segs_read read /\
  (forall order, Permutation order (edge_dictionary els) -> exists t, mesh_metadata read order = Ok t) /\
  (forall t, metadata_of read t ->
     (forall f q k, face_on els f q -> (k < 4)%nat -> neighbours (nth k (boundary_nodes m n) []) (fst q) (snd q) ->
        et_get t f = Some (DEFAULT_ID, nth k types 0%N)) /\
     (forall rb, raw_of read t rb ->
        (~ In bt_outflow types -> initialize_serial rb = Ok tt) /\ (In bt_outflow types -> initialize_serial rb = Throw))).
Proof.
  intros p1 p2 p3 p4 bath pat types m n nodes mesh els F HL HT E P. rewrite quad_mesh_eq in E by exact F. injection E as <- <-.
  cbn [ad_elements ad_nbdv ad_segs ad_nbgn quad_adcirc] in *. cbv zeta. assert (F' := F). destruct F' as (Hm & Hn & H1 & H2).
  assert (P' := Permutation_sym P).
  assert (HC : conforming els (boundary_nodes m n)) by (eapply conforming_perm; [exact P'|apply quad_conforming; assumption]).
  assert (HI : ids_ok els) by (eapply ids_ok_perm; [exact P'|apply quad_ids_ok; assumption]).
  assert (HL' : length types = length (boundary_nodes m n)) by exact HL.
  split; [exact HI|]. split; [exact HC|]. split; [apply segs_read_ok; assumption|]. split; [intros order Ho; apply metadata_total; assumption|].
  intros t Ht. split.
  - intros f q k Hf Hk HN. eapply metadata_types; eauto.
  - intros rb Hr. split.
    + intros Ho. apply (serial_start types (boundary_nodes m n) els HL' HC HI t rb Ht Hr). intros k Hk E. apply Ho. rewrite <- E. apply nth_In. exact Hk.
    + intros Ho. apply In_nth with (d := 0%N) in Ho. destruct Ho as (k & Hk & E). apply (outflow_stops types (boundary_nodes m n) els HL' HT HC HI t rb Ht Hr).
      assert (Q : exists x y, neighbours (nth k (boundary_nodes m n) []) x y).
      { destruct (neighbours_edge pat m n Hm Hn H2 k (fst (ends pat m (side_ends_of m n k 0))) (snd (ends pat m (side_ends_of m n k 0))) ltac:(lia)) as [_ Q].
        eexists _, _. apply Q. exists 0%N. split; [destruct k as [|[|[|k]]]; cbn; assumption|]. rewrite <- surjective_pairing. left. reflexivity. }
      destruct Q as (x & y & Q). exists k, x, y. auto.
Qed.

Lemma nrange_start : forall k, exists r, nrange (3 + k) = 0%N :: 1%N :: 2%N :: r.
Proof. intros k. unfold nrange. replace (N.to_nat (3 + k)) with (S (S (S (N.to_nat k)))) by lia. eexists. reflexivity. Qed.
Lemma third_outside : forall (A : Type) (a b c : A) l f,
  ofold vset ((0, a) :: (65537, b) :: (131074, c) :: l)%N (Vec 131073 f) = UB.
Proof. reflexivity. Qed.
Lemma quad_wrap : exists m n, (0 < m)%N /\ (0 < n)%N /\ (m < 4294967296)%N /\ (n < 4294967296)%N /\
  forall p1 p2 p3 p4 bath pat types, quad_mesh p1 p2 p3 p4 bath pat types m n = UB.
Proof.
  exists 65536%N, 65536%N. repeat (split; [reflexivity|]). intros p1 p2 p3 p4 bath pat types.
  assert (E : make_nodes p1 p2 p3 p4 bath 65536 65536 = UB).
  { unfold make_nodes, node_writes. change (nrange (65536 + 1)) with (nrange (3 + 65534)). destruct (nrange_start 65534) as [r ->].
    cbn [flat_map map app]. cbv zeta.
    change (u32 ((65536 + 1) * (65536 + 1))) with 131073%N. change (u32 (0 * (65536 + 1) + 0)) with 0%N. change (u32 (1 * (65536 + 1) + 0)) with 65537%N. change (u32 (2 * (65536 + 1) + 0)) with 131074%N.
    rewrite third_outside. reflexivity. }
  unfold quad_mesh. rewrite E. reflexivity.
Qed.

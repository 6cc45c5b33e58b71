(** End-to-end forms of the mesh lemmas. *)
From Coq Require Import NArith List Bool Arith Lia Permutation.
From Verif Require Import Outcome ModelMesh SpecMesh LemmasMesh LemmasMesh2 LemmasMesh3 LemmasMesh4 LemmasMesh5 LemmasMesh6 LemmasMesh7.
Import ListNotations.
Local Open Scope N_scope.

Lemma meta_shared : forall m t, ids_ok (ad_elements m) -> at_most_two (ad_elements m) -> metadata_of m t ->
  forall f g, share_edge (ad_elements m) f g ->
  et_get t f = Some (fst g, bt_internal) /\ et_get t g = Some (fst f, bt_internal).
Proof.
  intros m t OK A2 (order & P & H) f g S. split.
  - apply (metadata_shared _ OK A2 m order t eq_refl P H); assumption.
  - apply (metadata_shared _ OK A2 m order t eq_refl P H). apply share_sym; assumption.
Qed.

Lemma meta_mutual : forall m t, ids_ok (ad_elements m) -> at_most_two (ad_elements m) -> metadata_of m t ->
  forall f n, mesh_face (ad_elements m) f -> et_get t f = Some (n, bt_internal) ->
  exists g, fst g = n /\ share_edge (ad_elements m) f g /\ et_get t g = Some (fst f, bt_internal).
Proof. intros m t OK A2 (order & P & H). apply (metadata_mutual m order t OK A2 P H). Qed.

Lemma meta_boundary : forall m t, ids_ok (ad_elements m) -> at_most_two (ad_elements m) -> segs_read m -> metadata_of m t ->
  forall f p, face_on (ad_elements m) f p -> (forall g, ~ share_edge (ad_elements m) f g) ->
  exists bt, classified m (fst p) (snd p) bt /\ bt <> bt_internal /\
    (bt <> bt_levee -> et_get t f = Some (DEFAULT_ID, bt)) /\
    (bt = bt_levee -> exists n, et_get t f = Some (n, bt_levee)).
Proof.
  intros m t OK A2 SR (order & P & H) f p Hf NS.
  destruct (metadata_single _ OK A2 m order t eq_refl P H f p Hf NS) as (bt & EB & C).
  exists bt. split; [apply get_ibtype_spec; assumption|].
  apply get_ibtype_range in EB. cbn in EB.
  destruct (is_internal bt) eqn:EI.
  - destruct C as (q & g & g' & _ & _ & C).
    assert (bt = bt_levee) by (repeat destruct EB as [EB|EB]; try contradiction; rewrite <- EB in *; try discriminate; reflexivity).
    subst bt. repeat split; [discriminate | congruence | eauto].
  - repeat split; auto; intros ->; discriminate.
Qed.

Lemma meta_levee : forall m t, ids_ok (ad_elements m) -> at_most_two (ad_elements m) -> segs_read m ->
  seg_ids_ok (ad_segs m) -> barriers_ok (ad_segs m) -> metadata_of m t ->
  forall f g, levee_faces m f g -> et_get t f = Some (fst g, bt_levee) /\ et_get t g = Some (fst f, bt_levee).
Proof.
  intros m t OK A2 SR SO BO (order & P & H) f g L. apply levee_faces_iff in L; [|assumption..]. split.
  - apply (levee_value m order t OK A2 SO BO P H); assumption.
  - apply (levee_value m order t OK A2 SO BO P H). apply levee_pair_sym; assumption.
Qed.

Lemma meta_total : forall m order, ids_ok (ad_elements m) -> at_most_two (ad_elements m) -> segs_read m -> barriers_ok (ad_segs m) ->
  Permutation order (edge_dictionary (ad_elements m)) ->
  (forall f p, face_on (ad_elements m) f p -> (forall g, ~ share_edge (ad_elements m) f g) ->
     exists bt, classified m (fst p) (snd p) bt /\
       (bt = bt_levee -> exists g r, face_on (ad_elements m) g r /\ faces_across (ad_segs m) p r)) ->
  exists t, mesh_metadata m order = Ok t.
Proof.
  intros m order OK A2 SR BO P HC. apply (metadata_total _ OK A2 m order eq_refl P).
  intros f p Hf NS. destruct (HC f p Hf NS) as (bt & CL & LV). exists bt.
  apply get_ibtype_spec in CL; [|assumption]. split; [assumption|]. intros EI.
  apply get_ibtype_range in CL. cbn in CL.
  assert (bt = bt_levee) by (repeat destruct CL as [CL|CL]; try contradiction; rewrite <- CL in *; try discriminate; reflexivity).
  destruct (LV H) as (g & r & Hr & FA). apply faces_across_iff in FA as (q & Eq & S); [|assumption].
  exists q. split; [assumption|]. exists g, r. auto.
Qed.

Lemma raw_internal : forall m t rb, ids_ok (ad_elements m) -> at_most_two (ad_elements m) -> meet_once (ad_elements m) ->
  metadata_of m t -> raw_of m t rb ->
  (forall f g, In (f, g) (create_interfaces (rb bt_internal)) -> share_edge (ad_elements m) f g) /\
  NoDup (flat_map (fun p => [fst p; snd p]) (create_interfaces (rb bt_internal))) /\
  (forall f, In f (flat_map (fun p => [fst p; snd p]) (create_interfaces (rb bt_internal))) <-> exists g, share_edge (ad_elements m) f g).
Proof.
  intros m t rb OK A2 MO (order & P & H) (ids & PI & HR). apply (internal_interfaces m order t ids rb); assumption.
Qed.

Lemma raw_levee : forall m t rb, ids_ok (ad_elements m) -> at_most_two (ad_elements m) -> segs_read m ->
  seg_ids_ok (ad_segs m) -> barriers_ok (ad_segs m) -> levee_closed m ->
  (forall f g, levee_faces m f g -> fst f <> fst g) ->
  (forall f g f' g', levee_faces m f g -> levee_faces m f' g' -> fst f = fst f' -> fst g = fst g' -> f = f') ->
  metadata_of m t -> raw_of m t rb ->
  (forall f g, In (f, g) (create_interfaces (rb bt_levee)) -> levee_faces m f g) /\
  NoDup (flat_map (fun p => [fst p; snd p]) (create_interfaces (rb bt_levee))) /\
  (forall f, In f (flat_map (fun p => [fst p; snd p]) (create_interfaces (rb bt_levee))) <-> exists g, levee_faces m f g).
Proof.
  intros m t rb OK A2 SR SO BO LC L1 L2 (order & P & H) (ids & PI & HR).
  assert (LI : forall f g, levee_faces m f g <-> levee_pair m f g) by (intros; apply levee_faces_iff; assumption).
  destruct (levee_interfaces m order t ids rb) as (A & B & C); try assumption.
  - intros p q g r Tp Eq Hr S. destruct (LC p g r) as [X Y].
    + apply get_ibtype_spec; assumption.
    + assumption.
    + apply faces_across_iff; eauto.
    + split; [assumption | apply get_ibtype_spec; assumption].
  - intros f g L. apply LI in L. apply L1; assumption.
  - intros f g f' g' L L'. apply LI in L, L'. apply (L2 f g f' g'); assumption.
  - split; [intros f g I; apply LI, A; assumption|]. split; [exact B|].
    intros f. unfold both in C. rewrite C. split; intros (g & L); exists g; apply LI; assumption.
Qed.

Lemma raw_boundary : forall m t rb, ids_ok (ad_elements m) -> at_most_two (ad_elements m) -> segs_read m ->
  metadata_of m t -> raw_of m t rb ->
  forall T, T <> bt_internal -> T <> bt_levee -> (T < 128 \/ 192 <= T) ->
  NoDup (map snd (rb T)) /\
  forall f, In f (map snd (rb T)) <->
    exists p, face_on (ad_elements m) f p /\ (forall g, ~ share_edge (ad_elements m) f g) /\ classified m (fst p) (snd p) T.
Proof.
  intros m t rb OK A2 SR (order & P & H) (ids & PI & HR) T T1 T2 RG.
  assert (TI : is_internal T = false).
  { unfold is_internal, INTERNAL, DISTRIBUTED. apply andb_false_iff. rewrite N.leb_gt, N.ltb_ge. lia. }
  destruct (boundary_faces m order t ids rb OK A2 P H PI HR T TI) as [A B]. split; [assumption|].
  intros f. rewrite B. split; intros (p & Hp & NS & C); exists p; repeat split; auto; apply get_ibtype_spec; assumption.
Qed.

Lemma raw_total : forall m t, metadata_of m t -> ids_ok (ad_elements m) -> at_most_two (ad_elements m) ->
  forall ids, Permutation ids (map fst (ad_elements m)) -> exists rb, create_raw ids t = Ok rb.
Proof.
  intros m t (order & P & H) OK A2 ids PI.
  assert (D : forall e, In e ids -> exists g, t e = Some g).
  { intros e I. apply (Permutation_in _ PI) in I.
    assert (FO : exists p, face_on (ad_elements m) (e, 0%nat) p) by (apply face_on_iff; split; [assumption | apply Nat.lt_0_succ]).
    destruct FO as (p & Hp).
    assert (G : et_get t (e, 0%nat) <> None).
    { destruct (share_dec _ _ p OK Hp) as [(g & S)|NS].
      - rewrite (metadata_shared _ OK A2 m order t eq_refl P H _ _ S). discriminate.
      - destruct (metadata_single _ OK A2 m order t eq_refl P H _ _ Hp NS) as (bt & _ & C).
        destruct (is_internal bt); [destruct C as (? & ? & ? & _ & _ & ->) | rewrite C]; discriminate. }
    unfold et_get in G. cbn [fst] in G. destruct (t e) as [g|]; [exists g; reflexivity | congruence]. }
  clear PI. unfold create_raw. generalize (fun _ : N => @nil (N * N * face)) as rb0.
  induction ids as [|e ids IH]; intros rb0; [exists rb0; reflexivity|].
  cbn [ofold]. destruct (D e (or_introl eq_refl)) as (g & ->). cbn [bind].
  apply IH. intros; apply D; right; assumption.
Qed.

Lemma init_ok : forall m t rb, ids_ok (ad_elements m) -> at_most_two (ad_elements m) ->
  (forall s, In s (ad_segs m) -> sg_type s <> 88) -> metadata_of m t -> raw_of m t rb ->
  initialize_serial rb = Ok tt.
Proof.
  intros m t rb OK A2 N8 (order & P & H) (ids & PI & HR). apply (initialize_ok m order t ids rb); assumption.
Qed.

(** Edge kinds. *)
Lemma edge_kind_one : forall e, e < 256 ->
  (is_boundary e = true /\ is_internal e = false /\ is_distributed e = false) \/
  (is_boundary e = false /\ is_internal e = true /\ is_distributed e = false) \/
  (is_boundary e = false /\ is_internal e = false /\ is_distributed e = true).
Proof.
  intros e He. unfold is_boundary, is_internal, is_distributed, INTERNAL, DISTRIBUTED.
  destruct (N.ltb_spec e 128), (N.leb_spec 128 e), (N.ltb_spec e 192), (N.leb_spec 192 e); cbn; auto 10; lia.
Qed.
Lemma distributed_kind : forall e, e < 256 -> is_internal e = true -> is_distributed (distributed e) = true /\ distributed e < 256.
Proof.
  intros e He H. unfold is_internal, is_distributed, distributed, INTERNAL, DISTRIBUTED, DISTRIBUTED_OFFSET in *.
  apply andb_true_iff in H as [A B]. apply N.leb_le in A. apply N.ltb_lt in B.
  rewrite N.mod_small by lia. split; [apply N.leb_le|]; lia.
Qed.
Lemma distributed_inj : forall e f, e < 256 -> f < 256 -> distributed e = distributed f -> e = f.
Proof.
  intros e f He Hf H. unfold distributed, DISTRIBUTED_OFFSET in H.
  pose proof (N.div_mod (e + 64) 256 ltac:(discriminate)) as A.
  pose proof (N.div_mod (f + 64) 256 ltac:(discriminate)) as B.
  assert ((e + 64) / 256 < 2) by (apply N.div_lt_upper_bound; lia).
  assert ((f + 64) / 256 < 2) by (apply N.div_lt_upper_bound; lia).
  rewrite H in A. nia.
Qed.

(** Interface creation alone, on any map with matching keys. *)
Lemma create_interfaces_exact : forall (V : Type) (m : rmap V), NoDup (map fst m) ->
  (forall k, In k (map fst m) -> fst k <> snd k /\ In (snd k, fst k) (map fst m)) ->
  Permutation (flat_map (fun p => [fst p; snd p]) (create_interfaces m)) (map snd m) /\
  (forall v v', In (v, v') (create_interfaces m) -> exists k, In (k, v) m /\ In ((snd k, fst k), v') m).
Proof.
  intros V m ND HK. split.
  - pose proof (create_interfaces_perm V m ND) as C. unfold both in C. etransitivity; [apply C|].
    + intros k I E. destruct (HK k I) as [N _]. unfold swap in E. destruct k; cbn in *. congruence.
    + replace (filter (fun kv => mem_key m (swap (fst kv))) m) with m; [reflexivity|].
      assert (G : forall l, incl l m -> l = filter (fun kv => mem_key m (swap (fst kv))) l).
      { induction l as [|[k v] l IH]; intros IC; [reflexivity|]. cbn [filter fst].
        assert (MK : mem_key m (swap k) = true).
        { apply mem_key_spec. destruct (HK k) as [_ J]; [apply (in_map fst) with (x := (k, v)), IC; left; reflexivity | exact J]. }
        rewrite MK. f_equal. apply IH. intros z I. apply IC; right; assumption. }
      apply G, incl_refl.
  - exact (create_interfaces_pairs V m ND).
Qed.

Lemma start_exact : forall rb, initialize_serial rb = Ok tt <->
  forall t, t < 256 -> rb t <> [] -> In t [bt_land; bt_tide; bt_flow; bt_function; bt_internal; bt_levee].
Proof.
  intros rb. unfold initialize_serial.
  assert (C : forall t, bound_consumed t || intface_consumed t = true <-> In t [bt_land; bt_tide; bt_flow; bt_function; bt_internal; bt_levee]).
  { intros t. unfold bound_consumed, intface_consumed. rewrite !orb_true_iff, !N.eqb_eq. cbn [In]. intuition congruence. }
  split.
  - intros H t Ht Hr. destruct (forallb _ _) eqn:F; [|discriminate]. rewrite forallb_forall in F. specialize (F (N.to_nat t) ltac:(apply in_seq; lia)).
    cbv zeta in F. rewrite N2Nat.id in F. apply orb_true_iff in F as [F|F]; [apply C; exact F|]. destruct (rb t); [contradiction|discriminate].
  - intros H. rewrite (proj2 (forallb_forall _ _)); [reflexivity|]. intros n Hn. apply in_seq in Hn. cbv zeta. apply orb_true_iff.
    destruct (rb (N.of_nat n)) eqn:E; [right; reflexivity|]. left. apply C, H; [lia|]. rewrite E. discriminate.
Qed.

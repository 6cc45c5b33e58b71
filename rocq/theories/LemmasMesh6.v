From Coq Require Import NArith List Bool Arith Lia Permutation.
From Verif Require Import Outcome ModelMesh SpecMesh LemmasMesh LemmasMesh2 LemmasMesh3 LemmasMesh4 LemmasMesh5.
Import ListNotations.
Local Open Scope N_scope.

Lemma share_sym : forall els f g, share_edge els f g -> share_edge els g f.
Proof.
  intros els f g (D & p & q & Hp & Hq & S). split; [auto|]. exists q, p. repeat split; auto.
  destruct S as [->| ->]; [left; reflexivity | right; destruct q; reflexivity].
Qed.
Lemma same_edge_sym : forall p q, same_edge p q -> same_edge q p.
Proof. intros p q [->| ->]; [left; reflexivity | right; destruct q; reflexivity]. Qed.

Lemma get_ibtype_same : forall m p q, same_edge p q -> get_ibtype m (fst p) (snd p) = get_ibtype m (fst q) (snd q).
Proof. intros m p q [->| ->]; [reflexivity | cbn [fst snd]; apply get_ibtype_sym]. Qed.

Definition is_side_face (els : list (N * (N * N * N))) (f : face) : Prop := exists p, face_on els f p.

Lemma face_on_iff : forall els f, (exists p, face_on els f p) <-> In (fst f) (map fst els) /\ (snd f < 3)%nat.
Proof.
  intros els f; split.
  - intros (p & t & I & Hk & _). split; [apply (in_map fst) in I; exact I | assumption].
  - intros [I Hk]. apply in_map_iff in I as ([e t] & E & I). cbn in E; subst e.
    exists (side t (snd f)), t. auto.
Qed.

(** Shared or not is decidable. *)
Lemma share_dec : forall els f p, ids_ok els -> face_on els f p -> (exists g, share_edge els f g) \/ (forall g, ~ share_edge els f g).
Proof.
  intros els f p OK Hf.
  set (k := edge_key (fst p) (snd p)).
  assert (D : {g | In g (faces_at (all_faces els) k) /\ g <> f} + {forall g, In g (faces_at (all_faces els) k) -> g = f}).
  { induction (faces_at (all_faces els) k) as [|g r IH]; [right; intros ? []|].
    destruct (face_eq_dec g f) as [->|N]; [|left; exists g; cbn; auto].
    destruct IH as [[g' [I N]]|U]; [left; exists g'; cbn; auto | right; intros g' [<-|I]; auto]. }
  destruct D as [(g & I & N)|U].
  - left. exists g. apply share_iff; [assumption|]. split; [auto|]. exists k. split; [|assumption].
    rewrite faces_at_in, in_all_faces. exists p; auto.
  - right. intros g S. apply share_iff in S as (N & k' & I & J); [|assumption].
    rewrite faces_at_in, in_all_faces in I. destruct I as (p' & Hp' & ->).
    rewrite <- (face_on_fun _ _ _ _ (proj1 OK) Hf Hp') in J. fold k in J. apply U in J. congruence.
Qed.

Lemma metadata_mutual : forall m order t, ids_ok (ad_elements m) -> at_most_two (ad_elements m) ->
  Permutation order (edge_dictionary (ad_elements m)) -> mesh_metadata m order = Ok t ->
  forall f n, is_side_face (ad_elements m) f -> et_get t f = Some (n, bt_internal) ->
  exists g, fst g = n /\ share_edge (ad_elements m) f g /\ et_get t g = Some (fst f, bt_internal).
Proof.
  intros m order t OK A2 P H f n (p & Hf) E.
  destruct (share_dec _ f p OK Hf) as [(g & S)|NS].
  - pose proof (metadata_shared _ OK A2 m order t eq_refl P H f g S) as E1.
    pose proof (metadata_shared _ OK A2 m order t eq_refl P H g f (share_sym _ _ _ S)) as E2.
    exists g. rewrite E in E1. injection E1 as ->. auto.
  - exfalso. destruct (metadata_single _ OK A2 m order t eq_refl P H f p Hf NS) as (bt & EB & C).
    apply get_ibtype_range in EB.
    destruct (is_internal bt) eqn:EI.
    + destruct C as (q & g & g' & _ & _ & C). rewrite E in C. injection C as _ <-. cbn in EB.
      repeat destruct EB as [EB|EB]; try discriminate; exact EB.
    + rewrite E in C. injection C as _ <-. discriminate.
Qed.

Lemma internal_interfaces : forall m order t ids rb, ids_ok (ad_elements m) -> at_most_two (ad_elements m) ->
  meet_once (ad_elements m) ->
  Permutation order (edge_dictionary (ad_elements m)) -> mesh_metadata m order = Ok t ->
  Permutation ids (map fst (ad_elements m)) -> create_raw ids t = Ok rb ->
  (forall f g, In (f, g) (create_interfaces (rb bt_internal)) -> share_edge (ad_elements m) f g) /\
  NoDup (flat_map both (create_interfaces (rb bt_internal))) /\
  (forall f, In f (flat_map both (create_interfaces (rb bt_internal))) <-> exists g, share_edge (ad_elements m) f g).
Proof.
  intros m order t ids rb OK A2 [MO1 MO2] P H PI HR.
  apply (interfaces_pairing bt_internal t ids (share_edge (ad_elements m))); try assumption.
  - reflexivity.
  - apply (Permutation_NoDup (Permutation_sym PI)). apply OK.
  - intros f nb [I Hk] E. apply (Permutation_in _ PI) in I.
    destruct (metadata_mutual m order t OK A2 P H f nb) as (g & _ & S & _); [|assumption|exists g; assumption].
    apply face_on_iff. auto.
  - intros f g S. split.
    + assert (F : exists p, face_on (ad_elements m) f p) by (destruct S as (_ & p & _ & Hp & _); exists p; assumption).
      apply face_on_iff in F as [I Hk]. split; [apply (Permutation_in _ (Permutation_sym PI)); assumption | assumption].
    + apply (metadata_shared _ OK A2 m order t eq_refl P H); assumption.
  - apply share_sym.
Qed.

Lemma barrier_side_ids : forall segs i l m x, seg_ids_ok segs -> barrier_side segs i l m -> In x l \/ In x m -> x < 4294967296.
Proof.
  intros segs i l m x SO (s & c & E & Ec & D) I. apply nth_error_In in E. apply (SO s x E).
  destruct D as [[-> ->]|[-> ->]]; destruct I as [I|I]; [left; auto | right; eauto | right; eauto | left; auto].
Qed.

(** Levee faces that face each other across a barrier. *)
Definition levee_pair (m : adcirc) (f g : face) : Prop :=
  exists p r q, face_on (ad_elements m) f p /\ face_on (ad_elements m) g r /\
    (forall h, ~ share_edge (ad_elements m) f h) /\ (forall h, ~ share_edge (ad_elements m) g h) /\
    get_ibtype m (fst p) (snd p) = Ok bt_levee /\ get_ibtype m (fst r) (snd r) = Ok bt_levee /\
    get_internal_node_pair (ad_segs m) (fst p) (snd p) = Ok q /\ same_edge q r.

Lemma node_pair_edge : forall segs p q, barriers_ok segs -> get_internal_node_pair segs (fst p) (snd p) = Ok q ->
  barrier_edge segs (fst p) (snd p) /\
  get_internal_node_pair segs (fst q) (snd q) = Ok p /\
  get_internal_node_pair segs (snd p) (fst p) = Ok (snd q, fst q) /\
  barrier_edge segs (fst q) (snd q).
Proof.
  intros segs [x y] q BO H. cbn [fst snd] in *.
  assert (BE : barrier_edge segs x y).
  { assert (DEC : {has : bool | has = true <-> barrier_edge segs x y}).
    { exists (existsb (fun s => match sg_ibconn s with Some c => has_edge (sg_nbvv s) x y || has_edge c x y | None => false end) segs).
      rewrite existsb_exists. split.
      - intros (s & I & E). destruct (sg_ibconn s) as [c|] eqn:Ec; [|discriminate].
        apply In_nth_error in I as (i & I). apply orb_true_iff in E as [E|E]; apply has_edge_spec in E.
        + exists i, (sg_nbvv s), c. split; [exists s, c; auto | assumption].
        + exists i, c, (sg_nbvv s). split; [exists s, c; auto | assumption].
      - intros (i & l & mm & (s & c & I & Ec & D) & NB). exists s. split; [eapply nth_error_In; eassumption|].
        rewrite Ec. apply orb_true_iff. destruct D as [[-> ->]|[-> ->]]; [left | right]; apply has_edge_spec; assumption. }
    destruct DEC as [[|] HD]; [apply HD; reflexivity|].
    assert (NB : ~ barrier_edge segs x y) by (intros C; apply HD in C; discriminate).
    rewrite (node_pair_miss segs x y BO NB) in H. discriminate. }
  destruct (node_pair_involution segs x y BO BE) as (u & v & i & l & mm & B & NB & P1 & P2 & BE2 & E1 & E2 & E3).
  rewrite E1 in H. injection H as <-. cbn [fst snd]. auto.
Qed.

Lemma node_pair_same : forall segs p p' q, barriers_ok segs -> same_edge p p' ->
  get_internal_node_pair segs (fst p) (snd p) = Ok q ->
  exists q', get_internal_node_pair segs (fst p') (snd p') = Ok q' /\ same_edge q q'.
Proof.
  intros segs p p' q BO [->| ->] H.
  - exists q. split; [assumption | left; reflexivity].
  - cbn [fst snd] in H. destruct (node_pair_edge segs (snd p', fst p') q BO H) as (_ & _ & E & _). cbn [fst snd] in E.
    exists (snd q, fst q). split; [assumption | right; destruct q; reflexivity].
Qed.

Lemma levee_pair_sym : forall m f g, barriers_ok (ad_segs m) -> levee_pair m f g -> levee_pair m g f.
Proof.
  intros m f g BO (p & r & q & Hp & Hr & Sf & Sg & Tp & Tr & Eq & S).
  destruct (node_pair_edge _ p q BO Eq) as (_ & E2 & _ & _).
  destruct (node_pair_same _ q r p BO S E2) as (q' & E' & S').
  exists r, p, q'. repeat split; auto. apply same_edge_sym; assumption.
Qed.

Lemma levee_value : forall m order t, ids_ok (ad_elements m) -> at_most_two (ad_elements m) ->
  seg_ids_ok (ad_segs m) -> barriers_ok (ad_segs m) ->
  Permutation order (edge_dictionary (ad_elements m)) -> mesh_metadata m order = Ok t ->
  forall f g, levee_pair m f g -> et_get t f = Some (fst g, bt_levee).
Proof.
  intros m order t OK A2 SO BO P H f g (p & r & q & Hp & Hr & Sf & Sg & Tp & Tr & Eq & S).
  destruct (metadata_single _ OK A2 m order t eq_refl P H f p Hp Sf) as (bt & EB & C).
  rewrite Tp in EB. injection EB as <-. change (is_internal bt_levee) with true in C.
  destruct C as (q' & h & h' & E' & D & V). cbn match in V. rewrite Eq in E'. injection E' as <-.
  destruct (single_entry _ OK g r Hr Sg) as [_ SE].
  rewrite (edge_key_same q r S) in D. rewrite SE in D. injection D as <- <-. assumption.
Qed.

Lemma levee_partner : forall m order t, ids_ok (ad_elements m) -> at_most_two (ad_elements m) ->
  seg_ids_ok (ad_segs m) -> barriers_ok (ad_segs m) ->
  (forall p q g r, get_ibtype m (fst p) (snd p) = Ok bt_levee -> get_internal_node_pair (ad_segs m) (fst p) (snd p) = Ok q ->
     face_on (ad_elements m) g r -> same_edge q r ->
     (forall h, ~ share_edge (ad_elements m) g h) /\ get_ibtype m (fst r) (snd r) = Ok bt_levee) ->
  Permutation order (edge_dictionary (ad_elements m)) -> mesh_metadata m order = Ok t ->
  forall f n, is_side_face (ad_elements m) f -> et_get t f = Some (n, bt_levee) ->
  exists g, fst g = n /\ levee_pair m f g.
Proof.
  intros m order t OK A2 SO BO PB P H f n (p & Hf) E.
  destruct (share_dec _ f p OK Hf) as [(g & S)|NS].
  { rewrite (metadata_shared _ OK A2 m order t eq_refl P H f g S) in E. discriminate. }
  destruct (metadata_single _ OK A2 m order t eq_refl P H f p Hf NS) as (bt & EB & C).
  destruct (is_internal bt) eqn:EI.
  2:{ rewrite E in C. injection C as _ <-. discriminate. }
  destruct C as (q & g & g' & EQ & D & V). rewrite E in V. injection V as -> <-.
  destruct (dictionary_spec (all_faces (ad_elements m))) as [_ F].
  assert (Ig : In g (faces_at (all_faces (ad_elements m)) (edge_key (fst q) (snd q)))).
  { unfold edge_dictionary in D. rewrite F in D.
    destruct (faces_at (all_faces (ad_elements m)) (edge_key (fst q) (snd q))) as [|a [|b rr]]; try discriminate; injection D as <- <-; left; reflexivity. }
  rewrite faces_at_in, in_all_faces in Ig. destruct Ig as (r & Hr & EK).
  destruct (vertex_bound _ _ _ OK Hr) as (B1 & B2 & _).
  assert (S : same_edge q r).
  { destruct (node_pair_edge _ p q BO EQ) as (_ & _ & _ & (i & l & mm & B & NB)).
    apply neighbours_in in NB as [I1 I2].
    pose proof (edge_key_inj (fst q) (snd q) (fst r) (snd r)
      (barrier_side_ids _ _ _ _ _ SO B (or_introl I1)) (barrier_side_ids _ _ _ _ _ SO B (or_introl I2)) B1 B2 EK) as K.
    destruct q, r. exact K. }
  exists g. split; [reflexivity|]. destruct (PB p q g r EB EQ Hr S) as [Sg Tr].
  exists p, r, q. repeat split; auto.
Qed.

Lemma levee_interfaces : forall m order t ids rb, ids_ok (ad_elements m) -> at_most_two (ad_elements m) ->
  seg_ids_ok (ad_segs m) -> barriers_ok (ad_segs m) ->
  (forall p q g r, get_ibtype m (fst p) (snd p) = Ok bt_levee -> get_internal_node_pair (ad_segs m) (fst p) (snd p) = Ok q ->
     face_on (ad_elements m) g r -> same_edge q r ->
     (forall h, ~ share_edge (ad_elements m) g h) /\ get_ibtype m (fst r) (snd r) = Ok bt_levee) ->
  (forall f g, levee_pair m f g -> fst f <> fst g) ->
  (forall f g f' g', levee_pair m f g -> levee_pair m f' g' -> fst f = fst f' -> fst g = fst g' -> f = f') ->
  Permutation order (edge_dictionary (ad_elements m)) -> mesh_metadata m order = Ok t ->
  Permutation ids (map fst (ad_elements m)) -> create_raw ids t = Ok rb ->
  (forall f g, In (f, g) (create_interfaces (rb bt_levee)) -> levee_pair m f g) /\
  NoDup (flat_map both (create_interfaces (rb bt_levee))) /\
  (forall f, In f (flat_map both (create_interfaces (rb bt_levee))) <-> exists g, levee_pair m f g).
Proof.
  intros m order t ids rb OK A2 SO BO PB L1 L2 P H PI HR.
  apply (interfaces_pairing bt_levee t ids (levee_pair m)); try assumption.
  - reflexivity.
  - apply (Permutation_NoDup (Permutation_sym PI)). apply OK.
  - intros f nb [I Hk] E. apply (Permutation_in _ PI) in I.
    destruct (levee_partner m order t OK A2 SO BO PB P H f nb) as (g & _ & S); [|assumption|exists g; assumption].
    apply face_on_iff. auto.
  - intros f g S. split.
    + assert (F : exists p, face_on (ad_elements m) f p) by (destruct S as (p & _ & _ & Hp & _); exists p; assumption).
      apply face_on_iff in F as [I Hk]. split; [apply (Permutation_in _ (Permutation_sym PI)); assumption | assumption].
    + apply (levee_value m order t OK A2 SO BO P H); assumption.
  - intros f g. apply levee_pair_sym; assumption.
Qed.

(** Boundary faces: one boundary object per face of a non-internal type. *)
Lemma boundary_faces : forall m order t ids rb, ids_ok (ad_elements m) -> at_most_two (ad_elements m) ->
  Permutation order (edge_dictionary (ad_elements m)) -> mesh_metadata m order = Ok t ->
  Permutation ids (map fst (ad_elements m)) -> create_raw ids t = Ok rb ->
  forall T, is_internal T = false ->
  NoDup (map snd (rb T)) /\
  forall f, In f (map snd (rb T)) <->
    exists p, face_on (ad_elements m) f p /\ (forall g, ~ share_edge (ad_elements m) f g) /\
      get_ibtype m (fst p) (snd p) = Ok T.
Proof.
  intros m order t ids rb OK A2 P H PI HR T TI.
  assert (NDI : NoDup ids) by (apply (Permutation_NoDup (Permutation_sym PI)), OK).
  pose proof (raw_entries_faces_nodup T t ids NDI) as NF.
  assert (NK : NoDup (map fst (raw_entries T t ids))).
  { assert (KE : forall key f, In (key, f) (raw_entries T t ids) -> key = (fst f, N.of_nat (snd f))).
    { intros key f I. apply in_raw_entries in I as (_ & _ & nb & _ & ->). rewrite TI. reflexivity. }
    revert NF KE. generalize (raw_entries T t ids) as l. induction l as [|[k f] l IH]; intros NF KE; [constructor|].
    cbn in *. inversion NF as [|? ? N1 N2]; subst. constructor.
    - intros I. apply in_map_iff in I as ([k' f'] & E & I). cbn in E; subst k'.
      rewrite (KE k f (or_introl eq_refl)) in I. pose proof (KE _ _ (or_intror I)) as E. 
      assert (f = f') by (destruct f, f'; cbn in E; injection E as -> E2; apply Nnat.Nat2N.inj in E2; subst; reflexivity).
      subst f'. apply N1. apply (in_map snd) in I. exact I.
    - apply IH; [assumption|]. intros; apply KE; right; assumption. }
  pose proof (create_raw_perm T t ids rb HR NK) as PR. split.
  - apply (Permutation_NoDup (Permutation_sym (Permutation_map snd PR))). assumption.
  - intros f. split.
    + intros I. apply (Permutation_in _ (Permutation_map snd PR)) in I.
      apply in_map_iff in I as ([key f'] & E & I). cbn in E; subst f'.
      apply in_raw_entries in I as (I & Hk & nb & G & _). apply (Permutation_in _ PI) in I.
      destruct (proj2 (face_on_iff (ad_elements m) f) (conj I Hk)) as (p & Hp).
      exists p. split; [assumption|].
      destruct (share_dec _ f p OK Hp) as [(g & S)|NS].
      { rewrite (metadata_shared _ OK A2 m order t eq_refl P H f g S) in G. injection G as _ <-. discriminate. }
      split; [assumption|]. destruct (metadata_single _ OK A2 m order t eq_refl P H f p Hp NS) as (bt & EB & C).
      destruct (is_internal bt) eqn:EI.
      * destruct C as (q & g & g' & _ & _ & C). rewrite G in C. injection C as _ ->. congruence.
      * rewrite G in C. injection C as _ ->. assumption.
    + intros (p & Hp & NS & EB). apply (Permutation_in _ (Permutation_sym (Permutation_map snd PR))).
      apply in_map_iff. exists ((fst f, N.of_nat (snd f)), f). split; [reflexivity|].
      apply in_raw_entries. rewrite TI.
      destruct (proj1 (face_on_iff (ad_elements m) f) (ex_intro _ p Hp)) as [I Hk].
      split; [apply (Permutation_in _ (Permutation_sym PI)); assumption|]. split; [assumption|].
      destruct (metadata_single _ OK A2 m order t eq_refl P H f p Hp NS) as (bt & EB' & C).
      rewrite EB in EB'. injection EB' as <-. rewrite TI in C. exists DEFAULT_ID. auto.
Qed.

(** ** Which types are consumed *)
Lemma seg_type_outflow : forall segs p0 p1, seg_type segs p0 p1 = Ok (Some bt_outflow) ->
  exists s, In s segs /\ sg_type s = 88.
Proof.
  induction segs as [|s segs IH]; intros p0 p1 H; [discriminate|].
  cbn [seg_type] in H. cbv zeta in H.
  assert (R : seg_type segs p0 p1 = Ok (Some bt_outflow) -> exists s', In s' (s :: segs) /\ sg_type s' = 88).
  { intros C. destruct (IH _ _ C) as (s' & I & E). exists s'. cbn; auto. }
  repeat match type of H with
  | (if ?t =? 88 then _ else _) = _ => destruct (N.eqb_spec t 88)
  | (if ?b then _ else _) = _ => destruct b
  | bind (of_at ?o) _ = _ => destruct o; cbn [of_at bind] in H; [|discriminate H]
  end; try (apply R; exact H); try discriminate H.
  exists s. cbn; auto.
Qed.

Lemma get_ibtype_outflow : forall m p0 p1, get_ibtype m p0 p1 = Ok bt_outflow -> exists s, In s (ad_segs m) /\ sg_type s = 88.
Proof.
  intros m p0 p1 H. unfold get_ibtype in H.
  destruct (existsb _ (ad_nbdv m)); [discriminate|].
  destruct (seg_type (ad_segs m) p0 p1) as [[s|]| |] eqn:E; cbn [bind] in H; try discriminate.
  - injection H as ->. eapply seg_type_outflow; eassumption.
  - destruct (existsb _ (ad_nbgn m)); [discriminate|].
    destruct (is_levee_end (ad_segs m) p0 p1) as [[|]| |]; discriminate.
Qed.

(** Types other than outflow are always handled. *)
Lemma initialize_ok : forall m order t ids rb, ids_ok (ad_elements m) -> at_most_two (ad_elements m) ->
  Permutation order (edge_dictionary (ad_elements m)) -> mesh_metadata m order = Ok t ->
  Permutation ids (map fst (ad_elements m)) -> create_raw ids t = Ok rb ->
  (forall s, In s (ad_segs m) -> sg_type s <> 88) ->
  initialize_serial rb = Ok tt.
Proof.
  intros m order t ids rb OK A2 P H PI HR NO. unfold initialize_serial.
  match goal with |- (if ?b then _ else _) = _ => assert (E : b = true); [|rewrite E; reflexivity] end.
  apply forallb_forall. intros n Hn. apply in_seq in Hn. cbv zeta. set (T := N.of_nat n).
  destruct (bound_consumed T) eqn:E1; [reflexivity|]. destruct (intface_consumed T) eqn:E2; [reflexivity|]. cbn [orb].
  destruct (rb T) as [|[k f] r] eqn:ER; [reflexivity|]. exfalso.
  destruct (is_internal T) eqn:TI.
  - (* an internal code other than internal and levee cannot occur *)
    assert (G : In f (map snd (rb T)) -> False).
    { intros _. assert (Z : raw_entries T t ids = []).
      { destruct (raw_entries T t ids) as [|[k' f'] l] eqn:EE; [reflexivity|]. exfalso.
        assert (I : In (k', f') (raw_entries T t ids)) by (rewrite EE; left; reflexivity).
        apply in_raw_entries in I as (I & Hk & nb & G & _). apply (Permutation_in _ PI) in I.
        destruct (proj2 (face_on_iff (ad_elements m) f') (conj I Hk)) as (p & Hp).
        destruct (share_dec _ f' p OK Hp) as [(g & S)|NS].
        - rewrite (metadata_shared _ OK A2 m order t eq_refl P H f' g S) in G. injection G as _ G. rewrite <- G in E2. discriminate.
        - destruct (metadata_single _ OK A2 m order t eq_refl P H f' p Hp NS) as (bt & EB & C).
          apply get_ibtype_range in EB.
          assert (bt = T) by (destruct (is_internal bt); [destruct C as (?&?&?&_&_&C) |]; rewrite G in C; injection C; auto).
          subst bt. cbn in EB. clear -E1 E2 EB TI.
          repeat destruct EB as [EB|EB]; try contradiction; rewrite <- EB in TI; try discriminate TI.
          rewrite <- EB in E2. discriminate. }
      pose proof (create_raw_perm T t ids rb HR) as PR. rewrite Z in PR.
      specialize (PR ltac:(constructor)). rewrite ER in PR. apply Permutation_sym, Permutation_nil in PR. discriminate. }
    apply G. rewrite ER. left; reflexivity.
  - destruct (boundary_faces m order t ids rb OK A2 P H PI HR T TI) as [_ BF].
    destruct (proj1 (BF f)) as (p & Hp & NS & EB); [rewrite ER; left; reflexivity|].
    pose proof (get_ibtype_range _ _ _ _ EB) as RG. cbn in RG.
    repeat destruct RG as [RG|RG]; try contradiction;
      try (rewrite <- RG in E1; discriminate E1); try (rewrite <- RG in E2; discriminate E2).
    rewrite <- RG in EB. destruct (get_ibtype_outflow _ _ _ EB) as (s & I & E). apply (NO s I E).
Qed.

(** Edges of every supported segment kind are classified. *)
Lemma seg_type_total : forall segs p0 p1, (forall s, In s segs -> reader_segment s = true) ->
  exists o, seg_type segs p0 p1 = Ok o /\
    (forall s, In s segs -> sg_type s mod 10 <> 1 ->
       (neighbours (sg_nbvv s) p0 p1 \/ exists c, sg_ibconn s = Some c /\ neighbours c p0 p1) -> o <> None).
Proof.
  induction segs as [|s segs IH]; intros p0 p1 RS; [exists None; split; [reflexivity | intros ? []]|].
  destruct (IH p0 p1 (fun s' I => RS s' (or_intror I))) as (o & EO & HO).
  pose proof (RS s (or_introl eq_refl)) as R. unfold reader_segment in R.
  apply andb_true_iff in R as [RA RC]. unfold reader_accepts in RA.
  cbn [seg_type]. cbv zeta.
  assert (STEP : forall b ty, (if b : bool then Ok (Some ty) else seg_type segs p0 p1) = Ok (if b then Some ty else o)).
  { intros [|] ty; [reflexivity | exact EO]. }
  assert (NB : forall c, sg_ibconn s = Some c -> sg_type s mod 10 = 4).
  { intros c Ec. rewrite Ec in RC. apply andb_true_iff in RC as [RC _]. apply N.eqb_eq; assumption. }
  assert (W : forall b ty, (neighbours (sg_nbvv s) p0 p1 \/ (exists c, sg_ibconn s = Some c /\ neighbours c p0 p1) -> b = true) ->
     forall s', In s' (s :: segs) -> sg_type s' mod 10 <> 1 ->
       (neighbours (sg_nbvv s') p0 p1 \/ exists c, sg_ibconn s' = Some c /\ neighbours c p0 p1) ->
       (if b : bool then Some ty else o) <> None).
  { intros b ty HB s' [<-|I] N1 E; [rewrite (HB E); discriminate|]. destruct b; [discriminate | apply (HO s'); assumption]. }
  destruct (N.eqb_spec (sg_type s mod 10) 0) as [Z0|Z0].
  { rewrite STEP. eexists; split; [reflexivity|]. apply W. intros [E|(c & Ec & E)]; [apply has_edge_spec; assumption|].
    apply NB in Ec. lia. }
  destruct (N.eqb_spec (sg_type s mod 10) 2) as [Z2|Z2].
  { rewrite STEP. eexists; split; [reflexivity|]. apply W. intros [E|(c & Ec & E)]; [apply has_edge_spec; assumption|].
    apply NB in Ec. lia. }
  destruct (N.eqb_spec (sg_type s mod 10) 4) as [Z4|Z4].
  { destruct (sg_ibconn s) as [c|] eqn:Ec; [|discriminate]. cbn [of_at bind].
    replace (if has_edge (sg_nbvv s) p0 p1 then Ok (Some bt_levee) else if has_edge c p0 p1 then Ok (Some bt_levee) else seg_type segs p0 p1)
      with (if has_edge (sg_nbvv s) p0 p1 || has_edge c p0 p1 then Ok (Some bt_levee) else seg_type segs p0 p1)
      by (destruct (has_edge (sg_nbvv s) p0 p1); reflexivity).
    rewrite STEP. eexists; split; [reflexivity|]. apply W. intros [E|(c' & Ec' & E)]; apply orb_true_iff.
    - left; apply has_edge_spec; assumption.
    - right. injection Ec' as <-. apply has_edge_spec; assumption. }
  destruct (N.eqb_spec (sg_type s) 77) as [E77|E77].
  { rewrite STEP. eexists; split; [reflexivity|]. apply W. intros [E|(c & Ec & E)]; [apply has_edge_spec; assumption|].
    apply NB in Ec. lia. }
  destruct (N.eqb_spec (sg_type s) 88) as [E88|E88].
  { rewrite STEP. eexists; split; [reflexivity|]. apply W. intros [E|(c & Ec & E)]; [apply has_edge_spec; assumption|].
    apply NB in Ec. lia. }
  exists o. split; [assumption|]. intros s' [<-|I] N1 E; [|apply (HO s'); assumption].
  exfalso. destruct (N.eqb_spec (sg_type s mod 10) 1); [contradiction|]. discriminate RA.
Qed.

Lemma get_ibtype_total : forall m p0 p1 s, (forall s, In s (ad_segs m) -> reader_segment s = true) ->
  In s (ad_segs m) -> sg_type s mod 10 <> 1 ->
  (neighbours (sg_nbvv s) p0 p1 \/ exists c, sg_ibconn s = Some c /\ neighbours c p0 p1) ->
  exists t, get_ibtype m p0 p1 = Ok t.
Proof.
  intros m p0 p1 s RS I N1 E. unfold get_ibtype. destruct (existsb _ (ad_nbdv m)); [eexists; reflexivity|].
  destruct (seg_type_total (ad_segs m) p0 p1 RS) as (o & EO & HO). rewrite EO. cbn [bind].
  destruct o as [t|]; [exists t; reflexivity|]. exfalso. apply (HO s I N1 E). reflexivity.
Qed.

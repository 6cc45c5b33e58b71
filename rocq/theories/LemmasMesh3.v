From Coq Require Import NArith List Bool Arith Lia Permutation.
From Verif Require Import Outcome ModelMesh SpecMesh LemmasMesh LemmasMesh2.
Import ListNotations.
Local Open Scope N_scope.

Lemma face_eq_dec : forall f g : face, {f = g} + {f <> g}.
Proof. decide equality; [apply Nat.eq_dec | apply N.eq_dec]. Qed.

Lemma et_set_spec : forall t f nb bt t', et_set t f nb bt = Ok t' ->
  et_get t' f = Some (nb, bt) /\ (forall g, g <> f -> et_get t' g = et_get t g).
Proof.
  intros t [e k] nb bt t' H. unfold et_set in H. cbn [fst snd] in H.
  destruct (t e) as [g|] eqn:E; [|discriminate]. injection H as <-. split.
  - unfold et_get; cbn [fst snd]. rewrite N.eqb_refl, Nat.eqb_refl. reflexivity.
  - intros [e' k'] D. unfold et_get; cbn [fst snd]. destruct (N.eqb_spec e' e) as [->|He]; [|reflexivity].
    rewrite E. destruct (Nat.eqb_spec k' k) as [->|]; [congruence | reflexivity].
Qed.
Lemma et_set_ok : forall t f nb bt, t (fst f) <> None -> exists t', et_set t f nb bt = Ok t' /\
  (forall i, t' i = None <-> t i = None).
Proof.
  intros t [e k] nb bt H. unfold et_set. cbn [fst snd] in *. destruct (t e) as [g|] eqn:E; [|congruence].
  eexists; split; [reflexivity|]. intros i; cbn beta. destruct (N.eqb_spec i e) as [->|]; [rewrite E; split; congruence | reflexivity].
Qed.

(** Faces written by a dictionary entry. *)
Definition entry_faces (kv : N * (face * face)) : list face :=
  let '(_, (fa, fb)) := kv in if fst fb =? DEFAULT_ID then [fa] else [fa; fb].

(** Values an entry writes. *)
Definition writes (m : adcirc) (d : dict) (kv : N * (face * face)) (f : face) (v : N * N) : Prop :=
  let '(_, (fa, fb)) := kv in
  if fst fb =? DEFAULT_ID then
    f = fa /\ exists nodes, elt_at (ad_elements m) (fst fa) = Ok nodes /\
      exists bt, get_ibtype m (fst (face_nodes nodes (snd fa))) (snd (face_nodes nodes (snd fa))) = Ok bt /\
        if is_internal bt
        then exists q g g', get_internal_node_pair (ad_segs m) (fst (face_nodes nodes (snd fa))) (snd (face_nodes nodes (snd fa))) = Ok q /\
             dict_find d (edge_key (fst q) (snd q)) = Some (g, g') /\ v = (fst g, bt)
        else v = (DEFAULT_ID, bt)
  else (f = fa /\ v = (fst fb, bt_internal)) \/ (f = fb /\ v = (fst fa, bt_internal)).

Lemma process_edge_spec : forall m d t kv t', NoDup (entry_faces kv) -> process_edge m d t kv = Ok t' ->
  (forall f, ~ In f (entry_faces kv) -> et_get t' f = et_get t f) /\
  (forall f, In f (entry_faces kv) -> exists v, writes m d kv f v /\ et_get t' f = Some v).
Proof.
  intros m d t [k [fa fb]] t' ND H. unfold process_edge in H. unfold entry_faces, writes in *.
  destruct (N.eqb_spec (fst fb) DEFAULT_ID) as [E|E]; cbn [negb] in H.
  - destruct (elt_at (ad_elements m) (fst fa)) as [nodes| |] eqn:EA; try discriminate. cbn [bind] in H.
    destruct (face_nodes nodes (snd fa)) as [p0 p1] eqn:EF.
    destruct (get_ibtype m p0 p1) as [bt| |] eqn:EG; try discriminate. cbn [bind] in H.
    assert (Hw : forall v, et_set t fa (fst v) (snd v) = Ok t' ->
      (forall f, ~ In f [fa] -> et_get t' f = et_get t f) /\
      (forall f, In f [fa] -> et_get t' f = Some v)).
    { intros [nb b] HS. apply et_set_spec in HS as [H1 H2]. split.
      - intros f HI. apply H2. intros ->. apply HI; left; reflexivity.
      - intros f [<-|[]]. exact H1. }
    destruct (is_internal bt) eqn:EI.
    + destruct (get_internal_node_pair (ad_segs m) p0 p1) as [q| |] eqn:EQ; try discriminate. cbn [bind] in H.
      destruct (dict_find d (edge_key (fst q) (snd q))) as [[g g']|] eqn:ED; [|discriminate].
      destruct (Hw (fst g, bt) H) as [W1 W2]. split; [exact W1|].
      intros f Hf. exists (fst g, bt). split; [|apply W2; exact Hf].
      destruct Hf as [<-|[]]. split; [reflexivity|]. exists nodes. split; [reflexivity|].
      exists bt. rewrite EF. cbn [fst snd]. split; [assumption|]. rewrite EI.
      exists q, g, g'. auto.
    + destruct (Hw (DEFAULT_ID, bt) H) as [W1 W2]. split; [exact W1|].
      intros f Hf. exists (DEFAULT_ID, bt). split; [|apply W2; exact Hf].
      destruct Hf as [<-|[]]. split; [reflexivity|]. exists nodes. split; [reflexivity|].
      exists bt. rewrite EF. cbn [fst snd]. split; [assumption|]. rewrite EI. reflexivity.
  - destruct (et_set t fa (fst fb) bt_internal) as [t1| |] eqn:E1; try discriminate. cbn [bind] in H.
    apply et_set_spec in E1 as [A1 A2]. apply et_set_spec in H as [B1 B2].
    assert (fa <> fb) by (inversion ND; subst; intros ->; cbn in *; tauto).
    split.
    + intros f HI. rewrite B2, A2; [reflexivity | |]; intros ->; apply HI; cbn; auto.
    + intros f [<-|[<-|[]]].
      * exists (fst fb, bt_internal). split; [auto|]. rewrite B2 by assumption. exact A1.
      * exists (fst fa, bt_internal). split; [auto|]. exact B1.
Qed.

Lemma NoDup_app_inv : forall (A : Type) (l m : list A), NoDup (l ++ m) ->
  NoDup l /\ NoDup m /\ forall x, In x l -> ~ In x m.
Proof.
  intros A l m; induction l as [|a l IH]; cbn; intros H; [repeat split; [constructor | assumption | tauto]|].
  inversion H as [|? ? H1 H2]; subst. destruct (IH H2) as (I1 & I2 & I3). rewrite in_app_iff in H1.
  repeat split; [constructor; tauto | assumption|]. intros x [<-|Hx]; [tauto | apply I3; assumption].
Qed.

Lemma ofold_process : forall m d order t t', NoDup (flat_map entry_faces order) ->
  ofold (process_edge m d) order t = Ok t' ->
  (forall f, ~ In f (flat_map entry_faces order) -> et_get t' f = et_get t f) /\
  (forall kv f, In kv order -> In f (entry_faces kv) -> exists v, writes m d kv f v /\ et_get t' f = Some v).
Proof.
  intros m d order. induction order as [|kv order IH]; intros t t' ND H.
  - cbn in H. injection H as <-. split; [reflexivity | intros ? ? []].
  - cbn [ofold] in H. destruct (process_edge m d t kv) as [t1| |] eqn:E; try discriminate. cbn [bind] in H.
    cbn [flat_map] in ND. apply NoDup_app_inv in ND as (N1 & N2 & N3).
    destruct (process_edge_spec m d t kv t1 N1 E) as [P1 P2]. destruct (IH t1 t' N2 H) as [I1 I2].
    cbn [flat_map]. split.
    + intros f HI. rewrite in_app_iff in HI. rewrite I1, P1; [reflexivity | tauto | tauto].
    + intros kv' f [<-|HI] Hf.
      * destruct (P2 f Hf) as (v & W & G). exists v. split; [assumption|]. rewrite I1; [assumption | apply N3; assumption].
      * apply I2; assumption.
Qed.

(** ** The dictionary of a mesh in which edges carry at most two faces *)
Section Mesh.
  Variable els : list (N * (N * N * N)).
  Hypothesis OK : ids_ok els.
  Hypothesis A2 : at_most_two els.
  Let d := edge_dictionary els.

  Lemma face_id_ne_default : forall k f, In f (faces_at (all_faces els) k) -> fst f <> DEFAULT_ID.
  Proof.
    intros k f I. rewrite faces_at_in, in_all_faces in I. destruct I as (p & Hf & _).
    destruct (vertex_bound _ _ _ OK Hf) as (_&_&B). unfold DEFAULT_ID. lia.
  Qed.

  (** Each entry lists exactly the faces on its edge. *)
  Lemma dict_entry : forall k v, In (k, v) d -> entry_faces (k, v) = faces_at (all_faces els) k.
  Proof.
    intros k [fa fb] I. destruct (dictionary_spec (all_faces els)) as [ND F].
    apply (dict_find_in d k (fa, fb) ND) in I. unfold d, edge_dictionary in I. rewrite F in I.
    pose proof (faces_at_le2 els k OK A2) as L.
    destruct (faces_at (all_faces els) k) as [|f [|g [|h r]]] eqn:E; cbn in I; try discriminate.
    - injection I as <- <-. reflexivity.
    - injection I as <- <-. cbn.
      destruct (N.eqb_spec (fst g) DEFAULT_ID) as [C|C]; [|reflexivity].
      exfalso. apply (face_id_ne_default k g); [rewrite E; cbn; auto | assumption].
    - cbn in L; lia.
  Qed.

  Lemma dict_entry_exists : forall k f, In f (faces_at (all_faces els) k) -> exists v, In (k, v) d.
  Proof.
    intros k f I. destruct (dictionary_spec (all_faces els)) as [ND F].
    specialize (F k). destruct (dict_find (fold_left dict_add (all_faces els) []) k) as [v|] eqn:E.
    - exists v. apply (dict_find_in d k v ND). exact E.
    - destruct (faces_at (all_faces els) k) as [|a [|b r]]; [destruct I | discriminate | discriminate].
  Qed.

  Lemma dict_faces_nodup : forall order, Permutation order d -> NoDup (flat_map entry_faces order).
  Proof.
    intros order P.
    assert (NK : NoDup (map fst order)).
    { apply (Permutation_NoDup (l := map fst d)); [apply Permutation_map, Permutation_sym; assumption|].
      apply (dictionary_spec (all_faces els)). }
    assert (IO : forall kv, In kv order -> In kv d) by (intros; apply (Permutation_in _ P); assumption).
    clear P.
    assert (D : forall k1 k2 f, In f (faces_at (all_faces els) k1) -> In f (faces_at (all_faces els) k2) -> k1 = k2).
    { intros k1 k2 f I1 I2. rewrite faces_at_in, in_all_faces in I1, I2.
      destruct I1 as (p & Hp & ->), I2 as (q & Hq & ->).
      rewrite (face_on_fun _ _ _ _ (proj1 OK) Hp Hq). reflexivity. }
    induction order as [|[k v] order IH]; [constructor|].
    cbn [flat_map]. inversion NK as [|? ? N1 N2]; subst.
    rewrite (dict_entry k v) by (apply IO; left; reflexivity).
    assert (ND1 := faces_at_nodup els k (proj1 OK)).
    assert (ND2 : NoDup (flat_map entry_faces order)) by (apply IH; [assumption | intros; apply IO; right; assumption]).
    assert (DJ : forall f, In f (faces_at (all_faces els) k) -> ~ In f (flat_map entry_faces order)).
    { intros f I J. apply in_flat_map in J as ([k' v'] & J1 & J2).
      rewrite (dict_entry k' v') in J2 by (apply IO; right; assumption).
      apply N1. cbn [fst]. rewrite (D k k' f I J2). apply (in_map fst) in J1. exact J1. }
    clear -ND1 ND2 DJ. induction (faces_at (all_faces els) k) as [|f r IHr]; [assumption|].
    cbn. inversion ND1; subst. constructor.
    - rewrite in_app_iff. intros [I|I]; [auto | apply (DJ f); [left; reflexivity | assumption]].
    - apply IHr; [assumption | intros; apply DJ; right; assumption].
  Qed.

  (** Value of every face after construction. *)
  Lemma metadata_faces : forall m order t, ad_elements m = els -> Permutation order d ->
    mesh_metadata m order = Ok t ->
    forall k f, In f (faces_at (all_faces els) k) ->
      exists v, In (k, v) d /\ exists w, writes m d (k, v) f w /\ et_get t f = Some w.
  Proof.
    intros m order t Em P H k f I. unfold mesh_metadata in H. rewrite Em in H.
    destruct (ofold_process m _ order _ _ (dict_faces_nodup order P) H) as [_ G].
    destruct (dict_entry_exists k f I) as (v & Hv). exists v. split; [assumption|].
    apply (G (k, v) f).
    - apply (Permutation_in _ (Permutation_sym P)); assumption.
    - rewrite (dict_entry k v Hv). assumption.
  Qed.

  Lemma metadata_shared : forall m order t, ad_elements m = els -> Permutation order d ->
    mesh_metadata m order = Ok t -> forall f g, share_edge els f g ->
    et_get t f = Some (fst g, bt_internal).
  Proof.
    intros m order t Em P H f g S. apply share_iff in S as (D & k & I & J); [|assumption].
    destruct (metadata_faces m order t Em P H k f I) as ([fa fb] & Hv & w & W & E).
    pose proof (dict_entry k (fa, fb) Hv) as DE.
    pose proof (faces_at_le2 els k OK A2) as L. unfold entry_faces in DE. unfold writes in W.
    destruct (fst fb =? DEFAULT_ID).
    - rewrite <- DE in I, J. destruct I as [<-|[]], J as [<-|[]]. congruence.
    - rewrite E. rewrite <- DE in I, J. cbn in I, J.
      destruct W as [[-> ->]|[-> ->]].
      + destruct J as [<-|[<-|[]]]; [congruence | reflexivity].
      + destruct J as [<-|[<-|[]]]; [reflexivity | congruence].
  Qed.

  Lemma elt_at_in : forall e t, In (e, t) els -> elt_at els e = Ok t.
  Proof.
    destruct OK as [ND _]. clear OK A2 d. intros e t I. unfold elt_at.
    induction els as [|[e0 t0] l IH]; [destruct I|]. cbn in ND. inversion ND as [|? ? N1 N2]; subst.
    cbn [find fst]. destruct (N.eqb_spec e0 e) as [->|D].
    - destruct I as [I|I]; [injection I as ->; reflexivity|]. exfalso; apply N1. apply (in_map fst) in I; exact I.
    - destruct I as [I|I]; [injection I as -> ->; congruence|]. apply IH; assumption.
  Qed.

  Lemma single_entry : forall f p, face_on els f p -> (forall g, ~ share_edge els f g) ->
    faces_at (all_faces els) (edge_key (fst p) (snd p)) = [f] /\
    dict_find d (edge_key (fst p) (snd p)) = Some (f, (DEFAULT_ID, 0%nat)).
  Proof.
    intros f p Hf NS.
    assert (I : In f (faces_at (all_faces els) (edge_key (fst p) (snd p)))).
    { rewrite faces_at_in, in_all_faces. exists p; auto. }
    pose proof (faces_at_nodup els (edge_key (fst p) (snd p)) (proj1 OK)) as ND.
    assert (E : faces_at (all_faces els) (edge_key (fst p) (snd p)) = [f]).
    { assert (U : forall g, In g (faces_at (all_faces els) (edge_key (fst p) (snd p))) -> g = f).
      { intros g J. destruct (face_eq_dec g f) as [->|D]; [reflexivity|]. exfalso.
        apply (NS g). apply share_iff; [assumption|]. split; [auto|]. eexists; split; eassumption. }
      destruct (faces_at (all_faces els) (edge_key (fst p) (snd p))) as [|a [|b r]]; [destruct I | |].
      - rewrite (U a); [reflexivity | left; reflexivity].
      - exfalso. inversion ND as [|? ? N1 N2]; subst. apply N1.
        rewrite (U a), (U b) by (cbn; auto). left; reflexivity. }
    split; [assumption|].
    destruct (dictionary_spec (all_faces els)) as [_ F]. unfold d, edge_dictionary. rewrite F, E. reflexivity.
  Qed.

  Lemma metadata_single : forall m order t, ad_elements m = els -> Permutation order d ->
    mesh_metadata m order = Ok t -> forall f p, face_on els f p -> (forall g, ~ share_edge els f g) ->
    exists bt, get_ibtype m (fst p) (snd p) = Ok bt /\
      if is_internal bt
      then exists q g g', get_internal_node_pair (ad_segs m) (fst p) (snd p) = Ok q /\
           dict_find d (edge_key (fst q) (snd q)) = Some (g, g') /\
           et_get t f = Some (fst g, bt)
      else et_get t f = Some (DEFAULT_ID, bt).
  Proof.
    intros m order t Em P H f p Hf NS.
    assert (I : In f (faces_at (all_faces els) (edge_key (fst p) (snd p)))).
    { rewrite faces_at_in, in_all_faces. exists p; auto. }
    destruct (metadata_faces m order t Em P H _ f I) as ([fa fb] & Hv & w & W & E).
    destruct (single_entry f p Hf NS) as [_ SE].
    apply (dict_find_in d _ _ (proj1 (dictionary_spec (all_faces els)))) in Hv.
    rewrite SE in Hv. injection Hv as <- <-. unfold writes in W. cbn [fst snd] in W.
    rewrite N.eqb_refl in W.
    destruct W as (_ & nodes & EA & bt & EB & W). destruct Hf as (tt & It & Hk & Ep).
    rewrite Em, (elt_at_in _ _ It) in EA. injection EA as <-.
    rewrite (face_nodes_side tt _ Hk), <- Ep in *. exists bt. split; [assumption|].
    destruct (is_internal bt).
    - destruct W as (q & g & g' & EQ & ED & ->). exists q, g, g'. auto.
    - rewrite E, W. reflexivity.
  Qed.

  (** Construction succeeds when boundary edges can be classified and barrier
      partners are edges of the mesh. *)
  Lemma metadata_total : forall m order, ad_elements m = els -> Permutation order d ->
    (forall f p, face_on els f p -> (forall g, ~ share_edge els f g) ->
       exists bt, get_ibtype m (fst p) (snd p) = Ok bt /\
         (is_internal bt = true -> exists q, get_internal_node_pair (ad_segs m) (fst p) (snd p) = Ok q /\
             exists g r, face_on els g r /\ same_edge q r)) ->
    exists t, mesh_metadata m order = Ok t.
  Proof.
    intros m order Em P HC. unfold mesh_metadata. rewrite Em. fold d.
    assert (IO : forall kv, In kv order -> In kv d) by (intros; apply (Permutation_in _ P); assumption).
    clear P.
    assert (HP : forall k f, In f (faces_at (all_faces els) k) -> forall t : etable, (forall e tt, In (e, tt) els -> t e <> None) -> t (fst f) <> None).
    { intros k f I t T. rewrite faces_at_in, in_all_faces in I. destruct I as (p & (tt & It & _) & _). eapply T; eassumption. }
    assert (TI : forall e tt, In (e, tt) els -> et_init els e <> None).
    { intros e tt I. unfold et_init. replace (existsb _ els) with true; [discriminate|].
      symmetry. apply existsb_exists. exists (e, tt). split; [assumption | cbn; apply N.eqb_refl]. }
    generalize (et_init els) TI. clear TI. induction order as [|[k [fa fb]] order IH]; intros t T.
    - exists t; reflexivity.
    - cbn [ofold].
      assert (ST : exists t1, process_edge m d t (k, (fa, fb)) = Ok t1 /\ forall e tt, In (e, tt) els -> t1 e <> None).
      { pose proof (IO _ (or_introl eq_refl)) as Hd. pose proof (dict_entry k (fa, fb) Hd) as DE.
        unfold entry_faces in DE. unfold process_edge.
        assert (Ifa : In fa (faces_at (all_faces els) k)) by (rewrite <- DE; destruct (fst fb =? DEFAULT_ID); cbn; auto).
        destruct (N.eqb_spec (fst fb) DEFAULT_ID) as [E|E]; cbn [negb].
        - pose proof Ifa as Ifa'. rewrite faces_at_in, in_all_faces in Ifa'. destruct Ifa' as (p & Hf & Ek).
          pose proof Hf as (tt & It & Hk & Ep).
          rewrite Em, (elt_at_in _ _ It). cbn [bind]. rewrite (face_nodes_side tt _ Hk), <- Ep.
          assert (NS : forall g, ~ share_edge els fa g).
          { intros g S. apply share_iff in S as (D & k' & I1 & I2); [|assumption].
            rewrite faces_at_in, in_all_faces in I1. destruct I1 as (p' & Hp' & ->).
            rewrite <- (face_on_fun _ _ _ _ (proj1 OK) Hf Hp'), <- Ek, <- DE in I2. destruct I2 as [->|[]]. congruence. }
          destruct (HC fa p Hf NS) as (bt & EB & HB). destruct p as [p0 p1]. cbn [fst snd] in *.
          rewrite EB. cbn [bind]. destruct (is_internal bt).
          + destruct (HB eq_refl) as (q & EQ & g & r & Hg & S). rewrite EQ. cbn [bind].
            assert (Ig : In g (faces_at (all_faces els) (edge_key (fst q) (snd q)))).
            { rewrite faces_at_in, in_all_faces. exists r. split; [assumption | apply edge_key_same; assumption]. }
            destruct (dict_entry_exists _ _ Ig) as ([ga gb] & Hgd).
            apply (dict_find_in d _ _ (proj1 (dictionary_spec (all_faces els)))) in Hgd. rewrite Hgd.
            destruct (et_set_ok t fa (fst ga) bt (HP k fa Ifa t T)) as (t1 & E1 & N1).
            exists t1. split; [assumption|]. intros e tt' I. rewrite N1. eapply T; eassumption.
          + destruct (et_set_ok t fa DEFAULT_ID bt (HP k fa Ifa t T)) as (t1 & E1 & N1).
            exists t1. split; [assumption|]. intros e tt' I. rewrite N1. eapply T; eassumption.
        - assert (Ifb : In fb (faces_at (all_faces els) k)) by (rewrite <- DE; cbn; auto).
          destruct (et_set_ok t fa (fst fb) bt_internal (HP k fa Ifa t T)) as (t1 & E1 & N1).
          rewrite E1. cbn [bind].
          assert (T1 : forall e tt, In (e, tt) els -> t1 e <> None) by (intros e tt I; rewrite N1; eapply T; eassumption).
          destruct (et_set_ok t1 fb (fst fa) bt_internal (HP k fb Ifb t1 T1)) as (t2 & E2 & N2).
          exists t2. split; [assumption|]. intros e tt I. rewrite N2. eapply T1; eassumption. }
      destruct ST as (t1 & E1 & T1). rewrite E1. cbn [bind].
      apply IH; [intros; apply IO; right; assumption | assumption].
  Qed.
End Mesh.

(** ** Barriers *)
Lemma barriers_ok_tail : forall s segs, barriers_ok (s :: segs) -> barriers_ok segs.
Proof.
  intros s segs [H1 H2]. split.
  - intros s' c I. apply H1; right; assumption.
  - intros i j l m l' m' x y B1 B2 N1 N2.
    assert (S : S i = S j); [|congruence].
    apply (H2 (S i) (S j) l m l' m' x y); assumption.
Qed.

Lemma neighbours_positions : forall l x y a b, nth_error l a = Some x -> nth_error l b = Some y ->
  (b = a + 1 \/ a = b + 1)%nat -> neighbours l x y.
Proof.
  intros l x y a b Ha Hb [->| ->]; [left | right]; apply followed_nth; eexists; split; eassumption.
Qed.
Lemma neighbours_in : forall l x y, neighbours l x y -> In x l /\ In y l.
Proof.
  intros l x y [(a & b & ->)|(a & b & ->)]; split; apply in_or_app; right; cbn; auto.
Qed.

Lemma side_lookup_hit : forall l m p0 p1 a b u v, length l = length m -> (2 <= length l)%nat -> NoDup l ->
  nth_error l a = Some p0 -> nth_error l b = Some p1 -> (b = a + 1 \/ a = b + 1)%nat ->
  nth_error m b = Some u -> nth_error m a = Some v ->
  side_lookup l m p0 p1 = Ok (Some (u, v)).
Proof.
  intros l m p0 p1 a b u v HL H2 ND Ha Hb Hab Hu Hv.
  destruct (side_lookup_spec l m p0 p1 HL H2) as [(i & j & Hi & Hj & Hij & u' & v' & Hu' & Hv' & E)|[_ NN]].
  - rewrite E. assert (i = a) by (eapply NoDup_nth_inj; eassumption). assert (j = b) by (eapply NoDup_nth_inj; eassumption).
    subst i j. congruence.
  - exfalso. apply NN. eapply neighbours_positions; eassumption.
Qed.
Lemma side_lookup_miss : forall l m p0 p1, length l = length m -> (2 <= length l)%nat -> ~ neighbours l p0 p1 ->
  side_lookup l m p0 p1 = Ok None.
Proof.
  intros l m p0 p1 HL H2 NN.
  destruct (side_lookup_spec l m p0 p1 HL H2) as [(i & j & Hi & Hj & Hij & _)|[E _]]; [|assumption].
  exfalso. apply NN. eapply neighbours_positions; eassumption.
Qed.

Lemma node_pair_hit : forall segs i l m x y a b u v, barriers_ok segs -> barrier_side segs i l m ->
  nth_error l a = Some x -> nth_error l b = Some y -> (b = a + 1 \/ a = b + 1)%nat ->
  nth_error m a = Some u -> nth_error m b = Some v ->
  get_internal_node_pair segs x y = Ok (v, u).
Proof.
  induction segs as [|s segs IH]; intros i l m x y a b u v BO BS Hx Hy Hab Hu Hv.
  { destruct BS as (s & c & E & _). destruct i; discriminate. }
  pose proof (neighbours_positions l x y a b Hx Hy Hab) as NB.
  cbn [get_internal_node_pair]. destruct BO as [B1 B2]. destruct i as [|i].
  - destruct BS as (s' & c & E & Ec & D). cbn in E. injection E as <-. rewrite Ec.
    destruct (B1 s c (or_introl eq_refl) Ec) as (HL & H2 & ND). apply NoDup_app_inv in ND as (N1 & N2 & N3).
    destruct D as [[-> ->]|[-> ->]].
    + rewrite (side_lookup_hit (sg_nbvv s) c x y a b v u); auto; lia.
    + rewrite (side_lookup_miss (sg_nbvv s) c x y); [|lia|lia|].
      * cbn [bind]. rewrite (side_lookup_hit c (sg_nbvv s) x y a b v u); auto; lia.
      * intros C. apply neighbours_in in C as [C _]. apply neighbours_in in NB as [NB _]. apply (N3 x); assumption.
  - assert (REST : get_internal_node_pair segs x y = Ok (v, u)).
    { apply (IH i l m x y a b u v); auto. apply (barriers_ok_tail s). split; assumption. }
    destruct (sg_ibconn s) as [c|] eqn:Ec; [|assumption].
    destruct (B1 s c (or_introl eq_refl) Ec) as (HL & H2 & ND).
    assert (M1 : ~ neighbours (sg_nbvv s) x y).
    { intros C. assert (0%nat = S i); [|discriminate].
      apply (B2 0%nat (S i) (sg_nbvv s) c l m x y); auto. exists s, c. cbn. auto. }
    assert (M2 : ~ neighbours c x y).
    { intros C. assert (0%nat = S i); [|discriminate].
      apply (B2 0%nat (S i) c (sg_nbvv s) l m x y); auto. exists s, c. cbn. auto. }
    rewrite (side_lookup_miss (sg_nbvv s) c x y) by (auto; lia). cbn [bind].
    rewrite (side_lookup_miss c (sg_nbvv s) x y) by (auto; lia). cbn [bind]. assumption.
Qed.

(** Barrier edges: a pair of consecutive nodes on some side. *)
Lemma node_pair_miss : forall segs x y, barriers_ok segs -> ~ barrier_edge segs x y ->
  get_internal_node_pair segs x y = Throw.
Proof.
  induction segs as [|s segs IH]; intros x y BO NB; [reflexivity|].
  cbn [get_internal_node_pair].
  assert (REST : get_internal_node_pair segs x y = Throw).
  { apply IH; [apply (barriers_ok_tail s); assumption|]. intros (i & l & m & B & Nn). apply NB.
    exists (S i), l, m. auto. }
  destruct (sg_ibconn s) as [c|] eqn:Ec; [|assumption].
  destruct BO as [B1 _]. destruct (B1 s c (or_introl eq_refl) Ec) as (HL & H2 & ND).
  rewrite (side_lookup_miss (sg_nbvv s) c x y); [|lia|lia|].
  - cbn [bind]. rewrite (side_lookup_miss c (sg_nbvv s) x y); [cbn [bind]; assumption|lia|lia|].
    intros C. apply NB. exists 0%nat, c, (sg_nbvv s). split; [|assumption]. exists s, c. cbn. auto.
  - intros C. apply NB. exists 0%nat, (sg_nbvv s), c. split; [|assumption]. exists s, c. cbn. auto.
Qed.

Lemma barrier_positions : forall segs x y, barriers_ok segs -> barrier_edge segs x y ->
  exists i l m a b u v, barrier_side segs i l m /\ nth_error l a = Some x /\ nth_error l b = Some y /\
    (b = a + 1 \/ a = b + 1)%nat /\ nth_error m a = Some u /\ nth_error m b = Some v.
Proof.
  intros segs x y [B1 _] (i & l & m & B & Nn).
  assert (HL : length l = length m).
  { destruct B as (s & c & E & Ec & D). apply nth_error_In in E. destruct (B1 s c E Ec) as (HL & _).
    destruct D as [[-> ->]|[-> ->]]; auto. }
  destruct Nn as [Nn|Nn]; apply followed_nth in Nn as (k & K1 & K2).
  - assert (k + 1 < length l)%nat by (apply nth_error_Some; congruence).
    destruct (nth_ok _ m k ltac:(lia)) as (u & Eu). destruct (nth_ok _ m (k + 1) ltac:(lia)) as (v & Ev).
    exists i, l, m, k, (k + 1)%nat, u, v. repeat split; auto.
  - assert (k + 1 < length l)%nat by (apply nth_error_Some; congruence).
    destruct (nth_ok _ m k ltac:(lia)) as (u & Eu). destruct (nth_ok _ m (k + 1) ltac:(lia)) as (v & Ev).
    exists i, l, m, (k + 1)%nat, k, v, u. repeat split; auto.
Qed.

Lemma barrier_side_swap : forall segs i l m, barrier_side segs i l m -> barrier_side segs i m l.
Proof. intros segs i l m (s & c & E & Ec & D). exists s, c. tauto. Qed.

Lemma node_pair_involution : forall segs x y, barriers_ok segs -> barrier_edge segs x y ->
  exists u v i l m, barrier_side segs i l m /\ neighbours l x y /\ partner_in l m x u /\ partner_in l m y v /\
    barrier_edge segs v u /\
    get_internal_node_pair segs x y = Ok (v, u) /\
    get_internal_node_pair segs y x = Ok (u, v) /\
    get_internal_node_pair segs v u = Ok (x, y).
Proof.
  intros segs x y BO BE. destruct (barrier_positions segs x y BO BE) as (i & l & m & a & b & u & v & B & Hx & Hy & Hab & Hu & Hv).
  exists u, v, i, l, m. split; [assumption|]. split; [eapply neighbours_positions; eassumption|].
  split; [exists a; auto|]. split; [exists b; auto|].
  split.
  { exists i, m, l. split; [apply barrier_side_swap; assumption|].
    apply (neighbours_positions m v u b a); auto. tauto. }
  split; [apply (node_pair_hit segs i l m x y a b u v); auto|].
  split; [apply (node_pair_hit segs i l m y x b a v u); auto; tauto|].
  apply (node_pair_hit segs i m l v u b a y x); auto; [apply barrier_side_swap; assumption | tauto].
Qed.

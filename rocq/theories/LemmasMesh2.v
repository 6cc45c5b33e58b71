From Coq Require Import NArith List Bool Arith Lia Permutation.
From Verif Require Import Outcome ModelMesh SpecMesh LemmasMesh.
Import ListNotations.
Local Open Scope N_scope.

(** ** the edge dictionary *)
Definition faces_at (fs : list (N * face)) (k : N) : list face := map snd (filter (fun kf => fst kf =? k) fs).

Definition entry_of (fs : list face) : option (face * face) :=
  match fs with
  | [] => None
  | [f] => Some (f, (DEFAULT_ID, 0%nat))
  | f :: r => Some (f, last r f)
  end.

Lemma faces_at_app : forall fs gs k, faces_at (fs ++ gs) k = faces_at fs k ++ faces_at gs k.
Proof. intros. unfold faces_at. rewrite filter_app, map_app. reflexivity. Qed.

Lemma dict_find_app : forall d d' k, dict_find (d ++ d') k =
  match dict_find d k with Some v => Some v | None => dict_find d' k end.
Proof.
  induction d as [|[k' v] d IH]; intros; cbn; [reflexivity|]. destruct (k' =? k); [reflexivity | apply IH].
Qed.
Lemma dict_find_set_same : forall d k v, dict_find d k <> None -> dict_find (dict_set d k v) k = Some v.
Proof.
  induction d as [|[k' v'] d IH]; intros k v H; cbn in *; [congruence|].
  destruct (k' =? k) eqn:E; cbn; rewrite E; [reflexivity | apply IH; assumption].
Qed.
Lemma dict_find_set_other : forall d k k2 v, k <> k2 -> dict_find (dict_set d k v) k2 = dict_find d k2.
Proof.
  induction d as [|[k' v'] d IH]; intros k k2 v H; cbn in *; [reflexivity|].
  destruct (N.eqb_spec k' k) as [->|Hk]; cbn.
  - destruct (N.eqb_spec k k2); [congruence | reflexivity].
  - destruct (k' =? k2); [reflexivity | apply IH; assumption].
Qed.
Lemma dict_set_keys : forall d k v, map fst (dict_set d k v) = map fst d.
Proof.
  induction d as [|[k' v'] d IH]; intros; cbn; [reflexivity|].
  destruct (k' =? k); cbn; [reflexivity | f_equal; apply IH].
Qed.
Lemma dict_find_none : forall d k, dict_find d k = None <-> ~ In k (map fst d).
Proof.
  induction d as [|[k' v'] d IH]; intros k; cbn; [tauto|].
  destruct (N.eqb_spec k' k) as [->|Hk]; [split; [discriminate | tauto]|]. rewrite IH. tauto.
Qed.
Lemma dict_find_in : forall d k v, NoDup (map fst d) -> (dict_find d k = Some v <-> In (k, v) d).
Proof.
  induction d as [|[k' v'] d IH]; intros k v H; cbn; [split; [discriminate | tauto]|].
  inversion H as [|? ? H1 H2]; subst. destruct (N.eqb_spec k' k) as [->|Hk].
  - split.
    + intros E; injection E as ->; left; reflexivity.
    + intros [E|E]; [injection E as ->; reflexivity|].
      exfalso; apply H1. apply (in_map fst) in E. exact E.
  - rewrite IH by assumption. split; [auto | intros [E|E]; [injection E as -> ->; congruence | assumption]].
Qed.

Lemma entry_of_snoc : forall fs f, fs <> [] ->
  entry_of (fs ++ [f]) = match entry_of fs with Some (a, _) => Some (a, f) | None => None end.
Proof.
  intros [|a [|b r]] f H; [congruence | reflexivity|].
  change ((a :: b :: r) ++ [f]) with (a :: b :: (r ++ [f])). cbn [entry_of].
  change (b :: r ++ [f]) with ((b :: r) ++ [f]). rewrite last_last. reflexivity.
Qed.

Lemma dictionary_spec : forall fs,
  NoDup (map fst (fold_left dict_add fs [])) /\
  forall k, dict_find (fold_left dict_add fs []) k = entry_of (faces_at fs k).
Proof.
  induction fs as [|[k0 f0] fs IH] using rev_ind; [split; [constructor | reflexivity]|].
  rewrite fold_left_app. cbn [fold_left]. set (d := fold_left dict_add fs []) in *.
  destruct IH as [IN IF]. unfold dict_add.
  assert (E0 : entry_of (faces_at fs k0) = None <-> faces_at fs k0 = []).
  { destruct (faces_at fs k0) as [|a [|b r]]; cbn; split; congruence. }
  destruct (dict_find d k0) as [[a b]|] eqn:F.
  - split; [rewrite dict_set_keys; assumption|]. intros k. rewrite faces_at_app.
    unfold faces_at at 2; cbn [filter fst]. destruct (N.eqb_spec k0 k) as [->|Hk].
    + rewrite dict_find_set_same by congruence. cbn [map snd].
      rewrite entry_of_snoc.
      * rewrite <- IF, F. reflexivity.
      * intros C. rewrite IF in F. apply E0 in C. congruence.
    + rewrite dict_find_set_other by assumption. cbn [map]. rewrite app_nil_r. apply IF.
  - split.
    + rewrite map_app. cbn [map fst].
      apply (Permutation_NoDup (l := k0 :: map fst d)); [apply Permutation_cons_append|].
      constructor; [apply dict_find_none; assumption | assumption].
    + intros k. rewrite faces_at_app, dict_find_app. unfold faces_at at 2; cbn [filter fst dict_find].
      destruct (N.eqb_spec k0 k) as [->|Hk].
      * rewrite F. rewrite IF in F. apply E0 in F. rewrite F. reflexivity.
      * cbn [map]. rewrite app_nil_r, <- IF. destruct (dict_find d k); reflexivity.
Qed.

(** ** faces of the element list *)
Lemma face_nodes_side : forall t k, (k < 3)%nat -> face_nodes t k = side t k.
Proof. intros [[a b] c] k H. destruct k as [|[|[|k]]]; try reflexivity; lia. Qed.

Lemma in_elt_faces : forall e t K f, In (K, f) (elt_faces (e, t)) <->
  fst f = e /\ (snd f < 3)%nat /\ K = edge_key (fst (side t (snd f))) (snd (side t (snd f))).
Proof.
  intros e t K [e' k]. unfold elt_faces. rewrite in_map_iff. cbn [fst snd]. split.
  - intros (k' & E & I).
    assert (Hk : (k' < 3)%nat) by (cbn in I; intuition lia).
    rewrite face_nodes_side in E by assumption. destruct (side t k') as [a b] eqn:S.
    injection E as <- <- <-. rewrite S. auto.
  - intros (-> & Hk & ->). exists k. rewrite face_nodes_side by assumption.
    destruct (side t k) as [a b]. split; [reflexivity|]. cbn. lia.
Qed.

Lemma in_all_faces : forall els K f, In (K, f) (all_faces els) <->
  exists p, face_on els f p /\ K = edge_key (fst p) (snd p).
Proof.
  intros els K f. unfold all_faces. rewrite in_flat_map. split.
  - intros ([e t] & I & J). apply in_elt_faces in J as (E & Hk & ->).
    exists (side t (snd f)). split; [|reflexivity]. exists t. subst e. auto.
  - intros (p & (t & I & Hk & ->) & ->). exists (fst f, t). split; [assumption|].
    apply in_elt_faces. auto.
Qed.

Lemma face_on_fun : forall els f p q, NoDup (map fst els) -> face_on els f p -> face_on els f q -> p = q.
Proof.
  intros els f p q ND (t & I & _ & ->) (t' & J & _ & ->).
  assert (t = t'); [|subst; reflexivity].
  clear -ND I J. induction els as [|[e0 t0] els IH]; [destruct I|].
  cbn in ND. inversion ND as [|? ? N1 N2]; subst.
  destruct I as [I|I], J as [J|J].
  - congruence.
  - injection I as -> ->. exfalso; apply N1. apply (in_map fst) in J; exact J.
  - injection J as -> ->. exfalso; apply N1. apply (in_map fst) in I; exact I.
  - apply IH; assumption.
Qed.

Lemma NoDup_flat_map_keyed : forall (A B K : Type) (l : list A) (key : A -> K) (f : A -> list B) (kb : B -> K),
  NoDup (map key l) -> (forall a, In a l -> NoDup (f a)) -> (forall a b, In a l -> In b (f a) -> kb b = key a) ->
  NoDup (flat_map f l).
Proof.
  intros A B K l key f kb. induction l as [|a l IH]; intros ND NF KB; [constructor|].
  cbn. inversion ND as [|? ? N1 N2]; subst.
  assert (H1 : NoDup (f a)) by (apply NF; left; reflexivity).
  assert (H2 : NoDup (flat_map f l)) by (apply IH; [assumption | intros; apply NF; right; assumption | intros; apply KB; [right; assumption | assumption]]).
  assert (H3 : forall b, In b (f a) -> ~ In b (flat_map f l)).
  { intros b I J. apply in_flat_map in J as (a' & Ia & Ib). apply N1.
    rewrite <- (KB a b (or_introl eq_refl) I), (KB a' b (or_intror Ia) Ib). apply in_map; assumption. }
  clear -H1 H2 H3. induction (f a) as [|b r IH]; cbn; [assumption|].
  inversion H1; subst. constructor.
  - rewrite in_app_iff. intros [I|I]; [auto | apply (H3 b); [left; reflexivity | assumption]].
  - apply IH; [assumption | intros; apply H3; right; assumption].
Qed.

Lemma all_faces_nodup : forall els, NoDup (map fst els) -> NoDup (map snd (all_faces els)).
Proof.
  intros els ND. unfold all_faces.
  assert (E : map snd (flat_map elt_faces els) = flat_map (fun e => map (fun k => (fst e, k)) [0; 1; 2]%nat) els).
  { induction els as [|[e t] els IH]; [reflexivity|]. cbn [flat_map]. rewrite map_app.
    rewrite IH by (inversion ND; assumption). f_equal.
    unfold elt_faces. cbn [map fst snd].
    destruct (face_nodes t 0), (face_nodes t 1), (face_nodes t 2). reflexivity. }
  rewrite E. apply (NoDup_flat_map_keyed _ _ N els fst _ (fun f => fst f)).
  - assumption.
  - intros [e t] _. cbn. repeat constructor; cbn; intuition congruence.
  - intros [e t] [e' k] _ I. cbn in *. intuition congruence.
Qed.

Lemma faces_at_in : forall els k f, In f (faces_at (all_faces els) k) <-> In (k, f) (all_faces els).
Proof.
  intros els k f. unfold faces_at. rewrite in_map_iff. split.
  - intros ([k' f'] & E & I). cbn in E; subst f'. apply filter_In in I as [I J]. cbn in J.
    apply N.eqb_eq in J; subst k'. assumption.
  - intros I. exists (k, f). split; [reflexivity|]. apply filter_In. split; [assumption|]. cbn. apply N.eqb_refl.
Qed.

Lemma NoDup_map_filter : forall (A B : Type) (g : A -> B) (h : A -> bool) l, NoDup (map g l) -> NoDup (map g (filter h l)).
Proof.
  intros A B g h l. induction l as [|a l IH]; intros ND; [constructor|].
  cbn in *. inversion ND as [|? ? N1 N2]; subst. destruct (h a); cbn; [|auto].
  constructor; [|auto]. rewrite in_map_iff. intros (x & E & I). apply filter_In in I as [I _].
  apply N1. rewrite <- E. apply in_map; assumption.
Qed.

Lemma faces_at_nodup : forall els k, NoDup (map fst els) -> NoDup (faces_at (all_faces els) k).
Proof. intros. unfold faces_at. apply NoDup_map_filter, all_faces_nodup; assumption. Qed.

Lemma vertex_bound : forall els f p, ids_ok els -> face_on els f p -> fst p < 4294967296 /\ snd p < 4294967296 /\ fst f < 4294967295.
Proof.
  intros els f p [_ B] (t & I & _ & ->). destruct (B _ _ I) as [B1 B2]. cbn. auto.
Qed.

Lemma share_iff : forall els f g, ids_ok els ->
  (share_edge els f g <-> f <> g /\ exists k, In f (faces_at (all_faces els) k) /\ In g (faces_at (all_faces els) k)).
Proof.
  intros els f g OK. unfold share_edge. split.
  - intros (D & p & q & Hf & Hg & S). split; [assumption|].
    exists (edge_key (fst p) (snd p)). rewrite !faces_at_in, !in_all_faces. split.
    + exists p; auto.
    + exists q; split; [assumption | apply edge_key_same; assumption].
  - intros (D & k & I & J). split; [assumption|].
    rewrite faces_at_in, in_all_faces in I, J. destruct I as (p & Hf & ->). destruct J as (q & Hg & E).
    exists p, q. split; [assumption|]. split; [assumption|].
    destruct (vertex_bound _ _ _ OK Hf) as (?&?&_). destruct (vertex_bound _ _ _ OK Hg) as (?&?&_).
    pose proof (edge_key_inj (fst p) (snd p) (fst q) (snd q)) as K.
    destruct p, q. apply K; assumption.
Qed.

Lemma faces_at_le2 : forall els k, ids_ok els -> at_most_two els -> (length (faces_at (all_faces els) k) <= 2)%nat.
Proof.
  intros els k OK A2. pose proof (faces_at_nodup els k (proj1 OK)) as ND.
  destruct (faces_at (all_faces els) k) as [|f [|g [|h r]]] eqn:E; cbn; try lia. exfalso.
  assert (S : forall x y, In x (f :: g :: h :: r) -> In y (f :: g :: h :: r) -> x <> y -> share_edge els x y).
  { intros x y Hx Hy D. apply share_iff; [assumption|]. split; [assumption|]. exists k. rewrite E. auto. }
  inversion ND as [|? ? N1 N2]; subst. inversion N2 as [|? ? N3 N4]; subst.
  apply (A2 f g h); apply S; cbn in *; try tauto; intros ->; tauto.
Qed.

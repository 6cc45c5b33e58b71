From Coq Require Import NArith List Bool Arith Permutation Lia.
From Verif Require Import Num Outcome ModelMesh ModelPart SpecPart LemmasPart ModelDist SpecDist.
Import ListNotations.
Open Scope N_scope.

(** ** Loops *)
Lemma seqN_In : forall n x, In x (seqN n) <-> x < n.
Proof.
  intros n x. unfold seqN. rewrite in_map_iff. split.
  - intros (k & <- & H). apply in_seq in H. lia.
  - intros H. exists (N.to_nat x). split; [lia|]. apply in_seq. lia.
Qed.
Lemma submesh_ids_In : forall nr size r l, In (r, l) (submesh_ids nr size) <-> r < nr /\ l < size r.
Proof.
  intros nr size r l. unfold submesh_ids. rewrite in_flat_map. split.
  - intros (r' & Hr & H). apply in_map_iff in H. destruct H as (l' & E & H). injection E as -> ->. rewrite seqN_In in *. auto.
  - intros [A B]. exists r. split; [apply seqN_In, A|]. apply in_map_iff. exists l. split; [reflexivity | apply seqN_In, B].
Qed.
Lemma fold_premove : forall l s x, In x (fold_left premove l s) <-> In x s /\ ~ In x l.
Proof.
  induction l as [|f l IH]; intros s x; cbn; [tauto|]. rewrite IH. unfold premove. rewrite filter_In.
  destruct (pair_eqb_spec f x) as [->|n]; cbn; intuition; congruence.
Qed.
Lemma premove_NoDup : forall l s, NoDup s -> NoDup (fold_left premove l s).
Proof. induction l as [|f l IH]; intros s H; cbn; [exact H|]. apply IH. apply NoDup_filter, H. Qed.

Lemma fold_ainsert : forall (L t : list (N * N)), (forall e v w, In (e, v) (t ++ L) -> In (e, w) (t ++ L) -> v = w) ->
  forall e v, afind (fold_left (fun t x => ainsert t (fst x) (snd x)) L t) e = Some v <-> In (e, v) (t ++ L).
Proof.
  induction L as [|[a b] L IH]; intros t H e v; cbn [fold_left fst snd].
  - rewrite app_nil_r in *. split; [apply afind_In|]. intros Hi. destruct (afind t e) as [w|] eqn:E.
    + f_equal. apply (H e w v); [apply afind_In, E | exact Hi].
    + apply afind_None in E. exfalso. apply E. apply (in_map fst) in Hi. exact Hi.
  - assert (Q : forall z, In z (ainsert t a b ++ L) <-> In z (t ++ (a, b) :: L)).
    { intros z. unfold ainsert. destruct (afind t a) as [w|] eqn:E.
      - rewrite !in_app_iff. cbn. split; [tauto|]. intros [A|[<-|A]]; auto.
        left. apply afind_In in E. assert (w = b) as <-; [|exact E].
        apply (H a w b); rewrite in_app_iff; [left; exact E | right; left; reflexivity].
      - rewrite <- app_assoc. reflexivity. }
    rewrite IH, Q; [reflexivity|]. intros e' v' w' H1 H2. apply Q in H1. apply Q in H2. apply (H e' v' w' H1 H2).
Qed.
Lemma fold_left_flat_map : forall (A B C : Type) (f : C -> B -> C) (g : A -> list B) l c,
  fold_left (fun c a => fold_left f (g a) c) l c = fold_left f (flat_map g l) c.
Proof. intros A B C f g. induction l as [|a l IH]; intros c; cbn; [reflexivity|]. rewrite fold_left_app. apply IH. Qed.
Lemma fold_left_map_in : forall (A B C : Type) (f : C -> B -> C) (g : A -> B) l c,
  fold_left (fun c a => f c (g a)) l c = fold_left f (map g l) c.
Proof. intros A B C f g. induction l as [|a l IH]; intros c; cbn; [reflexivity|]. apply IH. Qed.

Lemma last_face_spec : forall ns k b found,
  (forall i, nth_error ns i <> Some b) /\ last_face ns k b found = found \/
  exists i, nth_error ns i = Some b /\ last_face ns k b found = Some (k + N.of_nat i).
Proof.
  induction ns as [|n ns IH]; intros k b found; cbn [last_face]; [left; split; [intros [|i]; discriminate | reflexivity]|].
  destruct (IH (k + 1) b (if b =? n then Some k else found)) as [[A E]|(i & A & E)].
  - destruct (N.eqb_spec b n) as [->|ne].
    + right. exists 0%nat. split; [reflexivity|]. rewrite E. f_equal. lia.
    + left. split; [|exact E]. intros [|i]; cbn; [congruence | apply A].
  - right. exists (S i). split; [exact A|]. rewrite E. f_equal. lia.
Qed.

(** ** Grouping under a key *)
Section Group.
  Context {A B : Type} (kf : A -> N * N) (mk : A -> B).
  Definition push (t : list ((N * N) * list B)) (a : A) : list ((N * N) * list B) :=
    match pfind t (kf a) with Some l => pset t (kf a) (l ++ [mk a]) | None => t ++ [(kf a, [mk a])] end.
  Definition bucket (k : N * N) (l : list A) : list B := map mk (filter (fun a => pair_eqb (kf a) k) l).
  Lemma bucket_snoc : forall k l a, bucket k (l ++ [a]) = bucket k l ++ if pair_eqb (kf a) k then [mk a] else [].
  Proof. intros. unfold bucket. rewrite filter_app, map_app. cbn. destruct (pair_eqb (kf a) k); reflexivity. Qed.
  Lemma group_inv : forall l, NoDup (map fst (fold_left push l [])) /\
    forall k, match pfind (fold_left push l []) k with Some b => b = bucket k l /\ b <> [] | None => bucket k l = [] end.
  Proof.
    induction l as [|a l IH] using rev_ind; [split; [constructor | reflexivity]|]. rewrite fold_left_app. cbn [fold_left].
    destruct IH as [D H]. set (t := fold_left push l []) in *. unfold push.
    pose proof (H (kf a)) as Ha. destruct (pfind t (kf a)) as [b|] eqn:E.
    - assert (K : In (kf a) (map fst t)) by (apply pfind_In in E; apply (in_map fst) in E; exact E).
      split; [rewrite pset_keys by exact K; exact D|]. intros k. rewrite pset_find, bucket_snoc.
      destruct (pair_eqb_spec k (kf a)) as [->|n].
      + destruct (pair_eqb_spec (kf a) (kf a)); [|contradiction]. destruct Ha as [-> _].
        split; [reflexivity | intros Q; apply app_eq_nil in Q; destruct Q; discriminate].
      + destruct (pair_eqb_spec (kf a) k); [congruence|]. rewrite app_nil_r. apply H.
    - assert (K : ~ In (kf a) (map fst t)) by (apply pfind_None, E).
      split; [rewrite map_app; apply NoDup_snoc; assumption|]. intros k. rewrite pfind_app, bucket_snoc. cbn [pfind].
      pose proof (H k) as Hk. destruct (pair_eqb_spec (kf a) k) as [<-|n].
      + rewrite E in *. destruct (pair_eqb_spec (kf a) (kf a)); [|contradiction]. rewrite Ha. split; [reflexivity | discriminate].
      + destruct (pfind t k); [rewrite app_nil_r; exact Hk|]. destruct (pair_eqb_spec k (kf a)); [congruence|]. rewrite app_nil_r. exact Hk.
  Qed.
  Lemma group_In : forall l k b, In (k, b) (fold_left push l []) <-> b = bucket k l /\ b <> [].
  Proof.
    intros l k b. destruct (group_inv l) as [D H]. specialize (H k). split.
    - intros Hi. apply In_pfind in Hi; [|exact D]. rewrite Hi in H. exact H.
    - intros [-> Hb]. apply pfind_In. destruct (pfind _ k) as [b|]; [destruct H as [-> _]; reflexivity | contradiction].
  Qed.
End Group.

Lemma ofold_total : forall (A S : Type) (f : S -> A -> outcome S) (g : S -> A -> S) l s,
  (forall s a, In a l -> f s a = Ok (g s a)) -> ofold f l s = Ok (fold_left g l s).
Proof.
  intros A S f g. induction l as [|a l IH]; intros s H; cbn; [reflexivity|]. rewrite H by (left; reflexivity). cbn. apply IH.
  intros s' a' Ha. apply H. right. exact Ha.
Qed.

(** ** The codes *)
Lemma code_inj : forall nr r l r' l', r < nr -> r' < nr -> r + nr * l = r' + nr * l' -> r = r' /\ l = l'.
Proof.
  intros nr r l r' l' H H' E.
  assert (r = r').
  { rewrite <- (N.mod_small r nr H), <- (N.mod_small r' nr H').
    rewrite <- (N.mod_add r l nr), <- (N.mod_add r' l' nr) by lia. f_equal. lia. }
  subst r'. split; [reflexivity|]. nia.
Qed.
Lemma code_decode : forall nr r l, r < nr -> (r + nr * l) mod nr = r /\ (r + nr * l) / nr = l.
Proof.
  intros nr r l H. rewrite (N.mul_comm nr l). split; [rewrite N.mod_add by lia; apply N.mod_small, H|].
  rewrite N.div_add by lia. rewrite N.div_small by exact H. reflexivity.
Qed.

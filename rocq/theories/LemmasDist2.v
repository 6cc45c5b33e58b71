From Coq Require Import NArith List Bool Arith Permutation Lia.
From Verif Require Import Num Outcome ModelMesh ModelPart SpecPart LemmasPart ModelDist SpecDist LemmasDist.
Import ListNotations.
Open Scope N_scope.

Lemma distributed_internal : forall t, t < 256 -> is_internal t = true -> is_internal (distributed t) = false.
Proof.
  intros t Ht H. unfold is_internal in *. apply andb_true_iff in H. destruct H as [A B]. apply N.leb_le in A. apply N.ltb_lt in B.
  unfold distributed, DISTRIBUTED_OFFSET, INTERNAL, DISTRIBUTED in *. rewrite N.mod_small by lia. apply andb_false_iff. right. apply N.ltb_ge. lia.
Qed.
Lemma nth_combine : forall (A B : Type) (l : list A) (m : list B) i a b,
  nth_error (combine l m) i = Some (a, b) <-> nth_error l i = Some a /\ nth_error m i = Some b.
Proof.
  intros A B. induction l as [|x l IH]; intros m i a b; [destruct i; cbn; split; intuition discriminate|].
  destruct m as [|y m]; [destruct i; cbn; split; intuition discriminate|]. destruct i as [|i]; cbn; [|apply IH].
  split; [intros E; injection E as -> ->; auto | intros [E F]; injection E as ->; injection F as ->; reflexivity].
Qed.
Lemma internal_pairs_In : forall e x f, In f (internal_pairs (e, x)) <->
  exists k n t, nth_error (e_neigh x) k = Some n /\ nth_error (e_type x) k = Some t /\ is_internal t = true /\ f = edge_of e n.
Proof.
  intros e x f. unfold internal_pairs. cbn [fst snd]. rewrite in_map_iff. split.
  - intros ([n t] & <- & H). apply filter_In in H. destruct H as [H I]. apply In_nth_error in H. destruct H as (k & H).
    apply nth_combine in H. exists k, n, t. cbn [fst snd] in *. tauto.
  - intros (k & n & t & A & B & I & ->). exists (n, t). split; [reflexivity|]. apply filter_In. split; [|exact I].
    apply (nth_error_In _ k). apply nth_combine. auto.
Qed.
Lemma edge_of_sym : forall a b, edge_of a b = edge_of b a.
Proof. intros. unfold edge_of. rewrite N.min_comm, N.max_comm. reflexivity. Qed.
Lemma edge_of_cases : forall a b, edge_of a b = (a, b) /\ a <= b \/ edge_of a b = (b, a) /\ b < a.
Proof. intros a b. unfold edge_of. destruct (N.le_gt_cases a b); [left; split; [f_equal; lia | lia] | right; split; [f_equal; lia | lia]]. Qed.
Lemma edge_of_inj : forall a b c d, edge_of a b = edge_of c d -> (a = c /\ b = d) \/ (a = d /\ b = c).
Proof. intros a b c d. destruct (edge_of_cases a b) as [[-> _]|[-> _]], (edge_of_cases c d) as [[-> _]|[-> _]]; intros E; injection E as -> ->; auto. Qed.

Section Dist.
Context {P : Type} (m : mesh P) (nr : N) (size : N -> N) (c : subs P) (p : N).
Hypothesis Hm : mesh_ok m.
Hypothesis Hn : neigh_ok m.
Hypothesis Hp : partitioned m nr size c.
Hypothesis Hc : forall r l, r < nr -> l < size r -> r + nr * l < 2 ^ 32.

Lemma elem_unique : forall e x y, In (e, x) (m_elements m) -> In (e, y) (m_elements m) -> x = y.
Proof.
  intros e x y A B. destruct Hm as (D & _). apply In_afind in A; [|exact D]. apply In_afind in B; [|exact D]. congruence.
Qed.
Lemma face_at_fun : forall e k n n', face_at m e k n -> face_at m e k n' -> n = n'.
Proof. intros e k n n' (x & A & B & _) (y & A' & B' & _). pose proof (elem_unique e x y A A'). subst y. congruence. Qed.
Lemma face_at_ids : forall e k n, face_at m e k n -> In e (map fst (m_elements m)) /\ In n (map fst (m_elements m)).
Proof.
  intros e k n (x & A & B & C). split; [apply (in_map fst) in A; exact A|]. destruct Hm as (_ & _ & H). destruct (H e x A) as (_ & _ & _ & Q).
  apply (Q n (nth_error_In _ _ B) C).
Qed.
Lemma holds_id : forall e r l, holds nr size c e r l -> In e (map fst (m_elements m)).
Proof.
  intros e r l (A & B & H). destruct (proj2 Hp r l A B) as (_ & _ & F & _). apply in_map_iff in H. destruct H as ([e' y] & <- & Hy).
  destruct (F e' y Hy) as (x & Hx & _). apply (in_map fst) in Hx. exact Hx.
Qed.
Lemma holds_fun : forall e r l r' l', holds nr size c e r l -> holds nr size c e r' l' -> r' = r /\ l' = l.
Proof.
  intros e r l r' l' H H'. destruct (proj1 Hp e (holds_id e r l H)) as (r0 & l0 & _ & U).
  destruct (U r l H) as [-> ->]. destruct (U r' l' H') as [-> ->]. auto.
Qed.
Lemma face_types : forall e x k n, In (e, x) (m_elements m) -> nth_error (e_neigh x) k = Some n ->
  exists t, nth_error (e_type x) k = Some t /\ t < 256 /\ (n <> DEFAULT_ID <-> is_internal t = true).
Proof.
  intros e x k n Hx Hk. destruct Hm as (_ & _ & H). destruct (H e x Hx) as (L1 & L2 & _).
  destruct (nth_error (e_type x) k) as [t|] eqn:E.
  - exists t. split; [reflexivity|]. apply (proj1 Hn e x k n t); assumption.
  - apply nth_error_None in E. assert (nth_error (e_neigh x) k <> None) as Q by congruence. apply nth_error_Some in Q. lia.
Qed.

(** The set of faces is that of the cut ones. *)
Lemma cut_faces_spec : NoDup (cut_faces m nr size c) /\
  forall f, In f (cut_faces m nr size c) <-> exists e k n, f = edge_of e n /\ face_at m e k n /\ ~ together nr size c e n.
Proof.
  unfold cut_faces. destruct (fold_padd (flat_map internal_pairs (m_elements m)) [] (NoDup_nil _)) as [D I].
  split; [apply premove_NoDup, D|]. intros f. rewrite fold_premove, I. cbn [In].
  assert (IN : In f (flat_map internal_pairs (m_elements m)) <-> exists e k n, f = edge_of e n /\ face_at m e k n).
  { rewrite in_flat_map. split.
    - intros ([e x] & Hx & H). apply internal_pairs_In in H. destruct H as (k & n & t & A & B & C & ->).
      exists e, (N.of_nat k), n. split; [reflexivity|]. exists x. rewrite Nnat.Nat2N.id. split; [exact Hx|]. split; [exact A|].
      apply (proj1 Hn e x k n t); assumption.
    - intros (e & k & n & -> & x & Hx & A & Nn). exists (e, x). split; [exact Hx|]. apply internal_pairs_In.
      destruct (face_types e x _ n Hx A) as (t & B & _ & Q). exists (N.to_nat k), n, t. rewrite <- Q. auto. }
  assert (OUT : In f (flat_map internal_pairs (flat_map (sub_elements c) (submesh_ids nr size))) <->
                exists e k n, f = edge_of e n /\ face_at m e k n /\ together nr size c e n).
  { rewrite in_flat_map. split.
    - intros ([e y] & Hy & H). apply in_flat_map in Hy. destruct Hy as ([r l] & Hrl & Hy). apply submesh_ids_In in Hrl. destruct Hrl as [Hr Hl].
      unfold sub_elements in Hy. cbn [fst snd] in Hy. destruct (proj2 Hp r l Hr Hl) as (_ & _ & F & _).
      destruct (F e y Hy) as (x & Hx & _ & En & _ & T). apply internal_pairs_In in H. destruct H as (k & n & t' & A & B & C & ->). rewrite En in A.
      destruct (face_types e x k n Hx A) as (t & Et & Lt & Q). destruct (T k n t A Et) as [T1 T2].
      assert (HH : holds nr size c e r l) by (split; [exact Hr|]; split; [exact Hl|]; apply (in_map fst) in Hy; exact Hy).
      assert (TD : n <> DEFAULT_ID /\ together nr size c e n).
      { destruct (N.eq_dec n DEFAULT_ID) as [->|Nd].
        - rewrite (T1 (or_introl eq_refl)) in B. injection B as <-. exfalso. apply Q in C. congruence.
        - split; [exact Nd|]. assert (IDn : In n (map fst (m_elements m))).
          { apply (face_at_ids e (N.of_nat k) n). exists x. rewrite Nnat.Nat2N.id. auto. }
          destruct (proj1 Hp n IDn) as (r' & l' & Hn' & U).
          destruct (N.eq_dec r' r) as [->|Ne]; [destruct (N.eq_dec l' l) as [->|Ne]|].
          + exists r, l. auto.
          + exfalso. assert (X : ~ together nr size c e n).
            { intros (r1 & l1 & H1 & H2). destruct (holds_fun e r l r1 l1 HH H1) as [-> ->]. destruct (U r l H2) as [_ E]. congruence. }
            rewrite (T2 (conj Nd X)) in B. injection B as <-. rewrite (distributed_internal t Lt (proj1 Q Nd)) in C. discriminate.
          + exfalso. assert (X : ~ together nr size c e n).
            { intros (r1 & l1 & H1 & H2). destruct (holds_fun e r l r1 l1 HH H1) as [-> ->]. destruct (U r l H2) as [E _]. congruence. }
            rewrite (T2 (conj Nd X)) in B. injection B as <-. rewrite (distributed_internal t Lt (proj1 Q Nd)) in C. discriminate. }
      destruct TD as [Nd Tg]. exists e, (N.of_nat k), n. split; [reflexivity|]. split; [|exact Tg]. exists x. rewrite Nnat.Nat2N.id. auto.
    - intros (e & k & n & -> & (x & Hx & A & Nd) & Tg). pose proof Tg as (r & l & (Hr & Hl & He) & _).
      destruct (proj2 Hp r l Hr Hl) as (_ & _ & F & _). apply in_map_iff in He. destruct He as ([e' y] & Ee & Hy). cbn [fst] in Ee. subst e'.
      exists (e, y). split; [apply in_flat_map; exists (r, l); split; [apply submesh_ids_In; auto | exact Hy]|].
      destruct (F e y Hy) as (x' & Hx' & _ & En & _ & T). pose proof (elem_unique e x x' Hx Hx'). subst x'.
      destruct (face_types e x _ n Hx A) as (t & Et & _ & Q). apply internal_pairs_In. exists (N.to_nat k), n, t.
      rewrite En. split; [exact A|]. split; [apply (T _ n t A Et); auto|]. split; [apply Q, Nd | reflexivity]. }
  rewrite IN, OUT. split.
  - intros [[[]|(e & k & n & -> & Hf)] No]. exists e, k, n. split; [reflexivity|]. split; [exact Hf|]. intros T. apply No. exists e, k, n. auto.
  - intros (e & k & n & -> & Hf & No). split; [right; exists e, k, n; auto|]. intros (e' & k' & n' & E & Hf' & T). apply No.
    apply edge_of_inj in E. destruct E as [[-> ->]|[-> ->]]; [exact T|]. destruct T as (r & l & A & B). exists r, l. auto.
Qed.

(** Codes of the elements. *)
Lemma elt2code_find : forall e r l, holds nr size c e r l -> afind (elt2code nr size c) e = Some (r + nr * l).
Proof.
  intros e r l H. unfold elt2code.
  assert (E : forall ids t, fold_left (fun t rl => fold_left (fun t x => ainsert t (fst x) (code nr (fst rl) (snd rl))) (sub_elements c rl) t) ids t =
    fold_left (fun t x => ainsert t (fst x) (snd x)) (flat_map (fun rl => map (fun x : N * elt => (fst x, code nr (fst rl) (snd rl))) (sub_elements c rl)) ids) t).
  { induction ids as [|rl ids IH]; intros t; cbn [fold_left flat_map]; [reflexivity|]. rewrite fold_left_app, IH. f_equal.
    generalize (sub_elements c rl). intros es. revert t. induction es as [|x es IHe]; intros t; cbn; [reflexivity | apply IHe]. }
  rewrite E. clear E.
  assert (I : forall e v, In (e, v) ([] ++ flat_map (fun rl => map (fun x : N * elt => (fst x, code nr (fst rl) (snd rl))) (sub_elements c rl)) (submesh_ids nr size)) <->
              exists r l, holds nr size c e r l /\ v = r + nr * l).
  { intros e' v. cbn [app]. rewrite in_flat_map. split.
    - intros ([r' l'] & Hrl & Hv). apply submesh_ids_In in Hrl. apply in_map_iff in Hv. destruct Hv as (x & Ev & Hx). injection Ev as <- <-.
      exists r', l'. cbn [fst snd]. split.
      + split; [apply Hrl|]. split; [apply Hrl|]. apply in_map, Hx.
      + unfold code. apply N.mod_small, Hc; apply Hrl.
    - intros (r' & l' & (A & B & Hv) & ->). exists (r', l'). split; [apply submesh_ids_In; auto|]. apply in_map_iff in Hv. destruct Hv as (x & <- & Hx).
      apply in_map_iff. exists x. split; [|exact Hx]. cbn [fst snd]. f_equal. unfold code. apply N.mod_small, Hc; assumption. }
  apply fold_ainsert.
  - intros e' v w Hv Hw. apply I in Hv. apply I in Hw. destruct Hv as (r1 & l1 & H1 & ->). destruct Hw as (r2 & l2 & H2 & ->).
    destruct (holds_fun e' r1 l1 r2 l2 H1 H2) as [-> ->]. reflexivity.
  - apply I. exists r, l. auto.
Qed.
Lemma face_to_ok : forall a k b, face_at m a k b -> face_to m a b = Ok k.
Proof.
  intros a k b H. pose proof H as (x & Hx & A & Nd). unfold face_to. destruct Hm as (D & _). rewrite (In_afind _ _ _ D Hx). cbn [of_at bind].
  destruct (last_face_spec (e_neigh x) 0 b None) as [[Q _]|(i & E & ->)]; [exfalso; apply (Q _ A)|].
  f_equal. apply (proj2 (proj2 Hn) a (0 + N.of_nat i) k b); [|exact H]. exists x. replace (N.to_nat (0 + N.of_nat i)) with i by lia. auto.
Qed.

(** The table of shared faces. *)
Definition ecode (e : N) : N := match afind (elt2code nr size c) e with Some v => v | None => 0 end.
Definition ofk (x : outcome N) : N := match x with Ok k => k | _ => 0 end.
Definition key (f : N * N) : N * N := edge_of (ecode (fst f)) (ecode (snd f)).
Definition pairing (f : N * N) : dbpair :=
  let ka := ofk (face_to m (fst f) (snd f)) in let kb := ofk (face_to m (snd f) (fst f)) in
  if ecode (snd f) <? ecode (fst f) then DBPair (snd f) (fst f) kb ka p else DBPair (fst f) (snd f) ka kb p.

Lemma cut_face_facts : forall f, In f (cut_faces m nr size c) -> exists ka kb r l r' l',
  face_at m (fst f) ka (snd f) /\ face_at m (snd f) kb (fst f) /\
  holds nr size c (fst f) r l /\ holds nr size c (snd f) r' l' /\ (r', l') <> (r, l).
Proof.
  intros f H. apply cut_faces_spec in H. destruct H as (e & k & n & -> & Hf & Nt).
  destruct (proj1 (proj2 Hn) e k n Hf) as (k' & Hf'). destruct (face_at_ids e k n Hf) as [Ie In'].
  destruct (proj1 Hp e Ie) as (r & l & Hh & _). destruct (proj1 Hp n In') as (r' & l' & Hh' & _).
  assert (Ne : (r', l') <> (r, l)) by (intros E; injection E as -> ->; apply Nt; exists r, l; auto).
  destruct (edge_of_cases e n) as [[-> _]|[-> _]]; cbn [fst snd].
  - exists k, k', r, l, r', l'. auto.
  - exists k', k, r', l', r, l. auto.
Qed.
Lemma ecode_holds : forall e r l, holds nr size c e r l -> ecode e = r + nr * l.
Proof. intros e r l H. unfold ecode. rewrite (elt2code_find e r l H). reflexivity. Qed.

Lemma shared_ok : forall order, (forall f, In f order -> In f (cut_faces m nr size c)) ->
  shared_faces m nr size c p order = Ok (fold_left (push key pairing) order []).
Proof.
  intros order Ho. unfold shared_faces. apply ofold_total. intros t f Hf. apply Ho, cut_face_facts in Hf.
  destruct Hf as (ka & kb & r & l & r' & l' & Fa & Fb & Ha & Hb & _). unfold add_shared.
  rewrite (elt2code_find _ _ _ Ha), (elt2code_find _ _ _ Hb), (face_to_ok _ _ _ Fa), (face_to_ok _ _ _ Fb). cbn [of_at bind].
  unfold push, key, pairing. rewrite (ecode_holds _ _ _ Ha), (ecode_holds _ _ _ Hb), (face_to_ok _ _ _ Fa), (face_to_ok _ _ _ Fb). reflexivity.
Qed.

(** What is listed under a key. *)
Definition entry_ok (k : N * N) (d : dbpair) : Prop := exists r l r' l',
  k = (r + nr * l, r' + nr * l') /\ holds nr size c (d_e1 d) r l /\ holds nr size c (d_e2 d) r' l' /\ d_p d = p /\
  face_at m (d_e1 d) (d_f1 d) (d_e2 d) /\ face_at m (d_e2 d) (d_f2 d) (d_e1 d).
Lemma holds_lt : forall e r l, holds nr size c e r l -> r < nr.
Proof. intros e r l H. apply H. Qed.
Lemma codes_differ : forall e n r l r' l', holds nr size c e r l -> holds nr size c n r' l' -> (r', l') <> (r, l) -> r + nr * l <> r' + nr * l'.
Proof. intros e n r l r' l' H H' Ne E. apply code_inj in E; [|apply H|apply H']. destruct E as [-> ->]. congruence. Qed.
Lemma pairing_facts : forall f, In f (cut_faces m nr size c) ->
  entry_ok (key f) (pairing f) /\ f = edge_of (d_e1 (pairing f)) (d_e2 (pairing f)) /\ fst (key f) < snd (key f).
Proof.
  intros f Hf. pose proof Hf as Hf0. apply cut_faces_spec in Hf0. destruct Hf0 as (e0 & k0 & n0 & Ef & _).
  apply cut_face_facts in Hf. destruct Hf as (ka & kb & r & l & r' & l' & Fa & Fb & Ha & Hb & Ne).
  pose proof (codes_differ _ _ _ _ _ _ Ha Hb Ne) as Cd.
  assert (Fe : f = edge_of (fst f) (snd f)).
  { rewrite Ef. destruct (edge_of_cases e0 n0) as [[-> Q]|[-> Q]]; cbn [fst snd]; unfold edge_of; f_equal; lia. }
  unfold key, pairing. rewrite (ecode_holds _ _ _ Ha), (ecode_holds _ _ _ Hb), (face_to_ok _ _ _ Fa), (face_to_ok _ _ _ Fb). cbn [ofk].
  destruct (N.ltb_spec (r' + nr * l') (r + nr * l)); cbn [d_e1 d_e2].
  - assert (E : edge_of (r + nr * l) (r' + nr * l') = (r' + nr * l', r + nr * l)) by (unfold edge_of; f_equal; lia). rewrite E. split; [|split].
    + exists r', l', r, l. cbn [d_e1 d_e2 d_f1 d_f2 d_p]. auto 10.
    + rewrite edge_of_sym. exact Fe.
    + cbn. lia.
  - assert (E : edge_of (r + nr * l) (r' + nr * l') = (r + nr * l, r' + nr * l')) by (unfold edge_of; f_equal; lia). rewrite E. split; [|split].
    + exists r, l, r', l'. cbn [d_e1 d_e2 d_f1 d_f2 d_p]. auto 10.
    + exact Fe.
    + cbn. lia.
Qed.
Lemma entry_from : forall k d, fst k < snd k -> entry_ok k d -> exists f, In f (cut_faces m nr size c) /\ key f = k /\ pairing f = d.
Proof.
  intros k [e1 e2 f1 f2 q] Lt (r & l & r' & l' & -> & H1 & H2 & Q & F1 & F2). cbn [d_e1 d_e2 d_f1 d_f2 d_p fst snd] in *. subst q.
  exists (edge_of e1 e2). split.
  - apply cut_faces_spec. exists e1, f1, e2. split; [reflexivity|]. split; [exact F1|]. intros (r0 & l0 & A & B).
    destruct (holds_fun _ _ _ _ _ H1 A) as [-> ->]. destruct (holds_fun _ _ _ _ _ H2 B) as [-> ->]. lia.
  - unfold key, pairing. destruct (edge_of_cases e1 e2) as [[-> _]|[-> _]]; cbn [fst snd].
    + rewrite (ecode_holds _ _ _ H1), (ecode_holds _ _ _ H2), (face_to_ok _ _ _ F1), (face_to_ok _ _ _ F2). cbn [ofk].
      split; [unfold edge_of; f_equal; lia|]. destruct (N.ltb_spec (r' + nr * l') (r + nr * l)); [lia | reflexivity].
    + rewrite (ecode_holds _ _ _ H1), (ecode_holds _ _ _ H2), (face_to_ok _ _ _ F1), (face_to_ok _ _ _ F2). cbn [ofk].
      split; [unfold edge_of; f_equal; lia|]. destruct (N.ltb_spec (r + nr * l) (r' + nr * l')); [reflexivity | lia].
Qed.
End Dist.

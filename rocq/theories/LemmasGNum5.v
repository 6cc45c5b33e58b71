(** On the undivided mesh the numbers are those of the serial solver. *)
From Coq Require Import NArith List Bool Arith Lia Permutation.
From Verif Require Import Outcome ModelDist ModelComm ModelDofs SpecDofs ModelStep SpecStage ModelGNum SpecGNum SpecGNumS LemmasGNum1 LemmasGNum2 LemmasGNum3 LemmasGNum4.
From Verif Require ModelGN LemmasGN2 LemmasGN3 LemmasGN4 SpecGN.
Import ListNotations.
Open Scope N_scope.

Section Serial.
  Context (m : mesh) (HM : faces_once m) (wet : nat -> bool) (mem : nat -> ids).
  Notation edges := (ModelGN.numbered_edges m).
  Notation ge_slots x := (map side_slot (ModelGN.ge_sides (snd x))).

  Lemma sides_shape : forall x : nat * ModelGN.gedge, In x edges -> (exists a, ModelGN.ge_sides (snd x) = [a]) \/ exists a b, ModelGN.ge_sides (snd x) = [a; b].
  Proof.
    intros x H. apply LemmasGN2.in_numbered in H. unfold ModelGN.gedges in H. apply in_app_or in H. destruct H as [H|H]; apply in_map_iff in H; destruct H as (f & <- & _); cbn; eauto.
  Qed.
  Lemma item_slots : forall x : nat * ModelGN.gedge, In x edges -> i_slots (edge_item x) = ge_slots x.
  Proof. intros x H. unfold edge_item. destruct (sides_shape x H) as [(a & ->)|(a & b & ->)]; reflexivity. Qed.
  Lemma item_edge : forall x, i_edge (edge_item x) = fst x.
  Proof. intros x. unfold edge_item. destruct (ModelGN.ge_sides (snd x)) as [|a [|b l]]; reflexivity. Qed.
  Lemma item_home : forall x, at_home (edge_item x) = true.
  Proof. intros x. unfold edge_item. destruct (ModelGN.ge_sides (snd x)) as [|a [|b l]]; reflexivity. Qed.
  Lemma item_wet : forall x, In x edges -> numbers wet (edge_item x) = ModelGN.wet_edge wet (snd x).
  Proof.
    intros x H. unfold edge_item, ModelGN.wet_edge. destruct (sides_shape x H) as [(a & ->)|(a & b & ->)]; cbn; [rewrite orb_false_r|rewrite orb_false_r]; reflexivity.
  Qed.
  Lemma undivided_items : items_of (undivided m mem) = map edge_item edges.
  Proof. unfold items_of, entries_of, undivided. cbn [concat app]. rewrite !app_nil_r, map_map. reflexivity. Qed.
  Lemma all_slots : flat_map i_slots (items_of (undivided m mem)) = all_sides m.
  Proof.
    rewrite undivided_items, <- LemmasGN2.gedges_sides, <- (LemmasGN2.numbered_snd m). assert (G : forall l, (forall x, In x l -> In x edges) ->
      flat_map i_slots (map edge_item l) = map (fun s => (ModelGN.s_e s, ModelGN.s_b s)) (flat_map ModelGN.ge_sides (map snd l))).
    { induction l as [|x l IH]; intros H; [reflexivity|]. cbn [map flat_map]. rewrite map_app, IH by (intros; apply H; right; assumption). f_equal. apply item_slots. apply H. left. reflexivity. }
    apply G. auto.
  Qed.
  Lemma undivided_ok : divided wet (undivided m mem).
  Proof.
    split; [|split; [|split]].
    - rewrite undivided_items, (filter_all _ at_home), map_map.
      + rewrite (map_ext _ fst item_edge). exact (proj1 (LemmasGN3.numbered_nodup m HM)).
      + intros it H. apply in_map_iff in H. destruct H as (x & <- & _). apply item_home.
    - rewrite all_slots. exact (proj1 HM).
    - intros k a i x wn H. rewrite undivided_items in H. apply in_map_iff in H. destruct H as (y & E & _). unfold edge_item in E. destruct (ModelGN.ge_sides (snd y)) as [|p [|q l]]; discriminate E.
    - intros us u e s f Hu Hv He Hs Hf. cbn in Hu. destruct Hu as [<-|[]]. cbn in Hv. destruct Hv as [<-|[]].
      assert (I : In s (all_sides m)).
      { rewrite <- all_slots. apply in_flat_map. exists (fst e). split; [|exact Hs]. unfold items_of, entries_of, undivided. cbn [concat app]. rewrite !app_nil_r. apply in_map. exact He. }
      assert (J : In (fst s, f) (all_sides m)) by (apply (proj2 HM); split; [destruct s as [a b]; apply (proj2 HM) in I; exact (proj1 I)|exact Hf]).
      rewrite <- all_slots in J. apply in_flat_map in J. destruct J as (it & I1 & I2). unfold items_of in I1. apply in_map_iff in I1. destruct I1 as (e' & <- & I1).
      unfold entries_of, undivided in I1. cbn [concat app] in I1. rewrite !app_nil_r in I1. exists e'. auto.
  Qed.

  Theorem serial_numbers : forall nb, few (undivided m mem) ->
    let nb' := ModelGN.renumber m true wet nb in
    exists res num, renumber_all wet (undivided m mem) = Ok (res, N.of_nat (ModelGN.n_count nb')) /\
      numbering_of wet (undivided m mem) num (N.of_nat (ModelGN.n_count nb')) /\ renumbered wet (undivided m mem) res num /\
      forall x, In x edges -> ModelGN.wet_edge wet (snd x) = true ->
        num (fst x) = N.of_nat (ModelGN.n_edge nb' (fst x)) /\
        forall s, In s (ModelGN.ge_sides (snd x)) -> num (fst x) = N.of_nat (ModelGN.n_face nb' (ModelGN.s_e s) (ModelGN.s_b s)).
  Proof.
    intros nb F nb'. pose proof (LemmasGN3.fold_num_ok m wet (ModelGN.Numb (ModelGN.n_edge nb) (ModelGN.n_face nb) 0) HM eq_refl) as [O1 O2].
    change (fold_left _ _ _) with nb' in O1, O2.
    pose proof undivided_ok as D. destruct (numbering_ok wet (undivided m mem) D F) as (res & n & num & A & B & C & E).
    assert (W : map (fun e => i_glob (snd e)) (filter (fun e => numbers wet (fst e)) (entries_of (map fst res))) = map num (map fst (filter (fun x => ModelGN.wet_edge wet (snd x)) edges))).
    { transitivity (map num (map i_edge (filter (numbers wet) (items_of (undivided m mem))))).
      - rewrite <- (items_same (map fst res) _ (proj1 C)). unfold items_of. rewrite filter_map, !map_map. apply map_ext_in. intros e I. apply filter_In in I. destruct I as [I N0].
        apply (good_of wet _ _ _ C e I). assert (In (fst e) (items_of (undivided m mem))) as J by (rewrite <- (items_same (map fst res) _ (proj1 C)); apply in_map; exact I).
        rewrite undivided_items in J. apply in_map_iff in J. destruct J as (y & Ey & _). rewrite <- Ey in N0 |- *. unfold edge_item in *. destruct (ModelGN.ge_sides (snd y)) as [|p [|q l]]; exact N0.
      - rewrite undivided_items, filter_map, !map_map, (filter_ext_in _ _ _ item_wet). apply map_ext. intros x. rewrite item_edge. reflexivity. }
    rewrite E in W. assert (L : n = N.of_nat (ModelGN.n_count nb')).
    { apply (f_equal (@length N)) in W. apply (f_equal (@length nat)) in O2. unfold upto in W. rewrite !map_length, seq_length in *. lia. }
    subst n. exists res, num. do 3 (split; [assumption|]). intros x Ix Wx.
    assert (Q : num (fst x) = N.of_nat (ModelGN.n_edge nb' (fst x))).
    { unfold upto in W. rewrite Nat2N.id, <- O2, !map_map in W.
      assert (G : forall l, map (fun x : nat * ModelGN.gedge => N.of_nat (ModelGN.n_edge nb' (fst x))) l = map (fun x => num (fst x)) l -> In x l -> num (fst x) = N.of_nat (ModelGN.n_edge nb' (fst x))).
      { induction l as [|y l IH]; intros H I; [destruct I|]. cbn [map] in H. injection H as H1 H2. destruct I as [->|I]; [symmetry; exact H1|exact (IH H2 I)]. }
      apply (G _ W). apply filter_In. auto. }
    split; [exact Q|]. intros s Hs. rewrite Q, (O1 x s Ix Wx Hs). reflexivity.
  Qed.
End Serial.

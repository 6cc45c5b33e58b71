(** Each edge has one number, and both halves of a cut know it. *)
From Coq Require Import NArith List Bool Arith Lia.
From Verif Require Import Outcome ModelDist ModelComm ModelDofs SpecDofs LemmasDofs ModelGNum SpecGNum LemmasGNum1.
Import ListNotations.
Open Scope N_scope.

Lemma side_total : forall i x, i <> x -> side_lt i x = false -> side_lt x i = true.
Proof.
  intros [a b] [c d] H E. unfold side_lt in *. cbn [fst snd] in *. apply orb_false_iff in E. destruct E as [E1 E2]. apply N.ltb_ge in E1.
  destruct (N.eq_dec a c) as [->|K]; [|apply orb_true_iff; left; apply N.ltb_lt; lia].
  rewrite N.eqb_refl in *. cbn [andb] in *. apply N.ltb_ge in E2. apply orb_true_iff. right. apply N.ltb_lt. assert (b <> d) by (intros ->; apply H; reflexivity). lia.
Qed.
Lemma filter_sub : forall (A B : Type) (f : A -> B) (p q : A -> bool) l, (forall a, q a = true -> p a = true) -> NoDup (map f (filter p l)) -> NoDup (map f (filter q l)).
Proof.
  intros A B f p q l H. induction l as [|a l IH]; intros N0; [constructor|]. cbn [filter] in *.
  destruct (q a) eqn:Q.
  - rewrite (H a Q) in N0. cbn [map] in *. inversion N0 as [|? ? X Y]; subst. constructor; [|exact (IH Y)].
    intros I. apply X. apply in_map_iff in I. destruct I as (b & Eb & I). apply in_map_iff. exists b. split; [exact Eb|].
    apply filter_In in I. apply filter_In. split; [exact (proj1 I)|apply H; exact (proj2 I)].
  - apply IH. destruct (p a); [inversion N0; assumption|exact N0].
Qed.
Lemma nodup_inj : forall (A B : Type) (f : A -> B) l a b, NoDup (map f l) -> In a l -> In b l -> f a = f b -> a = b.
Proof.
  intros A B f l. induction l as [|c l IH]; intros a b N0 Ha Hb E; [destruct Ha|]. cbn [map] in N0. inversion N0 as [|? ? X Y]; subst.
  destruct Ha as [->|Ha], Hb as [->|Hb]; [reflexivity| | |exact (IH a b Y Ha Hb E)].
  - destruct X. rewrite E. apply in_map. exact Hb.
  - destruct X. rewrite <- E. apply in_map. exact Ha.
Qed.
Lemma filter_map : forall (A B : Type) (f : A -> B) p l, filter p (map f l) = map f (filter (fun a => p (f a)) l).
Proof. intros A B f p l. induction l as [|a l IH]; [reflexivity|]. cbn [map filter]. destruct (p (f a)); cbn [map]; rewrite IH; reflexivity. Qed.

Lemma items_same : forall rs ss : list (list gunit), map (map (map fst)) rs = map (map (map fst)) ss -> items_of rs = items_of ss.
Proof.
  assert (G : forall rs : list (list gunit), items_of rs = concat (concat (map (map (map fst)) rs))).
  { intros rs. unfold items_of, entries_of. rewrite !concat_map. do 2 f_equal. }
  intros rs ss H. rewrite !G, H. reflexivity.
Qed.

Section Num.
  Context (wet : nat -> bool).
  Notation numbers := (numbers wet). Notation holds := (holds wet).

  Lemma home : forall it, numbers it = true -> at_home it = true.
  Proof. intros [k a b|k a|k a i x wn] H; cbn in *; try reflexivity. apply andb_true_iff in H. exact (proj2 H). Qed.
  Lemma holds_wet : forall it, holds it = true <-> exists s, In s (i_slots it) /\ wet (fst s) = true.
  Proof.
    intros it. split.
    - destruct it as [k a b|k a|k a i x wn]; cbn; intros H; [apply orb_true_iff in H; destruct H as [H|H]; [exists a|exists b]|exists a|exists a]; auto.
    - intros (s & Hs & W). destruct it as [k a b|k a|k a i x wn]; cbn in *; unfold is_wet in *; [|destruct Hs as [->|[]]; exact W|destruct Hs as [->|[]]; exact W].
      apply orb_true_iff. destruct Hs as [->|[->|[]]]; auto.
  Qed.
  Lemma in_sides : forall rs k s, In s (sides_of rs k) <-> exists it, In it (items_of rs) /\ i_edge it = k /\ In s (i_slots it).
  Proof.
    intros rs k s. unfold sides_of. rewrite in_flat_map. split.
    - intros (it & H & I). apply filter_In in H. destruct H as [H E]. apply Nat.eqb_eq in E. exists it. auto.
    - intros (it & H & E & I). exists it. split; [|exact I]. apply filter_In. split; [exact H|apply Nat.eqb_eq; exact E].
  Qed.

  Section Divided.
    Context (rs : list (list gunit)) (D : divided wet rs) (Small : tot wet (entries_of rs) < 2 ^ 32).
    Let E := entries_of (shifted wet rs).
    Definition num (k : nat) : N :=
      match find (fun e => numbers (fst e) && Nat.eqb (i_edge (fst e)) k) (entries_of (shifted wet rs)) with Some e => i_glob (snd e) | None => 0 end.

    Lemma items_E : map fst E = items_of rs.
    Proof. apply (items_same (shifted wet rs) rs). exact (proj1 (shifted_ok wet rs Small)). Qed.
    Lemma once : NoDup (map (fun e : entry => i_edge (fst e)) (filter (fun e => numbers (fst e)) E)).
    Proof.
      destruct D as (A & _). apply (filter_sub _ _ _ _ numbers _ home) in A. rewrite <- items_E, filter_map, map_map in A. exact A.
    Qed.
    Lemma num_of : forall e, In e E -> numbers (fst e) = true -> num (i_edge (fst e)) = i_glob (snd e).
    Proof.
      intros e I N0. unfold num. fold E.
      destruct (find (fun e0 => numbers (fst e0) && (i_edge (fst e0) =? i_edge (fst e))%nat) E) as [e0|] eqn:F.
      - apply find_some in F. destruct F as [I0 F]. apply andb_true_iff in F. destruct F as [F1 F2]. apply Nat.eqb_eq in F2.
        assert (e0 = e) as ->; [|reflexivity]. apply (nodup_inj _ _ (fun e : entry => i_edge (fst e)) _ e0 e once); [apply filter_In; auto|apply filter_In; auto|exact F2].
      - pose proof (find_none _ _ F e I) as K. cbn beta in K. rewrite N0, Nat.eqb_refl in K. discriminate K.
    Qed.
    Lemma entry_of : forall it, In it (items_of rs) -> exists e, In e E /\ fst e = it.
    Proof. intros it H. rewrite <- items_E in H. apply in_map_iff in H. destruct H as (e & A & B). exists e. auto. Qed.
    Lemma item_in : forall e, In e E -> In (fst e) (items_of rs).
    Proof. intros e H. rewrite <- items_E. apply in_map. exact H. Qed.

    (** A half that does not number its cut asks the one that does. *)
    Lemma held_cases : forall it, In it (items_of rs) -> holds it = true ->
      numbers it = true /\ asks it = false \/
      asks it = true /\ exists k a i x wn b wn', it = Cut k a i x wn /\ In (Cut k b x i wn') (items_of rs) /\ numbers (Cut k b x i wn') = true.
    Proof.
      intros it I H. destruct it as [k a b|k a|k a i x wn]; [left; split; [exact H|reflexivity]|left; split; [exact H|reflexivity]|].
      destruct D as (_ & _ & C & _). destruct (C k a i x wn I) as (NE & b & wn' & P & E1 & E2). cbn in H. destruct (side_lt i x) eqn:L.
      - left. cbn. rewrite H, L. split; [reflexivity|]. destruct (side_lt x i) eqn:L'; [|reflexivity]. exfalso.
        unfold side_lt in L, L'. apply orb_true_iff in L. apply orb_true_iff in L'. rewrite !andb_true_iff, !N.ltb_lt, !N.eqb_eq in *. lia.
      - right. pose proof (side_total _ _ NE L) as L'. split; [exact L'|]. exists k, a, i, x, wn, b, wn'. split; [reflexivity|]. split; [exact P|].
        cbn. unfold is_wet in *. rewrite L', andb_true_r. destruct (wet (fst b)); [reflexivity|]. rewrite (E2 eq_refl). exact H.
    Qed.
    Lemma numbered_wet : forall k, In k (map i_edge (filter numbers (items_of rs))) <-> wet_edge wet rs k.
    Proof.
      intros k. rewrite in_map_iff. unfold wet_edge. split.
      - intros (it & Ek & H). apply filter_In in H. destruct H as [I N0].
        assert (Hd : holds it = true \/ exists k a i x, it = Cut k a i x true).
        { destruct it as [j a b|j a|j a i x wn]; cbn in *; [left; exact N0|left; exact N0|]. apply andb_true_iff in N0. destruct N0 as [N0 _].
          apply orb_true_iff in N0. destruct N0 as [N0|N0]; [left; exact N0|right; subst wn; exists j, a, i, x; reflexivity]. }
        destruct (holds it) eqn:Hw; [clear Hd; rename Hw into Hd|destruct Hd as [Hd|(j & a & i & x & ->)]; [congruence|]].
        + apply holds_wet in Hd. destruct Hd as (s & Hs & W). exists s. split; [|exact W]. apply in_sides. exists it. auto.
        + destruct D as (_ & _ & C & _). destruct (C j a i x true I) as (_ & b & wn' & P & E1 & _). exists b. split; [|symmetry; exact (E1 Hw)].
          apply in_sides. exists (Cut j b x i wn'). split; [exact P|]. split; [exact Ek|left; reflexivity].
      - intros (s & Hs & W). apply in_sides in Hs. destruct Hs as (it & I & Ek & Hs).
        assert (H : holds it = true) by (apply holds_wet; exists s; auto).
        destruct (held_cases it I H) as [(N0 & _)|(_ & j & a & i & x & wn & b & wn' & -> & P & N0)].
        + exists it. split; [exact Ek|]. apply filter_In. auto.
        + exists (Cut j b x i wn'). split; [exact Ek|]. apply filter_In. auto.
    Qed.
    Lemma numbering_num : numbering_of wet rs num (tot wet (entries_of rs)).
    Proof.
      exists (map i_edge (filter numbers (items_of rs))). split; [|split].
      - destruct D as (A & _). exact (filter_sub _ _ _ _ numbers _ home A).
      - exact numbered_wet.
      - change (upto (tot wet (entries_of rs))) with (seqN (tot wet (entries_of rs))). rewrite <- range_0.
        rewrite <- (proj1 (proj2 (shifted_ok wet rs Small))). fold E. rewrite <- items_E, filter_map, !map_map. unfold globs.
        apply map_ext_in. intros e He. apply filter_In in He. exact (num_of e (proj1 He) (proj2 He)).
    Qed.

    (** ** Letters *)
    Let box := flat_map (mails wet) E.
    Lemma letters : forall k b x i wn', In (Cut k b x i wn') (items_of rs) -> numbers (Cut k b x i wn') = true -> letter box x i k = Ok (num k).
    Proof.
      intros k b x i wn' P N0. destruct (entry_of _ P) as (e & I & F). unfold letter.
      assert (M : In (x, i, k, i_glob (snd e)) box).
      { unfold box. apply in_flat_map. exists e. split; [exact I|]. unfold mails. rewrite F. rewrite N0. left. reflexivity. }
      destruct (find (is_for x i k) box) as [w|] eqn:Fd.
      - apply find_some in Fd. destruct Fd as [Iw Q]. unfold box in Iw. apply in_flat_map in Iw. destruct Iw as (e' & I' & Iw).
        unfold mails in Iw. destruct (fst e') as [j a c|j a|j a i0 x0 w0] eqn:F'; try (destruct Iw; fail).
        destruct (numbers (Cut j a i0 x0 w0)) eqn:N1; [|destruct Iw]. destruct Iw as [<-|[]]. cbn in Q. apply andb_true_iff in Q. destruct Q as [_ Q]. apply Nat.eqb_eq in Q. subst j.
        cbn [option_map of_index snd]. f_equal. rewrite <- (num_of e' I'); rewrite F'; [reflexivity|exact N1].
      - pose proof (find_none _ _ Fd _ M) as K. cbn in K. rewrite !N.eqb_refl, Nat.eqb_refl in K. discriminate K.
    Qed.

    Definition fixed (e : entry) : entry := if asks (fst e) then (fst e, set_glob (snd e) (num (i_edge (fst e)))) else e.
    Lemma answers : forall e, In e E -> holds (fst e) = true -> answer box e = Ok (fixed e).
    Proof.
      intros e I H. unfold answer, fixed. destruct (held_cases (fst e) (item_in e I) H) as [(_ & A)|(A & k & a & i & x & wn & b & wn' & F & P & N0)].
      - rewrite A. destruct (fst e); reflexivity.
      - rewrite A, F, (letters k b x i wn' P N0). reflexivity.
    Qed.
    Lemma fixed_ok : forall e, In e E -> holds (fst e) = true -> i_glob (snd (fixed e)) = num (i_edge (fst e)) /\ i_slot (snd (fixed e)) = num (i_edge (fst e)).
    Proof.
      intros e I H. unfold fixed. destruct (held_cases (fst e) (item_in e I) H) as [(N0 & A)|(A & _)]; rewrite A; [|split; reflexivity].
      rewrite (num_of e I N0). split; [reflexivity|]. exact (proj2 (proj2 (shifted_ok wet rs Small)) e I N0).
    Qed.

    (** ** Local places *)
    Definition placed (v : list N) (e : entry) : Prop :=
      holds (fst e) = true -> i_glob (snd e) = num (i_edge (fst e)) /\ i_slot (snd e) = num (i_edge (fst e)) /\
        nth_error v (N.to_nat (i_loc (snd e))) = Some (num (i_edge (fst e))).
    Lemma placed_more : forall v w e, placed v e -> placed (v ++ w) e.
    Proof.
      intros v w e P H. destruct (P H) as (A & B & C). split; [exact A|]. split; [exact B|]. rewrite nth_error_app1; [exact C|].
      apply nth_error_Some. rewrite C. discriminate.
    Qed.
    Lemma gather_edges_ok : forall u v, (forall e, In e u -> In e E) ->
      exists u', gather_edges wet box u v = Ok (u', v ++ map num (map i_edge (filter holds (map fst u)))) /\ map fst u' = map fst u /\
        forall e, In e u' -> placed (v ++ map num (map i_edge (filter holds (map fst u)))) e /\ (holds (fst e) = false -> In e u).
    Proof.
      induction u as [|e u IH]; intros v H.
      - exists []. cbn. rewrite app_nil_r. split; [reflexivity|]. split; [reflexivity|]. intros e [].
      - cbn [gather_edges map filter]. destruct (holds (fst e)) eqn:Hd.
        + rewrite (answers e (H e (or_introl eq_refl)) Hd). cbn [bind]. destruct (fixed_ok e (H e (or_introl eq_refl)) Hd) as [G1 G2].
          destruct (IH (v ++ [i_glob (snd (fixed e))])) as (u' & A & B & C); [intros e' I'; apply H; right; exact I'|]. rewrite A. cbn [bind fst snd].
          assert (F : fst (fixed e) = fst e) by (unfold fixed; destruct (asks (fst e)); reflexivity).
          assert (W : forall t, (v ++ [i_glob (snd (fixed e))]) ++ t = v ++ num (i_edge (fst e)) :: t) by (intros t; rewrite <- app_assoc, G1; reflexivity).
          cbn [map]. rewrite W in A, C. eexists. rewrite W. split; [reflexivity|]. split; [cbn [map fst]; rewrite B, F; reflexivity|].
          intros e' [<-|I'].
          * split; [|cbn [fst]; rewrite F; congruence]. intros _. cbn [fst snd set_loc i_glob i_slot i_loc]. rewrite F. split; [exact G1|]. split; [exact G2|].
            rewrite Nat2N.id, nth_error_app2, Nat.sub_diag by lia. reflexivity.
          * destruct (C e' I') as [P Q]. split; [exact P|intros K; right; exact (Q K)].
        + destruct (IH v) as (u' & A & B & C); [intros e' I'; apply H; right; exact I'|]. rewrite A. cbn [bind fst snd].
          eexists. split; [reflexivity|]. split; [cbn [map]; rewrite B; reflexivity|]. intros e' [<-|I'].
          * split; [intros K; congruence|intros _; left; reflexivity].
          * destruct (C e' I') as [P Q]. split; [exact P|intros K; right; exact (Q K)].
    Qed.
    Definition local_numbers (us : list gunit) : list N := map num (map i_edge (filter holds (map fst (concat us)))).
    Lemma gather_units_ok : forall us v, (forall e, In e (concat us) -> In e E) ->
      exists us', gather_units wet box us v = Ok (us', v ++ local_numbers us) /\ map (map fst) us' = map (map fst) us /\
        forall e, In e (concat us') -> placed (v ++ local_numbers us) e /\ (holds (fst e) = false -> In e (concat us)).
    Proof.
      unfold local_numbers. induction us as [|u us IH]; intros v H.
      - exists []. cbn. rewrite app_nil_r. split; [reflexivity|]. split; [reflexivity|]. intros e [].
      - cbn [gather_units concat]. destruct (gather_edges_ok u v) as (u' & A & B & C); [intros e I; apply H; cbn [concat]; apply in_or_app; left; exact I|].
        rewrite A. cbn [bind fst snd]. destruct (IH (v ++ map num (map i_edge (filter holds (map fst u))))) as (us' & A' & B' & C'); [intros e I; apply H; cbn [concat]; apply in_or_app; right; exact I|].
        rewrite A'. cbn [bind fst snd]. rewrite map_app, filter_app, !map_app, <- app_assoc in *. eexists. split; [reflexivity|].
        split; [cbn [map]; rewrite B, B'; reflexivity|]. intros e I. cbn [concat] in I. apply in_app_or in I. destruct I as [I|I].
        + destruct (C e I) as [P Q]. split; [rewrite app_assoc; apply placed_more; exact P|intros K; apply in_or_app; left; exact (Q K)].
        + destruct (C' e I) as [P Q]. split; [exact P|intros K; apply in_or_app; right; exact (Q K)].
    Qed.

    (** ** The whole renumbering. *)
    Lemma renumber_ok : exists res, renumber_all wet rs = Ok (res, tot wet (entries_of rs)) /\
      map (map (map fst)) (map fst res) = map (map (map fst)) rs /\
      (forall us v e, In (us, v) res -> In e (concat us) -> placed v e /\ (numbers (fst e) = true -> i_glob (snd e) = num (i_edge (fst e)))).
    Proof.
      unfold renumber_all. fold (shifted wet rs). fold (entries_of (shifted wet rs)). fold E. fold box.
      destruct (totals_eq wet rs Small) as [T1 T2]. rewrite T1, accumulate_eq by (rewrite T2; exact Small). rewrite T2.
      assert (G : forall ss, (forall e, In e (entries_of ss) -> In e E) -> exists res, omap (fun us => gather_units wet box us []) ss = Ok res /\
        map (map (map fst)) (map fst res) = map (map (map fst)) ss /\ (forall us v e, In (us, v) res -> In e (concat us) -> placed v e /\ (numbers (fst e) = true -> i_glob (snd e) = num (i_edge (fst e))))).
      { unfold entries_of. induction ss as [|us ss IH]; intros H.
        - exists []. cbn. split; [reflexivity|]. split; [reflexivity|]. intros us v e [].
        - cbn [omap concat] in *. rewrite concat_app in H. destruct (gather_units_ok us []) as (us' & A & B & C); [intros e I; apply H; apply in_or_app; left; exact I|].
          rewrite A. cbn [bind]. destruct IH as (res & A' & B' & C'); [intros e I; apply H; apply in_or_app; right; exact I|]. rewrite A'. cbn [bind].
          eexists. split; [reflexivity|]. split; [cbn [map fst]; rewrite B, B'; reflexivity|].
          intros us0 v0 e [K|K] I; [|exact (C' us0 v0 e K I)]. injection K as <- <-. destruct (C e I) as [P Q]. split; [exact P|]. intros N0.
          destruct (holds (fst e)) eqn:Hd; [exact (proj1 (P Hd))|]. symmetry. apply num_of; [|exact N0]. apply H. apply in_or_app. left. exact (Q eq_refl). }
      destruct (G (shifted wet rs) (fun e I => I)) as (res & A & B & C). rewrite A. cbn [bind]. exists res. split; [reflexivity|]. split; [|exact C].
      rewrite B. exact (proj1 (shifted_ok wet rs Small)).
    Qed.
  End Divided.
End Num.

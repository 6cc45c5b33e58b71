(** Exchange of indices across distributed edges, whole-run theorem. *)
From Coq Require Import NArith List Bool Arith Permutation Lia.
From Verif Require Import Outcome ModelDist ModelComm ModelDofs SpecDofs LemmasPart LemmasDist LemmasDofs.
Import ListNotations.
Open Scope N_scope.

Lemma Forall2_len : forall (A B : Type) (P : A -> B -> Prop) l l', Forall2 P l l' -> length l = length l'.
Proof. intros A B P l l' H. induction H; cbn; congruence. Qed.

Lemma omap_ok : forall (A B : Type) (f : A -> outcome B) l, (forall a, In a l -> exists b, f a = Ok b) ->
  exists l', omap f l = Ok l' /\ Forall2 (fun a b => f a = Ok b) l l'.
Proof.
  intros A B f. induction l as [|a l IH]; intros H; cbn.
  - exists []. split; [reflexivity | constructor].
  - destruct (H a) as (b & E); [left; reflexivity|]. destruct IH as (l' & E' & F); [intros; apply H; right; assumption|].
    exists (b :: l'). rewrite E, E'. cbn. split; [reflexivity | constructor; assumption].
Qed.

Lemma side_lt_asym : forall a b, side_lt a b = true -> side_lt b a = false.
Proof.
  intros [a1 a2] [b1 b2] H. unfold side_lt in *. cbn [fst snd] in *. apply orb_true_iff in H. apply orb_false_iff.
  rewrite andb_true_iff, !N.ltb_lt, N.eqb_eq in H. rewrite N.ltb_ge, andb_false_iff, N.ltb_ge, N.eqb_neq. lia.
Qed.
Lemma side_lt_total : forall a b, a <> b -> side_lt a b = true \/ side_lt b a = true.
Proof.
  intros [a1 a2] [b1 b2] H. unfold side_lt. cbn [fst snd]. rewrite !orb_true_iff, !andb_true_iff, !N.ltb_lt, !N.eqb_eq.
  assert (a1 <> b1 \/ a2 <> b2) by (destruct (N.eq_dec a1 b1); [right; congruence | left; assumption]). lia.
Qed.

Lemma fin_units_nth : forall us a i, nth_error (fin_units a us) i <> None <-> nth_error us i <> None.
Proof. induction us as [|u us IH]; intros a [|i]; cbn; try tauto; [split; discriminate | apply IH]. Qed.

Lemma fin_units_at : forall us a i u, nth_error us i = Some u -> exists o, nth_error (fin_units a us) i = Some (numbered o u) /\
  a <= o /\ o + owned_size u <= a + usize us.
Proof.
  unfold usize. induction us as [|u0 us IH]; intros a [|i] u H; cbn [nth_error fin_units map sumN] in *; try discriminate.
  - injection H as ->. exists a. split; [reflexivity|]. lia.
  - destruct (IH (a + owned_size u0) i u H) as (o & E & A & B). exists o. split; [exact E|]. lia.
Qed.
Lemma fin_all_at : forall ls a i us, nth_error ls i = Some us -> exists o, nth_error (fin_all a ls) i = Some (fin_units o us) /\
  a <= o /\ o + usize us <= a + sumN (map usize ls).
Proof.
  induction ls as [|us0 ls IH]; intros a [|i] us H; cbn [nth_error fin_all map sumN] in *; try discriminate.
  - injection H as ->. exists a. split; [reflexivity|]. lia.
  - destruct (IH (a + usize us0) i us H) as (o & E & A & B). exists o. split; [exact E|]. lia.
Qed.
Lemma fin_units_length : forall us a, length (fin_units a us) = length us.
Proof. induction us as [|u us IH]; intros a; cbn; [reflexivity|]. rewrite IH. reflexivity. Qed.
Lemma fin_all_length : forall ls a, length (fin_all a ls) = length ls.
Proof. induction ls as [|u us IH]; intros a; cbn; [reflexivity|]. rewrite IH. reflexivity. Qed.

Lemma fin_at : forall ls p u, unit_at ls p u -> exists o, numbering_at (fin_all 0 ls) p (numbered o u) /\ o + owned_size u <= total_unknowns ls.
Proof.
  intros ls p u (us & H1 & H2). destruct (fin_all_at ls 0 _ us H1) as (o1 & E1 & _ & B1).
  destruct (fin_units_at us o1 _ u H2) as (o & E & _ & B). exists o. split.
  - exists (fin_units o1 us). auto.
  - rewrite total_unknowns_eq. lia.
Qed.

Lemma combine_nth_error : forall (A B : Type) (l : list A) (l' : list B) i a b,
  nth_error (combine l l') i = Some (a, b) <-> nth_error l i = Some a /\ nth_error l' i = Some b.
Proof.
  intros A B. induction l as [|x l IH]; intros [|y l'] [|i] a b; cbn; split; intros H; try discriminate; try (destruct H; discriminate).
  - injection H as -> ->. auto.
  - destruct H as [H1 H2]. congruence.
  - apply IH. exact H.
  - apply IH. exact H.
Qed.

(** Pairs of unit and numbering, all localities. *)
Definition pairs (ls : list (list dunit)) (fs : list (list numbering)) : list (list (dunit * numbering)) :=
  map (fun un => combine (fst un) (snd un)) (combine ls fs).

Lemma pairs_at : forall ls fs x, (exists ps, In ps (pairs ls fs) /\ In x ps) <->
  exists p, unit_at ls p (fst x) /\ numbering_at fs p (snd x).
Proof.
  intros ls fs [u n]. cbn [fst snd]. split.
  - intros (ps & H & Hx). apply in_map_iff in H. destruct H as ([us ns] & <- & H). cbn [fst snd] in Hx.
    apply In_nth_error in H. destruct H as (i & H). apply combine_nth_error in H. apply In_nth_error in Hx. destruct Hx as (j & Hx).
    apply combine_nth_error in Hx. exists (N.of_nat i, N.of_nat j). split; [exists us | exists ns]; cbn [fst snd]; rewrite !Nat2N.id; tauto.
  - intros (p & (us & A1 & A2) & (ns & B1 & B2)). exists (combine us ns). split.
    + apply in_map_iff. exists (us, ns). split; [reflexivity|]. eapply nth_error_In. apply combine_nth_error. eauto.
    + eapply nth_error_In. apply combine_nth_error. eauto.
Qed.

Lemma mail_ok : forall u n, (forall e b, In (e, b) (combine (u_dist u) (n_dist n)) -> owns e = true -> nth_error b 0 <> None) ->
  exists box, mail u n = Ok box /\ forall c x, In (c, x) box <-> exists e b, In (e, b) (combine (u_dist u) (n_dist n)) /\ owns e = true /\
    c = (g_in e, g_ex e, g_pos e) /\ nth_error b 0 = Some x.
Proof.
  intros u n H. unfold mail.
  assert (G : forall l acc, (forall e b, In (e, b) l -> owns e = true -> nth_error b 0 <> None) -> exists box,
    ofold (fun acc (eb : dedge * list N) => if owns (fst eb) then do x <- of_index (nth_error (snd eb) 0) ; Ok (acc ++ [((g_in (fst eb), g_ex (fst eb), g_pos (fst eb)), x)])
                       else Ok acc) l acc = Ok box /\
    forall c x, In (c, x) box <-> In (c, x) acc \/ exists e b, In (e, b) l /\ owns e = true /\ c = (g_in e, g_ex e, g_pos e) /\ nth_error b 0 = Some x).
  { clear. induction l as [|[e b] l IH]; intros acc H; cbn [ofold].
    - exists acc. split; [reflexivity|]. intros c x. split; [auto|]. intros [A|(e & b & [] & _)]. exact A.
    - cbn [fst snd]. destruct (owns e) eqn:Ho.
      + destruct (nth_error b 0) as [y|] eqn:Hb; [|exfalso; apply (H e b); [left; reflexivity | exact Ho | exact Hb]]. cbn [of_index bind].
        destruct (IH (acc ++ [((g_in e, g_ex e, g_pos e), y)])) as (box & E & Hx); [intros; eapply H; [right; eassumption | assumption]|].
        exists box. split; [exact E|]. intros c x. rewrite Hx, in_app_iff. split.
        * intros [[A|[A|[]]]|(e' & b' & A & B)].
          -- left. exact A.
          -- right. exists e, b. injection A as <- <-. split; [left; reflexivity|]. auto.
          -- right. exists e', b'. split; [right; exact A | exact B].
        * intros [A|(e' & b' & [A|A] & B1 & B2 & B3)].
          -- left. left. exact A.
          -- injection A as <- <-. left. right. left. subst c. congruence.
          -- right. exists e', b'. auto.
      + cbn [bind]. destruct (IH acc) as (box & E & Hx); [intros; eapply H; [right; eassumption | assumption]|].
        exists box. split; [exact E|]. intros c x. rewrite Hx. split.
        * intros [A|(e' & b' & A & B)]; [left; exact A|]. right. exists e', b'. split; [right; exact A | exact B].
        * intros [A|(e' & b' & [A|A] & B)]; [left; exact A | |].
          -- injection A as <- <-. destruct B. congruence.
          -- right. exists e', b'. auto. }
  destruct (G _ [] H) as (box & E & Hx). exists box. split; [exact E|]. intros c x. rewrite Hx. split; [|auto].
  intros [[]|A]. exact A.
Qed.

Lemma cell_eqb_eq : forall a b, cell_eqb a b = true <-> a = b.
Proof.
  intros [[[a1 a2] [a3 a4]] a5] [[[b1 b2] [b3 b4]] b5]. unfold cell_eqb. rewrite !andb_true_iff, !N.eqb_eq. split.
  - intros ((((-> & ->) & ->) & ->) & ->). reflexivity.
  - intros E. injection E as -> -> -> -> ->. tauto.
Qed.

Lemma lookup_functional : forall box c x, In (c, x) box -> (forall y, In (c, y) box -> y = x) -> lookup c box = Some x.
Proof.
  intros box c x H F. unfold lookup. destruct (find (fun z => cell_eqb c (fst z)) box) as [[c' y]|] eqn:E.
  - apply find_some in E. destruct E as (I & E). apply cell_eqb_eq in E. cbn in E. subst c'. cbn. f_equal. apply F. exact I.
  - exfalso. apply (find_none _ _ E) in H. cbn in H. assert (cell_eqb c c = true) by (apply cell_eqb_eq; reflexivity). congruence.
Qed.

Lemma post_receive_ok : forall box u n, length (n_dist n) = length (u_dist u) ->
  (forall e, In e (u_dist u) -> defers e = true -> lookup (g_ex e, g_in e, g_pos e) box <> None) ->
  exists n', post_receive box u n = Ok n' /\ n_int n' = n_int n /\ n_bnd n' = n_bnd n /\ length (n_dist n') = length (u_dist u) /\
    forall i e b, nth_error (u_dist u) i = Some e -> nth_error (n_dist n) i = Some b ->
      nth_error (n_dist n') i = Some (if defers e then match lookup (g_ex e, g_in e, g_pos e) box with Some x => indices x (g_ndof e) | None => [] end else b).
Proof.
  intros box u n L H. unfold post_receive.
  assert (G : forall es bs acc, length bs = length es -> (forall e, In e es -> defers e = true -> lookup (g_ex e, g_in e, g_pos e) box <> None) ->
    ofold (fun acc (eb : dedge * list N) =>
    if defers (fst eb) then do x <- of_index (lookup (g_ex (fst eb), g_in (fst eb), g_pos (fst eb)) box) ; Ok (acc ++ [indices x (g_ndof (fst eb))])
    else Ok (acc ++ [snd eb])) (combine es bs) acc =
    Ok (acc ++ map (fun eb : dedge * list N => if defers (fst eb) then match lookup (g_ex (fst eb), g_in (fst eb), g_pos (fst eb)) box with Some x => indices x (g_ndof (fst eb)) | None => [] end else snd eb) (combine es bs))).
  { clear. induction es as [|e es IH]; intros [|b bs] acc L H; try discriminate; cbn [combine ofold map]; [rewrite app_nil_r; reflexivity|].
    cbn [fst snd]. injection L as L. destruct (defers e) eqn:D.
    - destruct (lookup (g_ex e, g_in e, g_pos e) box) as [x|] eqn:E; [|exfalso; apply (H e); [left; reflexivity | exact D | exact E]]. cbn [of_index bind].
      rewrite IH; [rewrite <- app_assoc; reflexivity | exact L | intros e' I D'; apply H; [right; exact I | exact D']].
    - cbn [bind]. rewrite IH; [rewrite <- app_assoc; reflexivity | exact L | intros e' I D'; apply H; [right; exact I | exact D']]. }
  rewrite (G _ _ [] L H). cbn [bind app]. eexists. split; [reflexivity|]. cbn [n_int n_bnd n_dist]. split; [reflexivity|]. split; [reflexivity|]. split.
  - rewrite map_length, combine_length. lia.
  - intros i e b He Hb. rewrite nth_error_map.
    assert (E : nth_error (combine (u_dist u) (n_dist n)) i = Some (e, b)) by (apply combine_nth_error; auto). rewrite E. reflexivity.
Qed.

Lemma in_combine_r' : forall (A B : Type) (l : list A) (l' : list B) a, length l = length l' -> In a l -> exists b', In (a, b') (combine l l').
Proof.
  intros A B. induction l as [|x l IH]; intros [|y l'] a L H; try discriminate; [destruct H|]. destruct H as [->|H].
  - exists y. left. reflexivity.
  - destruct (IH l' a) as (b' & H'); [injection L; auto | exact H|]. exists b'. right. exact H'.
Qed.

Section Run.
  Variable ls : list (list dunit).
  Hypothesis Htot : total_unknowns ls < 2 ^ 32.
  Hypothesis Hm : edges_matched ls.

  Let fin := fin_all 0 ls.

  Lemma unit_at_fun : forall p u u', unit_at ls p u -> unit_at ls p u' -> u = u'.
  Proof. intros p u u' (us & A & B) (us' & A' & B'). congruence. Qed.
  Lemma numbering_at_fun : forall (rs : list (list numbering)) p u u', numbering_at rs p u -> numbering_at rs p u' -> u = u'.
  Proof. intros rs p u u' (us & A & B) (us' & A' & B'). congruence. Qed.

  Lemma owned_head : forall p u n e b, unit_at ls p u -> numbering_at fin p n -> In (e, b) (combine (u_dist u) (n_dist n)) -> owns e = true ->
    exists x, b = range x (3 * g_ndof e) /\ x + 3 * g_ndof e <= total_unknowns ls /\ nth_error b 0 = Some x.
  Proof.
    intros p u n e b Hu Hn Hi Ho. destruct (fin_at ls p u Hu) as (o & Hn' & Hle). assert (n = numbered o u) by (eapply numbering_at_fun; eassumption). subst n.
    cbn [numbered n_dist] in Hi. destruct (dblocks_In _ _ _ _ Hi Ho) as (x & -> & A & B). exists x. split; [reflexivity|]. rewrite owned_size_eq in Hle. split; [lia|].
    apply range_head. assert (In e (u_dist u)) by (eapply in_combine_l; exact Hi). destruct (proj1 Hm p u e Hu H) as (_ & _ & P & _). lia.
  Qed.

  Lemma ls_cases : forall us ns, In (us, ns) (combine ls fin) -> forall u n, In (u, n) (combine us ns) -> exists p, unit_at ls p u /\ numbering_at fin p n.
  Proof.
    intros us ns H u n Hx. apply (proj1 (pairs_at ls fin (u, n))). exists (combine us ns). split; [|exact Hx].
    apply in_map_iff. exists (us, ns). auto.
  Qed.

  Lemma boxes_ok : exists boxes,
    omap (fun un => omap (fun x => mail (fst x) (snd x)) (combine (fst un) (snd un))) (combine ls fin) = Ok boxes /\
    forall c x, In (c, x) (concat (concat boxes)) <-> exists p u n e b, unit_at ls p u /\ numbering_at fin p n /\
      In (e, b) (combine (u_dist u) (n_dist n)) /\ owns e = true /\ c = (g_in e, g_ex e, g_pos e) /\ nth_error b 0 = Some x.
  Proof.
    assert (Hmail : forall p u n, unit_at ls p u -> numbering_at fin p n -> exists box, mail u n = Ok box /\ forall c x, In (c, x) box <-> exists e b, In (e, b) (combine (u_dist u) (n_dist n)) /\ owns e = true /\
      c = (g_in e, g_ex e, g_pos e) /\ nth_error b 0 = Some x).
    { intros p u n Hu Hn. apply mail_ok. intros e b Hi Ho. destruct (owned_head p u n e b Hu Hn Hi Ho) as (x & _ & _ & E). congruence. }
    destruct (omap_ok _ _ (fun un : list dunit * list numbering => omap (fun x => mail (fst x) (snd x)) (combine (fst un) (snd un))) (combine ls fin)) as (boxes & E & F).
    { intros [us ns] Hin. cbn [fst snd]. destruct (omap_ok _ _ (fun x : dunit * numbering => mail (fst x) (snd x)) (combine us ns)) as (l' & E & _).
      - intros [u n] Hx. cbn [fst snd]. destruct (ls_cases us ns Hin u n Hx) as (p & Hu & Hn). destruct (Hmail p u n Hu Hn) as (box & Eb & _). eauto.
      - eauto. }
    exists boxes. split; [exact E|]. intros c x. rewrite in_concat. split.
    - intros (bx & Hb & Hx). rewrite in_concat in Hb. destruct Hb as (bs & Hbs & Hb).
      apply In_nth_error in Hbs. destruct Hbs as (i & Hi). 
      assert (Q : exists un, In un (combine ls fin) /\ omap (fun x => mail (fst x) (snd x)) (combine (fst un) (snd un)) = Ok bs).
      { clear - F Hi. revert i Hi. induction F as [|a b l l' Hab F IH]; intros [|i] Hi; cbn in Hi; try discriminate.
        - injection Hi as ->. exists a. split; [left; reflexivity | exact Hab].
        - destruct (IH i Hi) as (un & A & B). exists un. split; [right; exact A | exact B]. }
      destruct Q as ([us ns] & Hin & Hom). cbn [fst snd] in Hom.
      assert (Q : exists y, In y (combine us ns) /\ mail (fst y) (snd y) = Ok bx).
      { clear - Hom Hb. revert bs Hom Hb. generalize (combine us ns). intros l. induction l as [|a l IH]; intros bs Hom Hb; cbn in Hom.
        - injection Hom as <-. destruct Hb.
        - destruct (mail (fst a) (snd a)) as [m1| |] eqn:E1; try discriminate. cbn in Hom. destruct (omap _ l) as [t| |] eqn:E2; try discriminate. cbn in Hom.
          injection Hom as <-. destruct Hb as [->|Hb]; [exists a; split; [left; reflexivity | exact E1]|].
          destruct (IH t eq_refl Hb) as (y & A & B). exists y. split; [right; exact A | exact B]. }
      destruct Q as ([u n] & Hy & Em). cbn [fst snd] in Em. destruct (ls_cases us ns Hin u n Hy) as (p & Hu & Hn).
      destruct (Hmail p u n Hu Hn) as (box & Eb & Hbox). assert (box = bx) by congruence. subst box. apply Hbox in Hx. destruct Hx as (e & b & Hx).
      exists p, u, n, e, b. tauto.
    - intros (p & u & n & e & b & Hu & Hn & Hi & Ho & Hc & Hb). destruct (Hmail p u n Hu Hn) as (box & Eb & Hbox). exists box. split.
      + destruct Hu as (us & U1 & U2). destruct Hn as (ns & N1 & N2).
        assert (Q : nth_error (combine ls fin) (N.to_nat (fst p)) = Some (us, ns)) by (apply combine_nth_error; auto).
        rewrite in_concat.
        assert (Q' : exists bs, In bs boxes /\ omap (fun x => mail (fst x) (snd x)) (combine us ns) = Ok bs).
        { clear - F Q. revert Q. generalize (N.to_nat (fst p)). induction F as [|a b l l' Hab F IH]; intros [|i] Q; cbn in Q; try discriminate.
          - injection Q as ->. exists b. split; [left; reflexivity | exact Hab].
          - destruct (IH i Q) as (bs & A & B). exists bs. split; [right; exact A | exact B]. }
        destruct Q' as (bs & Hbs & Hom). exists bs. split; [exact Hbs|].
        assert (Q' : In (u, n) (combine us ns)) by (eapply nth_error_In; apply combine_nth_error; eauto).
        clear - Hom Q' Eb. revert bs Hom Q'. generalize (combine us ns). intros l. induction l as [|a l IH]; intros bs Hom Q'; [destruct Q'|]. cbn in Hom.
        destruct (mail (fst a) (snd a)) as [m1| |] eqn:E1; try discriminate. cbn in Hom. destruct (omap _ l) as [t| |] eqn:E2; try discriminate. cbn in Hom.
        injection Hom as <-. destruct Q' as [->|Q']; [left; cbn in E1; congruence|]. right. apply (IH t eq_refl Q').
      + apply Hbox. exists e, b. auto.
  Qed.

  (** Every matched pair: the block the owner computed is what the other side looks up. *)
  Lemma lookup_partner : forall boxes, 
    (forall c x, In (c, x) (concat (concat boxes)) <-> exists p u n e b, unit_at ls p u /\ numbering_at fin p n /\
      In (e, b) (combine (u_dist u) (n_dist n)) /\ owns e = true /\ c = (g_in e, g_ex e, g_pos e) /\ nth_error b 0 = Some x) ->
    forall p u n e b, unit_at ls p u -> numbering_at fin p n -> In (e, b) (combine (u_dist u) (n_dist n)) -> owns e = true ->
    exists x, b = range x (3 * g_ndof e) /\ x + 3 * g_ndof e <= total_unknowns ls /\
      lookup (g_in e, g_ex e, g_pos e) (concat (concat boxes)) = Some x.
  Proof.
    intros boxes Hbox p u n e b Hu Hn Hi Ho. destruct (owned_head p u n e b Hu Hn Hi Ho) as (x & Hx & Hle & Hh).
    exists x. split; [exact Hx|]. split; [exact Hle|]. apply lookup_functional.
    - apply Hbox. exists p, u, n, e, b. auto 10.
    - intros y Hy. apply Hbox in Hy. destruct Hy as (p' & u' & n' & e' & b' & Hu' & Hn' & Hi' & Ho' & Hc & Hb').
      injection Hc as C1 C2 C3. assert (I : In e (u_dist u)) by (eapply in_combine_l; exact Hi). assert (I' : In e' (u_dist u')) by (eapply in_combine_l; exact Hi').
      destruct (proj1 Hm p u e Hu I) as (P1 & _). destruct (proj1 Hm p' u' e' Hu' I') as (P2 & _). assert (Ep : p' = p) by congruence. clear P1 P2. subst p'.
      assert (u' = u) by (eapply unit_at_fun; eassumption). subst u'. assert (n' = n) by (eapply numbering_at_fun; eassumption). subst n'.
      apply In_nth_error in Hi. destruct Hi as (i & Hi). apply In_nth_error in Hi'. destruct Hi' as (i' & Hi').
      apply combine_nth_error in Hi. apply combine_nth_error in Hi'. destruct Hi as (K1 & K2). destruct Hi' as (K1' & K2').
      assert (i = i').
      { apply (proj1 (NoDup_nth_error _) (proj2 Hm p u Hu)).
        - rewrite map_length. apply nth_error_Some. congruence.
        - rewrite !nth_error_map, K1, K1'. cbn. congruence. }
      subst i'. congruence.
  Qed.

  Lemma partner_defers : forall p u e u' e', unit_at ls p u -> In e (u_dist u) -> unit_at ls (g_ex e) u' -> In e' (u_dist u') -> g_ex e' = p ->
    defers e' = owns e.
  Proof.
    intros p u e u' e' Hu Hi Hu' Hi' Hx. destruct (proj1 Hm p u e Hu Hi) as (P1 & _). destruct (proj1 Hm _ u' e' Hu' Hi') as (P2 & _).
    unfold defers, owns. congruence.
  Qed.

  (** The whole run. *)
  Lemma number_all_ok : exists res, number_all ls = Ok (res, total_unknowns ls) /\ length res = length ls /\
    (forall p u, unit_at ls p u -> exists o n n', numbering_at fin p n /\ n = numbered o u /\ o + owned_size u <= total_unknowns ls /\ numbering_at res p n' /\
       n_int n' = n_int n /\ n_bnd n' = n_bnd n /\ length (n_dist n') = length (u_dist u) /\
       (forall i e b, nth_error (u_dist u) i = Some e -> nth_error (n_dist n) i = Some b -> defers e = false -> nth_error (n_dist n') i = Some b) /\
       (forall i e, nth_error (u_dist u) i = Some e -> defers e = true -> exists u' m e' b, unit_at ls (g_ex e) u' /\ numbering_at fin (g_ex e) m /\
          In (e', b) (combine (u_dist u') (n_dist m)) /\ owns e' = true /\ g_ex e' = p /\ g_pos e' = g_pos e /\ g_ndof e' = g_ndof e /\ nth_error (n_dist n') i = Some b)) /\
    Forall2 (fun us ns => length ns = length us) ls res.
  Proof.
    unfold number_all. cbn zeta. rewrite totals_eq by exact Htot. rewrite fin_eq by exact Htot. fold fin.
    destruct boxes_ok as (boxes & E & Hbox). rewrite E. cbn [bind]. set (box := concat (concat boxes)) in *.
    assert (Hpost : forall p u n, unit_at ls p u -> numbering_at fin p n -> exists n', post_receive box u n = Ok n' /\
       n_int n' = n_int n /\ n_bnd n' = n_bnd n /\ length (n_dist n') = length (u_dist u) /\
       (forall i e b, nth_error (u_dist u) i = Some e -> nth_error (n_dist n) i = Some b -> defers e = false -> nth_error (n_dist n') i = Some b) /\
       (forall i e, nth_error (u_dist u) i = Some e -> defers e = true -> exists u' m e' b, unit_at ls (g_ex e) u' /\ numbering_at fin (g_ex e) m /\
          In (e', b) (combine (u_dist u') (n_dist m)) /\ owns e' = true /\ g_ex e' = p /\ g_pos e' = g_pos e /\ g_ndof e' = g_ndof e /\ nth_error (n_dist n') i = Some b)).
    { intros p u n Hu Hn. 
      assert (Hlen : length (n_dist n) = length (u_dist u)).
      { destruct (fin_at ls p u Hu) as (o & Hn' & _). assert (n = numbered o u) by (eapply numbering_at_fun; eassumption). subst n. apply dblocks_length. }
      assert (Hpart : forall e, In e (u_dist u) -> defers e = true -> exists u' m e' b x, unit_at ls (g_ex e) u' /\ numbering_at fin (g_ex e) m /\
        In (e', b) (combine (u_dist u') (n_dist m)) /\ owns e' = true /\ g_ex e' = p /\ g_pos e' = g_pos e /\ g_ndof e' = g_ndof e /\
        lookup (g_ex e, g_in e, g_pos e) box = Some x /\ b = indices x (g_ndof e)).
      { intros e He Hd. destruct (proj1 Hm p u e Hu He) as (P1 & P2 & P3 & u' & e' & U' & I' & X1 & X2 & X3).
        destruct (proj1 Hm _ u' e' U' I') as (P1' & _). destruct (fin_at ls _ u' U') as (o & Hm' & _).
        destruct (in_combine_r' _ _ (u_dist u') (n_dist (numbered o u')) e') as (b & Hb); [symmetry; apply dblocks_length | exact I' |].
        assert (Ho : owns e' = true) by (unfold owns; unfold defers in Hd; rewrite P1', X1, <- P1; exact Hd).
        destruct (lookup_partner boxes Hbox _ u' _ e' b U' Hm' Hb Ho) as (x & Hx & Hle & Hl).
        exists u', (numbered o u'), e', b, x. do 7 (split; [assumption|]). split.
        - rewrite <- X2, P1, <- X1, <- P1'. exact Hl.
        - rewrite Hx, X3. symmetry. apply indices_range. rewrite X3 in Hle. lia. }
      destruct (post_receive_ok box u n Hlen) as (n' & E' & A1 & A2 & A3 & A4).
      { intros e He Hd. destruct (Hpart e He Hd) as (u' & m & e' & b & x & H). decompose [and] H. congruence. }
      exists n'. split; [exact E'|]. split; [exact A1|]. split; [exact A2|]. split; [exact A3|]. split.
      - intros i e b He Hb Hd. rewrite (A4 i e b He Hb), Hd. reflexivity.
      - intros i e He Hd. destruct (Hpart e (nth_error_In _ _ He) Hd) as (u' & m & e' & b & x & B1 & B2 & B3 & B4 & B5 & B6 & B7 & B8 & B9).
        exists u', m, e', b. do 7 (split; [assumption|]).
        destruct (nth_error (n_dist n) i) as [b0|] eqn:Hb0; [|apply nth_error_None in Hb0; assert (nth_error (u_dist u) i <> None) by congruence; apply nth_error_Some in H; lia].
        rewrite (A4 i e b0 He Hb0), Hd, B8, B9. reflexivity. }
    destruct (omap_ok _ _ (fun un : list dunit * list numbering => omap (fun x => post_receive box (fst x) (snd x)) (combine (fst un) (snd un))) (combine ls fin)) as (res & E' & F).
    { intros [us ns] Hin. cbn [fst snd]. destruct (omap_ok _ _ (fun x : dunit * numbering => post_receive box (fst x) (snd x)) (combine us ns)) as (l' & E'' & _).
      - intros [u n] Hx. cbn [fst snd]. destruct (ls_cases us ns Hin u n Hx) as (p & Hu & Hn). destruct (Hpost p u n Hu Hn) as (n' & En & _). eauto.
      - eauto. }
    rewrite E'. cbn [bind]. exists res. split; [f_equal; f_equal; apply accumulate_eq; exact Htot|].
    assert (L1 : length fin = length ls) by apply fin_all_length.
    assert (L2 : length res = length ls).
    { rewrite <- (Forall2_len _ _ _ _ _ F), combine_length. lia. }
    split; [exact L2|].
    assert (K : forall i us, nth_error ls i = Some us -> exists ns rs, nth_error fin i = Some ns /\ nth_error res i = Some rs /\ length ns = length us /\
      Forall2 (fun x n' => post_receive box (fst x) (snd x) = Ok n') (combine us ns) rs).
    { intros i us Hi. destruct (fin_all_at ls 0 i us Hi) as (o & Hf & _). fold fin in Hf.
      assert (Q : nth_error (combine ls fin) i = Some (us, fin_units o us)) by (apply combine_nth_error; auto).
      assert (Q' : exists rs, nth_error res i = Some rs /\ omap (fun x : dunit * numbering => post_receive box (fst x) (snd x)) (combine us (fin_units o us)) = Ok rs).
      { clear - F Q. revert i Q. induction F as [|a b l l' Hab F IH]; intros [|i] Q; cbn in Q; try discriminate.
        - injection Q as ->. exists b. split; [reflexivity | exact Hab].
        - apply IH. exact Q. }
      destruct Q' as (rs & R1 & R2). exists (fin_units o us), rs. split; [exact Hf|]. split; [exact R1|]. split; [apply fin_units_length|].
      clear - R2. revert rs R2. generalize (combine us (fin_units o us)). intros l. induction l as [|a l IH]; intros rs R2; cbn in R2.
      - injection R2 as <-. constructor.
      - destruct (post_receive box (fst a) (snd a)) as [m1| |] eqn:E1; try discriminate. cbn in R2. destruct (omap _ l) as [t| |] eqn:E2; try discriminate. cbn in R2.
        injection R2 as <-. constructor; [exact E1 | apply IH; reflexivity]. }
    split.
    - intros p u Hu. destruct (fin_at ls p u Hu) as (o & Hn & Hle). destruct Hu as (us & U1 & U2). destruct (K _ us U1) as (ns & rs & K1 & K2 & K3 & K4).
      assert (Hu : unit_at ls p u) by (exists us; auto).
      destruct (Hpost p u _ Hu Hn) as (n' & En & B). exists o, (numbered o u), n'. split; [exact Hn|]. split; [reflexivity|]. split; [exact Hle|]. split; [|exact B].
      exists rs. split; [exact K2|].
      destruct Hn as (ns' & N1 & N2). assert (ns' = ns) by (fold fin in N1; congruence). subst ns'.
      assert (Q : nth_error (combine us ns) (N.to_nat (snd p)) = Some (u, numbered o u)) by (apply combine_nth_error; auto).
      clear - K4 Q En. revert Q. generalize (N.to_nat (snd p)). induction K4 as [|a b l l' Hab F IH]; intros [|i] Q; cbn in Q; try discriminate.
      + injection Q as ->. cbn in Hab. cbn. congruence.
      + apply IH. exact Q.
    - clear - K L2. revert res K L2. generalize fin. induction ls as [|us l IH]; intros fi [|rs res] K L2; try discriminate; constructor.
      + destruct (K 0%nat us eq_refl) as (ns & rs' & _ & K2 & K3 & K4). injection K2 as <-. apply Forall2_len in K4. rewrite combine_length in K4. lia.
      + apply (IH (tl fi)); [|injection L2; auto]. intros i us' Hi. destruct (K (S i) us' Hi) as (ns & rs' & K1 & K2 & K3 & K4).
        exists ns, rs'. split; [destruct fi; [discriminate | exact K1]|]. auto.
  Qed.
End Run.

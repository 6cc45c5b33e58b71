From Coq Require Import ZArith NArith List Bool Arith Permutation Lia.
From Verif Require Import Num Outcome ModelMesh ModelPart SpecPart LemmasPart.
Import ListNotations.
Open Scope N_scope.

(** ** Ranks *)
Definition ranks_inv (num_nodes rpl : N) (don : list (N * N)) (s : ranks) : Prop :=
  (forall n, n < num_nodes -> lrc s n < rpl) /\
  (forall p n, In (p, n) don -> p2r s p < num_nodes * rpl /\ p2r s p / rpl = n /\ p2l s p < lpc s (p2r s p)) /\
  (forall p q, In p (map fst don) -> In q (map fst don) -> p2r s p = p2r s q -> p2l s p = p2l s q -> p = q) /\
  (forall r l, l < lpc s r -> exists p, In p (map fst don) /\ p2r s p = r /\ p2l s p = l).

Lemma assign_rank_step : forall nn rpl np don s p n, rpl <> 0 -> n < nn -> p < np -> ~ In p (map fst don) ->
  ranks_inv nn rpl don s -> exists s', assign_rank nn rpl np s (p, n) = Ok s' /\ ranks_inv nn rpl (don ++ [(p, n)]) s'.
Proof.
  intros nn rpl np don s p n Hr Hn Hp Hnew (I1 & I2 & I3 & I4). unfold assign_rank.
  assert (B1 : (n <? nn) = true) by (apply N.ltb_lt; assumption). assert (B2 : (rpl =? 0) = false) by (apply N.eqb_neq; assumption).
  assert (B3 : (p <? np) = true) by (apply N.ltb_lt; assumption). rewrite B1, B2, B3. cbn [negb orb].
  set (rank := lrc s n + rpl * n).
  pose proof (I1 n Hn) as L.
  assert (RB : rank < nn * rpl) by (unfold rank; nia).
  assert (RN : rank / rpl = n).
  { unfold rank. replace (lrc s n + rpl * n) with (lrc s n + n * rpl) by ring. rewrite N.div_add by assumption. rewrite N.div_small by assumption. reflexivity. }
  assert (B4 : (rank <? nn * rpl) = true) by (apply N.ltb_lt; assumption). rewrite B4. cbn [negb].
  eexists. split; [reflexivity|]. unfold ranks_inv. cbn [lpc lrc p2r p2l]. unfold updN.
  assert (K : forall q, In q (map fst don) -> (q =? p) = false) by (intros q Hq; apply N.eqb_neq; intros ->; contradiction).
  split; [|split; [|split]].
  - intros k Hk. destruct (k =? n); [apply N.mod_lt, Hr | apply I1, Hk].
  - intros q k Hq. apply in_app_iff in Hq. destruct Hq as [Hq|[E|[]]].
    + rewrite (K q) by (apply (in_map fst) in Hq; exact Hq). destruct (I2 q k Hq) as (A & B & C). repeat split; try assumption.
      destruct (N.eqb_spec (p2r s q) rank) as [E|]; [rewrite E in C; lia | exact C].
    + injection E as <- <-. rewrite !N.eqb_refl. repeat split; try assumption. lia.
  - intros q1 q2 H1 H2. rewrite map_app in H1, H2. apply in_app_iff in H1, H2.
    assert (V : forall q, In q (map fst don) -> p2r s q = rank -> p2l s q = lpc s rank -> False).
    { intros q Hq E1 E2. apply in_map_iff in Hq. destruct Hq as ([q' k] & <- & Hq). destruct (I2 _ _ Hq) as (_ & _ & C). cbn in E1, E2. rewrite E1, E2 in C. lia. }
    destruct H1 as [H1|[<-|[]]], H2 as [H2|[<-|[]]]; cbn [fst].
    + rewrite (K q1 H1), (K q2 H2). apply I3; assumption.
    + rewrite (K q1 H1), N.eqb_refl. intros E1 E2. exfalso. apply (V q1); assumption.
    + rewrite (K q2 H2), N.eqb_refl. intros E1 E2. exfalso. apply (V q2); auto.
    + reflexivity.
  - intros r l Hl. destruct (N.eqb_spec r rank) as [->|Nr].
    + destruct (N.eq_dec l (lpc s rank)) as [->|].
      * exists p. rewrite !N.eqb_refl. rewrite map_app, in_app_iff. cbn. auto.
      * destruct (I4 rank l) as (q & Hq & A & B); [lia|]. exists q. rewrite (K q Hq), map_app, in_app_iff. auto.
    + destruct (I4 r l Hl) as (q & Hq & A & B). exists q. rewrite (K q Hq), map_app, in_app_iff. auto.
Qed.

Lemma assign_ranks_ok : forall nn rpl np l, rpl <> 0 -> NoDup (map fst l) -> (forall p n, In (p, n) l -> p < np /\ n < nn) ->
  exists s, ofold (assign_rank nn rpl np) l ranks0 = Ok s /\ ranks_inv nn rpl l s.
Proof.
  intros nn rpl np l Hr Hd Hb.
  assert (G : forall r don s, don ++ r = l -> ranks_inv nn rpl don s -> exists s', ofold (assign_rank nn rpl np) r s = Ok s' /\ ranks_inv nn rpl l s').
  { induction r as [|[p n] r IH]; intros don s E I.
    - rewrite app_nil_r in E. subst. exists s. auto.
    - cbn [ofold]. destruct (Hb p n) as [Hp Hn]; [rewrite <- E; apply in_app_iff; right; left; reflexivity|].
      assert (NW : ~ In p (map fst don)).
      { rewrite <- E, map_app in Hd. cbn in Hd. apply NoDup_remove_2 in Hd. intros K. apply Hd. apply in_app_iff. auto. }
      destruct (assign_rank_step nn rpl np don s p n Hr Hn Hp NW I) as (s1 & -> & I1). cbn [bind].
      apply (IH (don ++ [(p, n)])); [rewrite <- app_assoc; exact E | exact I1]. }
  apply (G l [] ranks0 eq_refl). unfold ranks_inv. cbn. split; [|split; [|split]].
  - intros. lia.
  - intros p n [].
  - intros p q [].
  - intros r l0 H. lia.
Qed.

(** ** Lists *)
Lemma aset_same : forall (V : Type) (m : list (N * V)) k v, afind m k = Some v -> aset m k v = m.
Proof.
  intros V. induction m as [|[j w] m IH]; intros k v H; [discriminate|]. cbn in *.
  destruct (N.eqb_spec k j) as [->|]; [injection H as ->; reflexivity | rewrite IH by assumption; reflexivity].
Qed.
Lemma aset_aset : forall (V : Type) (m : list (N * V)) k v w, aset (aset m k v) k w = aset m k w.
Proof.
  intros V. induction m as [|[j x] m IH]; intros k v w; cbn; [rewrite N.eqb_refl; reflexivity|].
  destruct (N.eqb_spec k j) as [->|n]; cbn; [rewrite N.eqb_refl; reflexivity|].
  destruct (N.eqb_spec k j); [contradiction | rewrite IH; reflexivity].
Qed.
Lemma aset_map : forall (V : Type) (m : list (N * V)) k v, NoDup (map fst m) -> In k (map fst m) ->
  aset m k v = map (fun y => if fst y =? k then (fst y, v) else y) m.
Proof.
  intros V. induction m as [|[j x] m IH]; intros k v D H; [destruct H|]. inversion D as [|? ? D1 D2]; subst. cbn.
  destruct (N.eqb_spec k j) as [->|n].
  - rewrite N.eqb_refl. f_equal. symmetry. rewrite <- (map_id m) at 2. apply map_ext_in. intros [i y] Hy. cbn.
    destruct (N.eqb_spec i j) as [->|]; [|reflexivity]. exfalso. apply D1. apply (in_map fst) in Hy. exact Hy.
  - destruct (N.eqb_spec j k) as [|]; [congruence|]. f_equal. apply IH; [assumption|]. destruct H as [H|H]; [cbn in H; congruence | exact H].
Qed.
Lemma filter_NoDup_map : forall (A B : Type) (g : A -> B) (f : A -> bool) l, NoDup (map g l) -> NoDup (map g (filter f l)).
Proof.
  intros A B g f. induction l as [|x l IH]; intros H; [constructor|]. inversion H as [|? ? H1 H2]; subst. cbn. destruct (f x); [|apply IH, H2].
  cbn. constructor; [|apply IH, H2]. intros K. apply H1. apply in_map_iff in K. destruct K as (y & E & Hy). apply filter_In in Hy.
  rewrite <- E. apply in_map. tauto.
Qed.

(** ** Assembling submeshes *)
Section Assembled.
  Context {P : Type} (m : mesh P) (e2p : list (N * N)) (num_ranks np : N) (rk : ranks).
  Hypothesis Hm : mesh_ok m.
  Hypothesis He : forall e, In e (map fst (m_elements m)) -> exists p, afind e2p e = Some p /\ locate num_ranks np rk p = Ok (p2r rk p, p2l rk p).
  Hypothesis Hinj : forall e f p q, afind e2p e = Some p -> afind e2p f = Some q -> p2r rk p = p2r rk q -> p2l rk p = p2l rk q -> p = q.

  Definition at_loc (r l : N) (e : N) : bool :=
    match afind e2p e with Some p => (p2r rk p =? r) && (p2l rk p =? l) | None => false end.
  Definition base (els : list (N * elt)) (r l : N) : list (N * elt) := filter (fun x => at_loc r l (fst x)) els.

  Lemma at_loc_spec : forall r l e p, afind e2p e = Some p -> (at_loc r l e = true <-> p2r rk p = r /\ p2l rk p = l).
  Proof.
    intros r l e p E. unfold at_loc. rewrite E. rewrite andb_true_iff, !N.eqb_eq. reflexivity.
  Qed.

  Definition nodes_inv (els : list (N * elt)) (c : subs P) : Prop := forall r l v q,
    afind (s_nodes (c r l)) v = Some q <-> afind (m_nodes m) v = Some q /\ exists e x, In (e, x) (base els r l) /\ In v (e_nodes x).

  Lemma add_nodes : forall ids ns, (forall v, In v ids -> afind (m_nodes m) v <> None) ->
    exists ns', ofold (fun ns id => do q <- of_at (afind (m_nodes m) id) ; Ok (aset ns id q)) ids ns = Ok ns' /\
      forall v, afind ns' v = if existsb (N.eqb v) ids then afind (m_nodes m) v else afind ns v.
  Proof.
    induction ids as [|i ids IH]; intros ns H.
    - exists ns. auto.
    - cbn [ofold]. destruct (afind (m_nodes m) i) as [q|] eqn:E; [|exfalso; apply (H i (or_introl eq_refl)), E]. cbn [of_at bind].
      destruct (IH (aset ns i q)) as (ns' & -> & F); [intros; apply H; right; assumption|]. exists ns'. split; [reflexivity|].
      intros v. rewrite F, aset_find. cbn [existsb]. destruct (N.eqb_spec v i) as [->|]; cbn [orb]; [rewrite E; destruct (existsb _ ids); reflexivity | reflexivity].
  Qed.

  Lemma assemble_prefix : forall els, (forall x, In x els -> In x (m_elements m)) -> NoDup (map fst els) ->
    exists c, ofold (add_element m e2p num_ranks np rk) els (fun _ _ => Sub [] []) = Ok c /\
      (forall r l, s_elements (c r l) = base els r l) /\ nodes_inv els c.
  Proof.
    intros els. induction els as [|x els IH] using rev_ind; intros Hin Hd.
    - exists (fun _ _ => Sub [] []). split; [reflexivity|]. split; [reflexivity|]. intros r l v q. cbn.
      split; [discriminate | intros (_ & e & x & [] & _)].
    - rewrite map_app in Hd. cbn in Hd. assert (Hd1 : NoDup (map fst els)).
      { apply NoDup_remove_1 in Hd. rewrite app_nil_r in Hd. exact Hd. }
      assert (Hx : ~ In (fst x) (map fst els)). { apply NoDup_remove_2 in Hd. rewrite app_nil_r in Hd. exact Hd. }
      destruct IH as (c & E & B & NI); [intros; apply Hin, in_app_iff; auto | exact Hd1|].
      rewrite ofold_app, E. cbn [bind ofold]. destruct x as [e x]. cbn [fst] in *.
      assert (HM : In (e, x) (m_elements m)) by (apply Hin, in_app_iff; right; left; reflexivity).
      destruct (He e) as (p & Ep & Lp); [apply (in_map fst) in HM; exact HM|].
      unfold add_element. cbn [fst snd]. rewrite Ep. cbn [of_at bind]. rewrite Lp. cbn [bind fst snd].
      set (r0 := p2r rk p). set (l0 := p2l rk p).
      destruct Hm as (_ & _ & Hm2). destruct (Hm2 e x HM) as (_ & _ & Hnodes & _).
      destruct (add_nodes (e_nodes x) (s_nodes (c r0 l0)) Hnodes) as (ns & -> & F). cbn [bind].
      eexists. split; [reflexivity|].
      assert (BE : forall r l, base (els ++ [(e, x)]) r l = base els r l ++ (if (r =? r0) && (l =? l0) then [(e, x)] else [])).
      { intros r l. unfold base. rewrite filter_app. f_equal. cbn [filter fst]. unfold at_loc. rewrite Ep. fold r0 l0.
        rewrite (N.eqb_sym r0 r), (N.eqb_sym l0 l). destruct ((r =? r0) && (l =? l0)); reflexivity. }
      assert (AI : ainsert (s_elements (c r0 l0)) e x = s_elements (c r0 l0) ++ [(e, x)]).
      { unfold ainsert. rewrite B. destruct (afind (base els r0 l0) e) as [y|] eqn:EA; [|reflexivity].
        exfalso. apply Hx. apply afind_In in EA. apply filter_In in EA. destruct EA as [EA _]. apply (in_map fst) in EA. exact EA. }
      split.
      + intros r l. rewrite BE. unfold upd2. destruct ((r =? r0) && (l =? l0)) eqn:RL.
        * cbn [s_elements]. rewrite AI, B. apply andb_true_iff in RL. destruct RL as [R1 R2]. apply N.eqb_eq in R1, R2. subst r l. reflexivity.
        * rewrite B, app_nil_r. reflexivity.
      + intros r l v q. rewrite BE. unfold upd2. destruct ((r =? r0) && (l =? l0)) eqn:RL.
        * apply andb_true_iff in RL. destruct RL as [R1 R2]. apply N.eqb_eq in R1, R2. subst r l. cbn [s_nodes]. rewrite F.
          destruct (existsb (N.eqb v) (e_nodes x)) eqn:Ev.
          -- apply existsb_N in Ev. split; [intros H; split; [exact H|]; exists e, x; split; [apply in_app_iff; right; left; reflexivity | exact Ev] | intros [H _]; exact H].
          -- unfold nodes_inv in NI. rewrite (NI r0 l0 v q). split.
             ++ intros (H & e' & x' & Hi & Hv). split; [exact H|]. exists e', x'. split; [apply in_app_iff; auto | exact Hv].
             ++ intros (H & e' & x' & Hi & Hv). split; [exact H|]. apply in_app_iff in Hi. destruct Hi as [Hi|[Hi|[]]].
                ** exists e', x'. auto.
                ** injection Hi as <- <-. apply existsb_N in Hv. congruence.
        * rewrite app_nil_r. apply NI.
  Qed.

  (** ** Splitting edges *)
  Lemma mark_face_ok : forall r l a b c k ma nb cur t, afind (m_elements m) a = Some ma -> nth_error (e_neigh ma) k = Some nb ->
    afind (s_elements (c r l)) a = Some cur -> nth_error (e_type cur) k = Some t ->
    exists c', mark_face m r l a b c k = Ok c' /\ (forall r' l', s_nodes (c' r' l') = s_nodes (c r' l')) /\
      (forall r' l', (r' =? r) && (l' =? l) = false -> c' r' l' = c r' l') /\
      s_elements (c' r l) = aset (s_elements (c r l)) a (Elt (e_nodes cur) (e_neigh cur) (set_nth (e_type cur) k (if nb =? b then distributed t else t))).
  Proof.
    intros r l a b c k ma nb cur t Ea En Ec Et. unfold mark_face. rewrite Ea. cbn [of_at bind]. rewrite En. cbn [of_index bind].
    rewrite (N.eqb_sym b nb). destruct (nb =? b).
    - rewrite Ec. cbn [of_at bind]. rewrite Et. cbn [of_index bind]. eexists. split; [reflexivity|]. unfold upd2. split; [|split].
      + intros r' l'. destruct ((r' =? r) && (l' =? l)) eqn:E; [|reflexivity]. apply andb_true_iff in E. destruct E as [E1 E2].
        apply N.eqb_eq in E1, E2. subst. reflexivity.
      + intros r' l' ->. reflexivity.
      + rewrite !N.eqb_refl. reflexivity.
    - exists c. split; [reflexivity|]. split; [reflexivity|]. split; [reflexivity|].
      assert (S : set_nth (e_type cur) k t = e_type cur).
      { clear - Et. revert k Et. generalize (e_type cur). induction l as [|x l IH]; intros k H; destruct k; cbn in *; try discriminate; [injection H as ->; reflexivity | rewrite IH by assumption; reflexivity]. }
      rewrite S. destruct cur as [n1 n2 n3]. cbn. rewrite aset_same; [reflexivity | exact Ec].
  Qed.

  Definition mark (b : N) (x : elt) : elt :=
    Elt (e_nodes x) (e_neigh x) (map (fun nt => if fst nt =? b then distributed (snd nt) else snd nt) (combine (e_neigh x) (e_type x))).

  Lemma mark3_ok : forall r l a b c ma cur, afind (m_elements m) a = Some ma -> length (e_neigh ma) = 3%nat ->
    afind (s_elements (c r l)) a = Some cur -> e_neigh cur = e_neigh ma -> length (e_type cur) = 3%nat ->
    exists c', ofold (mark_face m r l a b) (seq 0 3) c = Ok c' /\ (forall r' l', s_nodes (c' r' l') = s_nodes (c r' l')) /\
      (forall r' l', (r' =? r) && (l' =? l) = false -> c' r' l' = c r' l') /\
      s_elements (c' r l) = aset (s_elements (c r l)) a (mark b cur).
  Proof.
    intros r l a b c ma cur Ea L3 Ec En T3.
    destruct (e_neigh ma) as [|n0 [|n1 [|n2 [|]]]] eqn:EN; try discriminate L3.
    destruct cur as [vs ns ts]. cbn in En, T3. subst ns. destruct ts as [|t0 [|t1 [|t2 [|]]]]; try discriminate T3.
    cbn [seq ofold].
    destruct (mark_face_ok r l a b c 0 ma n0 _ t0 Ea ltac:(rewrite EN; reflexivity) Ec eq_refl) as (c1 & -> & N1 & O1 & S1). cbn [bind].
    destruct (mark_face_ok r l a b c1 1 ma n1 (Elt vs [n0; n1; n2] [if n0 =? b then distributed t0 else t0; t1; t2]) t1 Ea ltac:(rewrite EN; reflexivity)
      ltac:(rewrite S1, aset_find, N.eqb_refl; reflexivity) eq_refl) as (c2 & -> & N2 & O2 & S2). cbn [bind].
    destruct (mark_face_ok r l a b c2 2 ma n2 (Elt vs [n0; n1; n2] [if n0 =? b then distributed t0 else t0; if n1 =? b then distributed t1 else t1; t2]) t2 Ea ltac:(rewrite EN; reflexivity)
      ltac:(rewrite S2, aset_find, N.eqb_refl; reflexivity) eq_refl) as (c3 & -> & N3 & O3 & S3). cbn [bind].
    exists c3. split; [reflexivity|]. split; [intros; rewrite N3, N2, N1; reflexivity|].
    split; [intros r' l' H; rewrite O3, O2, O1 by exact H; reflexivity|].
    rewrite S3, S2, S1, !aset_aset. reflexivity.
  Qed.

  Definition part (e : N) : N := match afind e2p e with Some p => p | None => 0 end.
  Definition cut (ed : N * N) : bool := negb (part (fst ed) =? part (snd ed)).
  Definition retype (E : list (N * N)) (y : N * elt) : N * elt :=
    (fst y, Elt (e_nodes (snd y)) (e_neigh (snd y))
      (map (fun nt => if existsb (fun ed => pair_eqb (edge_of (fst y) (fst nt)) ed && cut ed) E then distributed (snd nt) else snd nt)
           (combine (e_neigh (snd y)) (e_type (snd y))))).

  Lemma retype_nil : forall y, length (e_neigh (snd y)) = 3%nat -> length (e_type (snd y)) = 3%nat -> retype [] y = y.
  Proof.
    intros [e [vs ns ts]] L1 L2. unfold retype. cbn in *.
    destruct ns as [|n0 [|n1 [|n2 [|]]]]; try discriminate L1. destruct ts as [|t0 [|t1 [|t2 [|]]]]; try discriminate L2. reflexivity.
  Qed.

  Lemma edge_of_eq : forall a b c d, edge_of a b = edge_of c d <-> (a = c /\ b = d) \/ (a = d /\ b = c).
  Proof.
    intros a b c d. unfold edge_of. split.
    - intros H. injection H as H1 H2. lia.
    - intros [[-> ->]|[-> ->]]; f_equal; lia.
  Qed.

  Definition split_inv (E : list (N * N)) (c0 c : subs P) : Prop :=
    (forall r l, s_elements (c r l) = map (retype E) (base (m_elements m) r l)) /\
    (forall r l, s_nodes (c r l) = s_nodes (c0 r l)).

  Lemma base_NoDup : forall r l, NoDup (map fst (base (m_elements m) r l)).
  Proof. intros r l. apply filter_NoDup_map. apply Hm. Qed.
  Lemma retype_fst : forall E l, map fst (map (retype E) l) = map fst l.
  Proof. intros E l. rewrite map_map. apply map_ext. reflexivity. Qed.

  Lemma split_edge_ok : forall E c0 c a b, a <= b -> ~ In (a, b) E -> (forall e, In e E -> fst e <= snd e) ->
    In a (map fst (m_elements m)) -> In b (map fst (m_elements m)) ->
    split_inv E c0 c -> exists c', split_edge m e2p num_ranks np rk c (a, b) = Ok c' /\ split_inv (E ++ [(a, b)]) c0 c'.
  Proof.
    intros E c0 c a b Hab Hnew HE Ha Hb (IE & IN). unfold split_edge. cbn [fst snd].
    destruct (He a Ha) as (pa & Ea & La). destruct (He b Hb) as (pb & Eb & Lb). rewrite Ea, Eb. cbn [of_at bind].
    assert (CUT : cut (a, b) = negb (pa =? pb)) by (unfold cut, part; cbn; rewrite Ea, Eb; reflexivity).
    destruct (N.eqb_spec pa pb) as [->|Npq].
    - exists c. split; [reflexivity|]. split; [|exact IN]. intros r l. rewrite IE. apply map_ext. intros y. unfold retype. f_equal. f_equal.
      apply map_ext. intros nt. rewrite existsb_app. cbn [existsb]. rewrite CUT. cbn. rewrite andb_false_r, !orb_false_r. reflexivity.
    - rewrite La, Lb. cbn [bind fst snd]. cbn in CUT.
      assert (AB : a <> b) by (intros ->; congruence).
      set (ra := p2r rk pa) in *. set (la := p2l rk pa) in *. set (rb := p2r rk pb) in *. set (lb := p2l rk pb) in *.
      destruct (afind_keys _ _ Ha) as [ma Ma]. destruct (afind_keys _ _ Hb) as [mb Mb].
      pose proof (afind_In _ _ _ Ma) as Ia. pose proof (afind_In _ _ _ Mb) as Ib.
      destruct Hm as (Hd & _ & Hm2). destruct (Hm2 _ _ Ia) as (LA1 & LA2 & _). destruct (Hm2 _ _ Ib) as (LB1 & LB2 & _).
      assert (Ba : In (a, ma) (base (m_elements m) ra la)). { apply filter_In. split; [exact Ia|]. apply (at_loc_spec ra la a pa Ea). auto. }
      assert (Bb : In (b, mb) (base (m_elements m) rb lb)). { apply filter_In. split; [exact Ib|]. apply (at_loc_spec rb lb b pb Eb). auto. }
      assert (Fa : afind (s_elements (c ra la)) a = Some (snd (retype E (a, ma)))).
      { rewrite IE. apply In_afind; [rewrite retype_fst; apply base_NoDup|]. apply (in_map (retype E)) in Ba. exact Ba. }
      assert (LT : forall e x, length (e_neigh x) = 3%nat -> length (e_type x) = 3%nat -> length (e_type (snd (retype E (e, x)))) = 3%nat).
      { intros e x L1 L2. unfold retype. cbn. rewrite map_length, combine_length, L1, L2. reflexivity. }
      destruct (mark3_ok ra la a b c ma _ Ma LA1 Fa eq_refl (LT a ma LA1 LA2)) as (c1 & -> & N1 & O1 & S1). cbn [bind].
      assert (DL : (rb =? ra) && (lb =? la) = false).
      { destruct ((rb =? ra) && (lb =? la)) eqn:Q; [|reflexivity]. exfalso. apply andb_true_iff in Q. destruct Q as [Q1 Q2]. apply N.eqb_eq in Q1, Q2.
        apply Npq. apply (Hinj a b pa pb Ea Eb); symmetry; assumption. }
      assert (Fb : afind (s_elements (c1 rb lb)) b = Some (snd (retype E (b, mb)))).
      { rewrite (O1 rb lb DL), IE. apply In_afind; [rewrite retype_fst; apply base_NoDup|]. apply (in_map (retype E)) in Bb. exact Bb. }
      destruct (mark3_ok rb lb b a c1 mb _ Mb LB1 Fb eq_refl (LT b mb LB1 LB2)) as (c2 & -> & N2 & O2 & S2).
      exists c2. split; [reflexivity|]. split; [|intros; rewrite N2, N1; apply IN].
      (* how one more edge changes an element *)
      assert (STEP : forall e x, (e = a -> retype (E ++ [(a, b)]) (e, x) = (e, mark b (snd (retype E (e, x))))) /\
                              (e = b -> retype (E ++ [(a, b)]) (e, x) = (e, mark a (snd (retype E (e, x))))) /\
                              (e <> a -> e <> b -> retype (E ++ [(a, b)]) (e, x) = retype E (e, x))).
      { intros e x.
        assert (G : forall n : N, existsb (fun ed => pair_eqb (edge_of e n) ed && cut ed) (E ++ [(a, b)]) =
          existsb (fun ed => pair_eqb (edge_of e n) ed && cut ed) E || pair_eqb (edge_of e n) (a, b)).
        { intros n. rewrite existsb_app. cbn [existsb]. rewrite CUT, andb_true_r, orb_false_r. reflexivity. }
        assert (EAB : (a, b) = edge_of a b) by (unfold edge_of; f_equal; lia).
        assert (NE : forall n, edge_of e n = (a, b) -> existsb (fun ed => pair_eqb (edge_of e n) ed && cut ed) E = false).
        { intros n Q. destruct (existsb _ E) eqn:X; [|reflexivity]. apply existsb_exists in X. destruct X as (ed & Hed & X).
          apply andb_true_iff in X. destruct X as [X _]. destruct (pair_eqb_spec (edge_of e n) ed) as [<-|]; [|discriminate].
          rewrite Q in Hed. contradiction. }
        assert (H3 : forall o, (forall n, pair_eqb (edge_of e n) (a, b) = (n =? o)) -> retype (E ++ [(a, b)]) (e, x) = (e, mark o (snd (retype E (e, x))))).
        { intros o Ho. unfold retype, mark. cbn [fst snd e_nodes e_neigh e_type]. f_equal. f_equal.
          generalize (e_type x). generalize (e_neigh x). induction l as [|n l IH]; intros ts; [reflexivity|]. destruct ts as [|t ts]; [reflexivity|].
          cbn [combine map fst snd]. f_equal; [|apply IH]. rewrite G. specialize (NE n). specialize (Ho n).
          destruct (pair_eqb_spec (edge_of e n) (a, b)) as [Q|Q].
          - rewrite (NE Q), <- Ho. reflexivity.
          - rewrite orb_false_r, <- Ho. reflexivity. }
        split; [|split].
        - intros ->. apply H3. intros n. destruct (pair_eqb_spec (edge_of a n) (a, b)) as [Q|Q]; destruct (N.eqb_spec n b) as [Q2|Q2]; try reflexivity; exfalso.
          + rewrite EAB in Q. apply edge_of_eq in Q. destruct Q as [[_ Q]|[Q _]]; congruence.
          + apply Q. subst n. symmetry. exact EAB.
        - intros ->. apply H3. intros n. destruct (pair_eqb_spec (edge_of b n) (a, b)) as [Q|Q]; destruct (N.eqb_spec n a) as [Q2|Q2]; try reflexivity; exfalso.
          + rewrite EAB in Q. apply edge_of_eq in Q. destruct Q as [[Q _]|[_ Q]]; congruence.
          + apply Q. subst n. rewrite EAB. apply edge_of_eq. auto.
        - intros Q1 Q2. unfold retype. f_equal. f_equal. apply map_ext. intros nt. cbn [fst]. rewrite G.
          destruct (pair_eqb_spec (edge_of e (fst nt)) (a, b)) as [Q|Q]; [|rewrite orb_false_r; reflexivity].
          exfalso. rewrite EAB in Q. apply edge_of_eq in Q. destruct Q as [[Q _]|[Q _]]; contradiction. }
      assert (Kab : forall r l e x, In (e, x) (base (m_elements m) r l) -> (e = a -> (r, l) = (ra, la)) /\ (e = b -> (r, l) = (rb, lb))).
      { intros r l e x Hx. apply filter_In in Hx. destruct Hx as [_ Hx]. cbn [fst] in Hx. split; intros ->.
        - apply (at_loc_spec r l a pa Ea) in Hx. destruct Hx as [<- <-]. reflexivity.
        - apply (at_loc_spec r l b pb Eb) in Hx. destruct Hx as [<- <-]. reflexivity. }
      assert (ONE : forall r l o q mo, In (o, mo) (base (m_elements m) r l) ->
         (forall x, retype (E ++ [(a, b)]) (o, x) = (o, mark q (snd (retype E (o, x))))) ->
         (forall e x, In (e, x) (base (m_elements m) r l) -> e <> o -> retype (E ++ [(a, b)]) (e, x) = retype E (e, x)) ->
         aset (map (retype E) (base (m_elements m) r l)) o (mark q (snd (retype E (o, mo)))) = map (retype (E ++ [(a, b)])) (base (m_elements m) r l)).
      { intros r l o q mo Ho H1 H2. rewrite aset_map; [|rewrite retype_fst; apply base_NoDup | rewrite retype_fst; apply (in_map fst) in Ho; exact Ho].
        rewrite map_map. apply map_ext_in. intros [e x] Hx. cbn [fst retype]. destruct (N.eqb_spec e o) as [->|Ne].
        - rewrite H1. assert (x = mo) as ->; [|reflexivity].
          apply (In_afind _ _ _ (base_NoDup r l)) in Hx, Ho. congruence.
        - symmetry. apply H2; assumption. }
      intros r l. destruct ((r =? rb) && (l =? lb)) eqn:RB.
      + apply andb_true_iff in RB. destruct RB as [Q1 Q2]. apply N.eqb_eq in Q1, Q2. subst r l. rewrite S2.
        rewrite (O1 rb lb DL), IE. apply (ONE rb lb b a mb Bb); [intros x; apply (STEP b x); reflexivity|].
        intros e x Hx Ne. destruct (STEP e x) as (_ & _ & S3). apply S3; [|exact Ne]. intros ->.
        destruct (Kab rb lb a x Hx) as [Q _]. specialize (Q eq_refl). injection Q as Q1 Q2. rewrite Q1, Q2, !N.eqb_refl in DL. discriminate.
      + rewrite (O2 r l RB). destruct ((r =? ra) && (l =? la)) eqn:RA.
        * apply andb_true_iff in RA. destruct RA as [Q1 Q2]. apply N.eqb_eq in Q1, Q2. subst r l. rewrite S1, IE.
          apply (ONE ra la a b ma Ba); [intros x; apply (STEP a x); reflexivity|].
          intros e x Hx Ne. destruct (STEP e x) as (_ & _ & S3). apply S3; [exact Ne|]. intros ->.
          destruct (Kab ra la b x Hx) as [_ Q]. specialize (Q eq_refl). injection Q as Q1 Q2. rewrite Q1, Q2, !N.eqb_refl in RB. discriminate.
        * rewrite (O1 r l RA), IE. apply map_ext_in. intros [e x] Hx. symmetry. destruct (Kab r l e x Hx) as [K1 K2].
          apply (STEP e x).
          -- intros Q. specialize (K1 Q). injection K1 as -> ->. rewrite !N.eqb_refl in RA. discriminate.
          -- intros Q. specialize (K2 Q). injection K2 as -> ->. rewrite !N.eqb_refl in RB. discriminate.
  Qed.

  Lemma split_edges_ok : forall c0, (forall r l, s_elements (c0 r l) = base (m_elements m) r l) -> forall edges, NoDup edges ->
    (forall e, In e edges -> fst e <= snd e /\ In (fst e) (map fst (m_elements m)) /\ In (snd e) (map fst (m_elements m))) ->
    exists c, ofold (split_edge m e2p num_ranks np rk) edges c0 = Ok c /\ split_inv edges c0 c.
  Proof.
    intros c0 H0 edges. induction edges as [|[a b] edges IH] using rev_ind; intros Hd Hb.
    - exists c0. split; [reflexivity|]. split; [|reflexivity]. intros r l. rewrite H0. symmetry. rewrite <- (map_id (base _ r l)) at 2.
      apply map_ext_in. intros [e x] Hx. apply filter_In in Hx. destruct Hx as [Hx _]. destruct Hm as (_ & _ & Hm2). destruct (Hm2 e x Hx) as (L1 & L2 & _).
      apply retype_nil; assumption.
    - assert (D1 : NoDup edges) by (apply NoDup_remove_1 in Hd; rewrite app_nil_r in Hd; exact Hd).
      assert (D2 : ~ In (a, b) edges) by (apply NoDup_remove_2 in Hd; rewrite app_nil_r in Hd; exact Hd).
      destruct IH as (c & E & I); [exact D1 | intros; apply Hb, in_app_iff; auto |].
      rewrite ofold_app, E. cbn [bind ofold]. destruct (Hb (a, b)) as (Q1 & Q2 & Q3); [apply in_app_iff; right; left; reflexivity|].
      destruct (split_edge_ok edges c0 c a b Q1 D2 (fun e He' => proj1 (Hb e (proj2 (in_app_iff _ _ _) (or_introl He')))) Q2 Q3 I) as (c' & -> & I').
      exists c'. auto.
  Qed.
End Assembled.

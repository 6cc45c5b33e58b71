From Coq Require Import NArith List Bool Arith Lia Permutation.
From Verif Require Import Outcome ModelMesh SpecMesh LemmasMesh LemmasMesh2 LemmasMesh3 LemmasMesh4 LemmasMesh5 LemmasMesh6.
Import ListNotations.
Local Open Scope N_scope.

Lemma seg_kind_cases : forall ib,
  (ib mod 10 = 0 /\ seg_kind ib = Some bt_land) \/ (ib mod 10 = 2 /\ seg_kind ib = Some bt_flow) \/
  (ib mod 10 = 4 /\ seg_kind ib = Some bt_levee) \/ 
  (ib mod 10 <> 0 /\ ib mod 10 <> 2 /\ ib mod 10 <> 4 /\
   seg_kind ib = if ib =? 77 then Some bt_function else if ib =? 88 then Some bt_outflow else None).
Proof.
  intros ib. unfold seg_kind.
  destruct (ib mod 10) as [|[q|q|]] eqn:E; auto 10.
  - right; right; right. repeat split; discriminate.
  - destruct q as [q|q|]; auto 10.
    + right; right; right. repeat split; discriminate.
    + destruct q; auto 10; right; right; right; repeat split; discriminate.
  - right; right; right. repeat split; discriminate.
Qed.

Definition seg_hasb (s : segment) (x y : N) : bool :=
  has_edge (sg_nbvv s) x y || match sg_ibconn s with Some c => has_edge c x y | None => false end.
Lemma seg_hasb_spec : forall s x y, seg_hasb s x y = true <-> seg_has s x y.
Proof.
  intros s x y. unfold seg_hasb, seg_has. rewrite orb_true_iff, has_edge_spec. split; intros [A|A]; auto.
  - right. destruct (sg_ibconn s) as [c|]; [|discriminate]. exists c. split; [reflexivity | apply has_edge_spec; assumption].
  - right. destruct A as (c & -> & A). apply has_edge_spec; assumption.
Qed.

Lemma seg_type_cons : forall s segs x y, reader_segment s = true ->
  seg_type (s :: segs) x y =
  match seg_kind (sg_type s) with
  | Some bt => if seg_hasb s x y then Ok (Some bt) else seg_type segs x y
  | None => seg_type segs x y
  end.
Proof.
  intros s segs x y RS. cbn [seg_type]. cbv zeta. unfold reader_segment in RS. apply andb_true_iff in RS as [_ RC].
  unfold seg_hasb.
  destruct (seg_kind_cases (sg_type s)) as [[Z K]|[[Z K]|[[Z K]|(Z0 & Z2 & Z4 & K)]]]; rewrite K.
  - rewrite Z in *. cbn [N.eqb] in *. destruct (sg_ibconn s) as [c|]; [discriminate RC|]. rewrite orb_false_r. reflexivity.
  - rewrite Z in *. cbn [N.eqb Pos.eqb] in *. destruct (sg_ibconn s) as [c|]; [discriminate RC|]. rewrite orb_false_r. reflexivity.
  - rewrite Z in *. cbn [N.eqb Pos.eqb] in *. destruct (sg_ibconn s) as [c|]; [|discriminate RC]. cbn [of_at bind].
    destruct (has_edge (sg_nbvv s) x y); reflexivity.
  - apply N.eqb_neq in Z0, Z2, Z4. rewrite Z0, Z2, Z4. rewrite Z4 in RC.
    destruct (sg_ibconn s) as [c|]; [discriminate RC|]. rewrite orb_false_r.
    destruct (sg_type s =? 77); [reflexivity|]. destruct (sg_type s =? 88); reflexivity.
Qed.

Lemma seg_type_spec : forall segs x y, (forall s, In s segs -> reader_segment s = true) ->
  exists o, seg_type segs x y = Ok o /\
  match o with
  | Some bt => exists s1 s s2, segs = s1 ++ s :: s2 /\ seg_kind (sg_type s) = Some bt /\ seg_has s x y /\
      (forall s', In s' s1 -> seg_kind (sg_type s') <> None -> ~ seg_has s' x y)
  | None => forall s, In s segs -> seg_kind (sg_type s) <> None -> ~ seg_has s x y
  end.
Proof.
  induction segs as [|s segs IH]; intros x y RS; [exists None; split; [reflexivity | intros ? []]|].
  destruct (IH x y (fun s' I => RS s' (or_intror I))) as (o & EO & HO).
  rewrite seg_type_cons by (apply RS; left; reflexivity).
  assert (SKIP : (seg_kind (sg_type s) <> None -> ~ seg_has s x y) ->
    match o with
    | Some bt => exists s1 s' s2, s :: segs = s1 ++ s' :: s2 /\ seg_kind (sg_type s') = Some bt /\ seg_has s' x y /\
      (forall s'', In s'' s1 -> seg_kind (sg_type s'') <> None -> ~ seg_has s'' x y)
    | None => forall s', In s' (s :: segs) -> seg_kind (sg_type s') <> None -> ~ seg_has s' x y
    end).
  { intros NS. destruct o as [bt|].
    - destruct HO as (s1 & s' & s2 & -> & K & HH & HF). exists (s :: s1), s', s2. repeat split; auto.
      intros s'' [<-|I]; auto.
    - intros s' [<-|I]; auto. }
  destruct (seg_kind (sg_type s)) as [bt|] eqn:K.
  - destruct (seg_hasb s x y) eqn:HB.
    + exists (Some bt). split; [reflexivity|]. exists [], s, segs. split; [reflexivity|]. split; [assumption|].
      split; [apply seg_hasb_spec; assumption | intros ? []].
    + exists o. split; [assumption|]. apply SKIP. intros _ C. apply seg_hasb_spec in C. congruence.
  - exists o. split; [assumption|]. apply SKIP. congruence.
Qed.

Lemma pair_is_spec : forall x y a b, pair_is x y a b = true <-> same_edge (x, y) (a, b).
Proof.
  intros x y a b. unfold pair_is, same_edge. rewrite andb_true_iff, !N.eqb_eq. cbn [fst snd]. split.
  - intros [A B]. assert (D : (x = a /\ y = b) \/ (x = b /\ y = a)) by lia. destruct D as [[-> ->]|[-> ->]]; auto.
  - intros [E|E]; injection E as -> ->; lia.
Qed.

Lemma is_levee_end_spec : forall segs x y, (forall s, In s segs -> reader_segment s = true) ->
  (forall s c, In s segs -> sg_ibconn s = Some c -> c <> []) ->
  exists b, is_levee_end segs x y = Ok b /\ (b = true <-> closes_barrier segs x y).
Proof.
  induction segs as [|s segs IH]; intros x y RS NE.
  { exists false. split; [reflexivity|]. split; [discriminate | intros (? & ? & ? & ? & [] & _)]. }
  destruct (IH x y (fun s' I => RS s' (or_intror I)) (fun s' c I => NE s' c (or_intror I))) as (b & EB & HB).
  pose proof (RS s (or_introl eq_refl)) as R. unfold reader_segment in R. apply andb_true_iff in R as [_ R].
  cbn [is_levee_end]. destruct (sg_type s mod 10 =? 4) eqn:Z4.
  - destruct (sg_ibconn s) as [c|] eqn:Ec; [|discriminate R]. cbn [of_at bind]. cbn in R. apply Nat.eqb_eq in R.
    pose proof (NE s c (or_introl eq_refl) Ec) as NC.
    assert (NV : sg_nbvv s <> []) by (intros C; rewrite C in R; destruct c; [congruence | discriminate]).
    assert (HD : forall l : list N, l <> [] -> exists z, hd_error l = Some z) by (intros [|z l]; [congruence | exists z; reflexivity]).
    assert (RV : forall l : list N, l <> [] -> rev l <> []).
    { intros l Hl C. apply Hl. rewrite <- (rev_involutive l), C. reflexivity. }
    destruct (HD _ NV) as (a1 & E1). destruct (HD _ NC) as (b1 & E2).
    destruct (HD _ (RV _ NV)) as (a2 & E3). destruct (HD _ (RV _ NC)) as (b2 & E4).
    rewrite E1, E2, E3, E4. cbn [of_index bind].
    assert (CL : closes_barrier (s :: segs) x y <-> same_edge (x, y) (a1, b1) \/ same_edge (x, y) (a2, b2) \/ closes_barrier segs x y).
    { split.
      - intros (s' & c' & a & b' & [<-|I] & Ec' & SE & D); [|right; right; exists s', c', a, b'; auto].
        rewrite Ec in Ec'. injection Ec' as <-. rewrite E1, E2, E3, E4 in D.
        destruct D as [[[= <-] [= <-]]|[[= <-] [= <-]]]; auto.
      - intros [SE|[SE|(s' & c' & a & b' & I & D)]].
        + exists s, c, a1, b1. cbn; auto 10.
        + exists s, c, a2, b2. cbn; auto 10.
        + exists s', c', a, b'. cbn. tauto. }
    destruct (pair_is x y a1 b1) eqn:P1; [exists true; split; [reflexivity|]; rewrite CL; split; auto; intros _; left; apply pair_is_spec; assumption|].
    destruct (pair_is x y a2 b2) eqn:P2; [exists true; split; [reflexivity|]; rewrite CL; split; auto; intros _; right; left; apply pair_is_spec; assumption|].
    exists b. split; [assumption|]. rewrite CL, HB. split; auto.
    intros [C|[C|C]]; auto; apply pair_is_spec in C; congruence.
  - exists b. split; [assumption|]. rewrite HB. destruct (sg_ibconn s) as [c|] eqn:Ec; [discriminate R|]. split.
    + intros (s' & c' & a & b' & I & D). exists s', c', a, b'. cbn; tauto.
    + intros (s' & c' & a & b' & [<-|I] & Ec' & D); [congruence | exists s', c', a, b'; auto].
Qed.

Lemma existsb_edge : forall ls x y, existsb (fun l => has_edge l x y) ls = true <-> exists l, In l ls /\ neighbours l x y.
Proof.
  intros. rewrite existsb_exists. split; intros (l & I & E); exists l; split; auto; apply has_edge_spec; assumption.
Qed.

Lemma first_match_unique : forall (A : Type) (P : A -> Prop) s1 s s2 r1 r r2,
  s1 ++ s :: s2 = r1 ++ r :: r2 -> P s -> P r -> (forall a, In a s1 -> ~ P a) -> (forall a, In a r1 -> ~ P a) -> s = r.
Proof.
  intros A P. induction s1 as [|a s1 IH]; intros s s2 [|b r1] r r2 E Ps Pr F1 F2; cbn in E; injection E as E1 E2.
  - assumption.
  - subst b. exfalso. apply (F2 s); [left; reflexivity | assumption].
  - subst a. exfalso. apply (F1 r); [left; reflexivity | assumption].
  - apply (IH s s2 r1 r r2 E2 Ps Pr); intros; [apply F1 | apply F2]; right; assumption.
Qed.

Lemma get_ibtype_spec : forall m x y bt, segs_read m -> (get_ibtype m x y = Ok bt <-> classified m x y bt).
Proof.
  intros m x y bt SR. unfold get_ibtype.
  destruct (existsb (fun l => has_edge l x y) (ad_nbdv m)) eqn:EO.
  { apply existsb_edge in EO as (l & I & NB). split.
    - intros [= <-]. apply (cl_open m x y l); assumption.
    - intros C. inversion C as [l' I' N' E|s1 s s2 bt' NO|NO]; subst; [reflexivity| |]; exfalso; apply (NO l I NB). }
  assert (NO : forall l, In l (ad_nbdv m) -> ~ neighbours l x y).
  { intros l I NB. assert (existsb (fun l => has_edge l x y) (ad_nbdv m) = true) by (apply existsb_edge; eauto). congruence. }
  destruct (seg_type_spec (ad_segs m) x y (fun s I => proj1 (SR s I))) as (o & E & HO). rewrite E. cbn [bind].
  destruct o as [bt0|].
  - destruct HO as (s1 & s & s2 & ES & K & HH & HF). split.
    + intros [= <-]. apply (cl_segment m x y s1 s s2); assumption.
    + intros C. inversion C as [l' I' N'|r1 r r2 bt' _ ES' K' HH' HF'|_ NS _]; subst.
      * exfalso. apply (NO l' I' N').
      * f_equal.
        assert (s = r).
        { apply (first_match_unique _ (fun s => seg_kind (sg_type s) <> None /\ seg_has s x y) s1 s s2 r1 r r2).
          - congruence.
          - rewrite K; split; [discriminate | assumption].
          - rewrite K'; split; [discriminate | assumption].
          - intros a I [A B]. apply (HF a I A B).
          - intros a I [A B]. apply (HF' a I A B). }
        subst r. congruence.
      * exfalso. apply (NS s); [rewrite ES; apply in_elt | rewrite K; discriminate | assumption].
  - destruct (is_levee_end_spec (ad_segs m) x y (fun s I => proj1 (SR s I)) (fun s c I => proj2 (SR s I) c)) as (b & EB & HB).
    rewrite EB. cbn [bind].
    assert (INV : forall bt, classified m x y bt ->
      bt = bt_land /\ ((exists l, In l (ad_nbgn m) /\ neighbours l x y) \/ closes_barrier (ad_segs m) x y)).
    { intros bt' C. inversion C as [l' I' N'|r1 r r2 bt'' _ ES' K' HH' HF'|_ NS D]; subst.
      - exfalso. apply (NO l' I' N').
      - exfalso. apply (HO r); [rewrite ES'; apply in_elt | rewrite K'; discriminate | assumption].
      - auto. }
    destruct (existsb (fun l => has_edge l x y) (ad_nbgn m)) eqn:EG.
    + split.
      * intros [= <-]. apply cl_land; auto. left. apply existsb_edge; assumption.
      * intros C. apply INV in C as [-> _]. reflexivity.
    + destruct b.
      * split; [intros [= <-]; apply cl_land; auto; right; apply HB; reflexivity | intros C; apply INV in C as [-> _]; reflexivity].
      * split; [discriminate|]. intros C. apply INV in C as [_ [G|G]].
        -- apply existsb_edge in G. congruence.
        -- apply HB in G. discriminate.
Qed.

Lemma get_ibtype_no_ub : forall m x y, segs_read m -> get_ibtype m x y <> UB.
Proof.
  intros m x y SR. unfold get_ibtype. destruct (existsb _ (ad_nbdv m)); [discriminate|].
  destruct (seg_type_spec (ad_segs m) x y (fun s I => proj1 (SR s I))) as (o & E & _). rewrite E. cbn [bind].
  destruct o; [discriminate|]. destruct (existsb _ (ad_nbgn m)); [discriminate|].
  destruct (is_levee_end_spec (ad_segs m) x y (fun s I => proj1 (SR s I)) (fun s c I => proj2 (SR s I) c)) as (b & EB & HB).
  rewrite EB. cbn [bind]. destruct b; discriminate.
Qed.

Lemma NoDup_app_l : forall (A : Type) (l m : list A), NoDup (l ++ m) -> NoDup l.
Proof.
  intros A. induction l as [|a l IH]; intros m H; [constructor|]. cbn in H. inversion H; subst. constructor.
  - intros I. apply H2. apply in_or_app; auto.
  - eapply IH; eassumption.
Qed.
Lemma NoDup_app_r : forall (A : Type) (l m : list A), NoDup (l ++ m) -> NoDup m.
Proof. intros A. induction l as [|a l IH]; intros m H; [assumption|]. cbn in H. inversion H; subst. auto. Qed.

Lemma faces_across_iff : forall segs p r, barriers_ok segs ->
  (faces_across segs p r <-> exists q, get_internal_node_pair segs (fst p) (snd p) = Ok q /\ same_edge q r).
Proof.
  intros segs [x y] r BO. cbn [fst snd]. split.
  - intros (i & l & m & u & v & B & NB & (a & Pa & Pu) & (b & Pb & Pv) & S). cbn [fst snd] in *.
    exists (v, u). split; [|assumption].
    assert (ND : NoDup l).
    { destruct BO as [B1 _]. destruct B as (s & c & E & Ec & D). apply nth_error_In in E.
      destruct (B1 s c E Ec) as (_ & _ & ND). destruct D as [[-> ->]|[-> ->]].
      - apply NoDup_app_l in ND; assumption.
      - apply NoDup_app_r in ND; assumption. }
    assert (HAB : (b = a + 1 \/ a = b + 1)%nat).
    { destruct NB as [F|F]; apply followed_nth in F as (k & F1 & F2).
      - rewrite (NoDup_nth_inj _ l a k x ND Pa F1), (NoDup_nth_inj _ l b (k + 1)%nat y ND Pb F2). lia.
      - rewrite (NoDup_nth_inj _ l a (k + 1)%nat x ND Pa F2), (NoDup_nth_inj _ l b k y ND Pb F1). lia. }
    apply (node_pair_hit segs i l m x y a b u v); assumption.
  - intros (q & E & S). destruct (node_pair_edge segs (x, y) q BO E) as (BE & _).
    destruct (node_pair_involution segs x y BO BE) as (u & v & i & l & mm & B & NB & P1 & P2 & BE2 & E1 & E2 & E3).
    cbn [fst snd] in E. rewrite E1 in E. injection E as <-. exists i, l, mm, u, v. auto.
Qed.

Lemma levee_faces_iff : forall m f g, segs_read m -> barriers_ok (ad_segs m) -> (levee_faces m f g <-> levee_pair m f g).
Proof.
  intros m f g SR BO. split.
  - intros (p & r & Hp & Hr & Sf & Sg & Tp & Tr & FA).
    apply faces_across_iff in FA as (q & Eq & S); [|assumption].
    exists p, r, q. apply get_ibtype_spec in Tp, Tr; auto 10.
  - intros (p & r & q & Hp & Hr & Sf & Sg & Tp & Tr & Eq & S).
    exists p, r. apply get_ibtype_spec in Tp, Tr; auto. repeat split; auto.
    apply faces_across_iff; eauto.
Qed.

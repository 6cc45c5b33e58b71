From Coq Require Import NArith List Bool Arith Permutation Lia.
From Verif Require Import Num Outcome ModelMesh ModelPart SpecPart LemmasPart ModelDist SpecDist LemmasDist LemmasDist2.
Import ListNotations.
Open Scope N_scope.

Lemma NoDup_map_via : forall (A B C : Type) (g : A -> B) (h : A -> C) l, NoDup (map g l) ->
  (forall x y, In x l -> In y l -> h x = h y -> g x = g y) -> NoDup (map h l).
Proof.
  intros A B C g h. induction l as [|a l IH]; intros D H; cbn; [constructor|]. cbn in D. inversion D as [|? ? D1 D2]; subst. constructor.
  - intros Q. apply in_map_iff in Q. destruct Q as (b & E & Hb). apply D1. apply in_map_iff. exists b. split; [|exact Hb].
    apply H; [right; exact Hb | left; reflexivity | exact E].
  - apply IH; [exact D2|]. intros x y Hx Hy. apply H; right; assumption.
Qed.
Lemma filter_map_comm : forall (A B : Type) (f : A -> B) (q : B -> bool) l, filter q (map f l) = map f (filter (fun a => q (f a)) l).
Proof. intros A B f q. induction l as [|a l IH]; cbn; [reflexivity|]. destruct (q (f a)); cbn; rewrite IH; reflexivity. Qed.

(** The reader, on groups that concern it. *)
Definition seen (loc sub : N) (g : dbgroup) : rank_boundary :=
  if (g_locA g =? loc) && (g_subA g =? sub)
  then RankBoundary (g_locA g) (g_subA g) (g_locB g) (g_subB g) (map (fun d => DBEntry (d_e1 d) (d_f1 d) (d_e2 d) (d_f2 d) (d_p d)) (g_faces g))
  else RankBoundary (g_locB g) (g_subB g) (g_locA g) (g_subA g) (map (fun d => DBEntry (d_e2 d) (d_f2 d) (d_e1 d) (d_f1 d) (d_p d)) (g_faces g)).
Lemma read_dbmd_ok : forall loc sub file, (forall g, In g file -> concerns loc sub g = true) -> read_dbmd loc sub file = Ok (map (seen loc sub) file).
Proof.
  intros loc sub file H. unfold read_dbmd. rewrite (ofold_total _ _ _ (fun acc g => acc ++ [seen loc sub g])).
  - f_equal. assert (Q : forall acc, fold_left (fun acc g => acc ++ [seen loc sub g]) file acc = acc ++ map (seen loc sub) file); [|apply Q].
    clear H. induction file as [|g file IH]; intros acc; cbn; [symmetry; apply app_nil_r|]. rewrite IH, <- app_assoc. reflexivity.
  - intros acc g Hg. specialize (H g Hg). unfold concerns in H. unfold read_group, seen.
    destruct ((g_locA g =? loc) && (g_subA g =? sub)) eqn:A; [reflexivity|]. destruct ((g_locB g =? loc) && (g_subB g =? sub)) eqn:B; [reflexivity | discriminate].
Qed.
Lemma dbmd_file_concerns : forall nr sh loc sub g, In g (dbmd_file nr sh loc sub) -> concerns loc sub g = true.
Proof. intros nr sh loc sub g H. apply filter_In in H. apply H. Qed.

Section Dist.
Context {P : Type} (m : mesh P) (nr : N) (size : N -> N) (c : subs P) (p : N)
  (of : list (N * N) -> list (N * N)) (os : list ((N * N) * list dbpair) -> list ((N * N) * list dbpair)).
Hypothesis Hm : mesh_ok m.
Hypothesis Hn : neigh_ok m.
Hypothesis Hp : partitioned m nr size c.
Hypothesis Hc : forall r l, r < nr -> l < size r -> r + nr * l < 2 ^ 32.
Hypothesis Hof : forall l, Permutation (of l) l.
Hypothesis Hos : forall l, Permutation (os l) l.

Let order := of (cut_faces m nr size c).
Let sh := fold_left (push (key nr size c) (pairing m nr size c p)) order [].

Lemma order_In : forall f, In f order <-> In f (cut_faces m nr size c).
Proof. intros f. split; apply Permutation_in; [apply Hof | symmetry; apply Hof]. Qed.
Lemma dist_value : forall r l, dist_boundaries m nr size c p of os r l = Ok (map (seen r l) (dbmd_file nr (os sh) r l)).
Proof.
  intros r l. unfold dist_boundaries. fold order. rewrite shared_ok by (assumption || (intros f; apply order_In)). cbn [bind]. fold sh.
  apply read_dbmd_ok. apply dbmd_file_concerns.
Qed.

Lemma shared_entry : forall k b, In (k, b) (os sh) -> exists r1 l1 r2 l2,
  k = (r1 + nr * l1, r2 + nr * l2) /\ r1 < nr /\ l1 < size r1 /\ r2 < nr /\ l2 < size r2 /\ (r2, l2) <> (r1, l1) /\ b <> [] /\
  group_of nr (k, b) = DBGroup r1 l1 r2 l2 b /\ NoDup (map (fun d => edge_of (d_e1 d) (d_e2 d)) b) /\
  forall e1 f1 e2 f2 q, In (DBPair e1 e2 f1 f2 q) b <->
    q = p /\ holds nr size c e1 r1 l1 /\ holds nr size c e2 r2 l2 /\ face_at m e1 f1 e2 /\ face_at m e2 f2 e1.
Proof.
  intros k b H. apply (Permutation_in _ (Hos sh)) in H. unfold sh in H. apply group_In in H. destruct H as [Eb Nb].
  assert (B : forall d, In d b <-> exists f, In f (cut_faces m nr size c) /\ key nr size c f = k /\ pairing m nr size c p f = d).
  { intros d. rewrite Eb. unfold bucket. rewrite in_map_iff. split.
    - intros (f & Ef & Hf). apply filter_In in Hf. destruct Hf as [Hf Q]. apply order_In in Hf. destruct (pair_eqb_spec (key nr size c f) k); [|discriminate]. eauto.
    - intros (f & Hf & Ek & Ed). exists f. split; [exact Ed|]. apply filter_In. split; [apply order_In, Hf|].
      destruct (pair_eqb_spec (key nr size c f) k); [reflexivity | contradiction]. }
  destruct b as [|d0 b']; [contradiction|]. set (b := d0 :: b') in *.
  destruct (proj1 (B d0) (or_introl eq_refl)) as (f0 & Hf0 & Ek & Ed).
  destruct (pairing_facts m nr size c p Hm Hn Hp Hc f0 Hf0) as ((r1 & l1 & r2 & l2 & Ek2 & H1 & H2 & _) & _ & Lt). rewrite Ek in Ek2, Lt.
  exists r1, l1, r2, l2. split; [exact Ek2|].
  pose proof H1 as (A1 & A2 & _). pose proof H2 as (A3 & A4 & _). split; [exact A1|]. split; [exact A2|]. split; [exact A3|]. split; [exact A4|].
  assert (Ne : (r2, l2) <> (r1, l1)) by (intros E; injection E as -> ->; rewrite Ek2 in Lt; cbn in Lt; lia).
  split; [exact Ne|]. split; [exact Nb|]. split.
  { unfold group_of. cbn [fst snd]. rewrite Ek2. cbn [fst snd]. destruct (code_decode nr r1 l1 A1) as [-> ->]. destruct (code_decode nr r2 l2 A3) as [-> ->]. reflexivity. }
  split.
  { rewrite Eb. unfold bucket. rewrite map_map.
    assert (Q : map (fun f => edge_of (d_e1 (pairing m nr size c p f)) (d_e2 (pairing m nr size c p f))) (filter (fun a => pair_eqb (key nr size c a) k) order)
              = filter (fun a => pair_eqb (key nr size c a) k) order).
    { rewrite <- (map_id (filter _ order)) at 2. apply map_ext_in. intros f Hf. apply filter_In in Hf. destruct Hf as [Hf _]. apply order_In in Hf.
      symmetry. apply pairing_facts; assumption. }
    rewrite Q. apply NoDup_filter. eapply Permutation_NoDup; [symmetry; apply Hof | apply cut_faces_spec; assumption]. }
  intros e1 f1 e2 f2 q. rewrite B. split.
  - intros (f & Hf & Ekf & Edf). destruct (pairing_facts m nr size c p Hm Hn Hp Hc f Hf) as ((s1 & t1 & s2 & t2 & E & G1 & G2 & Gp & F1 & F2) & _ & _).
    rewrite Ekf, Ek2 in E. rewrite Edf in *. cbn [d_e1 d_e2 d_f1 d_f2 d_p] in *. injection E as E1 E2.
    apply code_inj in E1; [|exact A1|apply G1]. apply code_inj in E2; [|exact A3|apply G2]. destruct E1 as [-> ->]. destruct E2 as [-> ->]. auto.
  - intros (-> & G1 & G2 & F1 & F2). apply (entry_from m nr size c p Hm Hn Hp Hc); [exact Lt|]. exists r1, l1, r2, l2. cbn. auto 10.
Qed.

Lemma sh_keys : NoDup (map fst (os sh)).
Proof. eapply Permutation_NoDup; [apply Permutation_map; symmetry; apply Hos|]. apply group_inv. Qed.
Lemma shared_exists : forall r l r' l' e k n, r + nr * l < r' + nr * l' -> holds nr size c e r l -> holds nr size c n r' l' -> face_at m e k n ->
  exists b, In ((r + nr * l, r' + nr * l'), b) (os sh).
Proof.
  intros r l r' l' e k n Lt H H' F. destruct (proj1 (proj2 Hn) e k n F) as (k' & F').
  destruct (entry_from m nr size c p Hm Hn Hp Hc (r + nr * l, r' + nr * l') (DBPair e n k k' p)) as (f & Hf & Kf & Pf).
  { exact Lt. } { exists r, l, r', l'. cbn. auto 10. }
  exists (bucket (key nr size c) (pairing m nr size c p) (r + nr * l, r' + nr * l') order).
  apply (Permutation_in _ (Permutation_sym (Hos sh))). apply group_In. split; [reflexivity|].
  intros Q. assert (In (pairing m nr size c p f) (bucket (key nr size c) (pairing m nr size c p) (r + nr * l, r' + nr * l') order)) as X; [|rewrite Q in X; exact X].
  apply in_map, filter_In. split; [apply order_In, Hf|]. rewrite Kf. destruct (pair_eqb_spec (r + nr * l, r' + nr * l') (r + nr * l, r' + nr * l')); [reflexivity | contradiction].
Qed.

Lemma concerns_spec : forall r l r1 l1 r2 l2 b, concerns r l (DBGroup r1 l1 r2 l2 b) = true <-> (r1, l1) = (r, l) \/ (r2, l2) = (r, l).
Proof.
  intros. unfold concerns. cbn. rewrite orb_true_iff, !andb_true_iff, !N.eqb_eq. split; (intros [[-> ->]|[-> ->]] || intros [E|E]; try (injection E as -> ->)); auto.
Qed.
Lemma seen_A : forall r l r2 l2 b, seen r l (DBGroup r l r2 l2 b) = RankBoundary r l r2 l2 (map (fun d => DBEntry (d_e1 d) (d_f1 d) (d_e2 d) (d_f2 d) (d_p d)) b).
Proof. intros. unfold seen. cbn. rewrite !N.eqb_refl. reflexivity. Qed.
Lemma seen_B : forall r l r1 l1 b, (r, l) <> (r1, l1) -> seen r l (DBGroup r1 l1 r l b) = RankBoundary r l r1 l1 (map (fun d => DBEntry (d_e2 d) (d_f2 d) (d_e1 d) (d_f1 d) (d_p d)) b).
Proof.
  intros. unfold seen. cbn. destruct (N.eqb_spec r1 r) as [->|]; [|reflexivity]. destruct (N.eqb_spec l1 l) as [->|]; [contradiction | reflexivity].
Qed.

(** A group of the file of (r, l), from either side. *)
Lemma group_cases : forall r l g, In g (map (seen r l) (dbmd_file nr (os sh) r l)) -> exists k b r' l',
  In (k, b) (os sh) /\ (r', l') <> (r, l) /\ r' < nr /\ l' < size r' /\ b <> [] /\ NoDup (map (fun d => edge_of (d_e1 d) (d_e2 d)) b) /\
  ((k = (r + nr * l, r' + nr * l') /\ group_of nr (k, b) = DBGroup r l r' l' b /\
      g = RankBoundary r l r' l' (map (fun d => DBEntry (d_e1 d) (d_f1 d) (d_e2 d) (d_f2 d) (d_p d)) b) /\
      forall e1 f1 e2 f2 q, In (DBPair e1 e2 f1 f2 q) b <-> q = p /\ holds nr size c e1 r l /\ holds nr size c e2 r' l' /\ face_at m e1 f1 e2 /\ face_at m e2 f2 e1) \/
   (k = (r' + nr * l', r + nr * l) /\ group_of nr (k, b) = DBGroup r' l' r l b /\
      g = RankBoundary r l r' l' (map (fun d => DBEntry (d_e2 d) (d_f2 d) (d_e1 d) (d_f1 d) (d_p d)) b) /\
      forall e1 f1 e2 f2 q, In (DBPair e1 e2 f1 f2 q) b <-> q = p /\ holds nr size c e1 r' l' /\ holds nr size c e2 r l /\ face_at m e1 f1 e2 /\ face_at m e2 f2 e1)).
Proof.
  intros r l g Hg. apply in_map_iff in Hg. destruct Hg as (g0 & <- & Hg). apply filter_In in Hg. destruct Hg as [Hg Cg].
  apply in_map_iff in Hg. destruct Hg as ([k b] & Eg & Hkb). destruct (shared_entry k b Hkb) as (r1 & l1 & r2 & l2 & Ek & A1 & A2 & A3 & A4 & Ne & Nb & Gr & Nd & Q).
  rewrite Gr in Eg. subst g0. apply concerns_spec in Cg. destruct Cg as [E|E]; injection E as -> ->.
  - exists k, b, r2, l2. split; [exact Hkb|]. split; [exact Ne|]. split; [exact A3|]. split; [exact A4|]. split; [exact Nb|]. split; [exact Nd|].
    left. split; [exact Ek|]. split; [exact Gr|]. split; [apply seen_A | exact Q].
  - exists k, b, r1, l1. split; [exact Hkb|]. split; [congruence|]. split; [exact A1|]. split; [exact A2|]. split; [exact Nb|]. split; [exact Nd|].
    right. split; [exact Ek|]. split; [exact Gr|]. split; [apply seen_B; exact Ne | exact Q].
Qed.
Lemma group_intro : forall r l r' l' b, r < nr -> r' < nr -> (r', l') <> (r, l) ->
  (In ((r + nr * l, r' + nr * l'), b) (os sh) ->
     In (RankBoundary r l r' l' (map (fun d => DBEntry (d_e1 d) (d_f1 d) (d_e2 d) (d_f2 d) (d_p d)) b)) (map (seen r l) (dbmd_file nr (os sh) r l))) /\
  (In ((r' + nr * l', r + nr * l), b) (os sh) ->
     In (RankBoundary r l r' l' (map (fun d => DBEntry (d_e2 d) (d_f2 d) (d_e1 d) (d_f1 d) (d_p d)) b)) (map (seen r l) (dbmd_file nr (os sh) r l))).
Proof.
  intros r l r' l' b Hr Hr' Ne. split; intros H.
  - assert (G : group_of nr (r + nr * l, r' + nr * l', b) = DBGroup r l r' l' b).
    { unfold group_of. cbn [fst snd]. destruct (code_decode nr r l Hr) as [-> ->]. destruct (code_decode nr r' l' Hr') as [-> ->]. reflexivity. }
    rewrite <- seen_A. apply in_map, filter_In. rewrite <- G. split; [apply in_map, H|]. rewrite G. apply concerns_spec. auto.
  - assert (G : group_of nr (r' + nr * l', r + nr * l, b) = DBGroup r' l' r l b).
    { unfold group_of. cbn [fst snd]. destruct (code_decode nr r l Hr) as [-> ->]. destruct (code_decode nr r' l' Hr') as [-> ->]. reflexivity. }
    rewrite <- seen_B by congruence. apply in_map, filter_In. rewrite <- G. split; [apply in_map, H|]. rewrite G. apply concerns_spec. auto.
Qed.

Theorem dist_boundaries_ok : forall r l, r < nr -> l < size r ->
  exists ks, dist_boundaries m nr size c p of os r l = Ok ks /\ boundaries_of m nr size c p r l ks.
Proof.
  intros r l Hr Hl. eexists. split; [apply dist_value|]. split; [|split].
  - unfold dbmd_file. rewrite filter_map_comm, !map_map.
    set (fl := filter (fun a => concerns r l (group_of nr a)) (os sh)).
    apply (NoDup_map_via _ _ _ fst).
    + unfold fl. assert (G : forall (q : (N * N) * list dbpair -> bool) l0, NoDup (map fst l0) -> NoDup (map fst (filter q l0))).
      { intros q. induction l0 as [|a l0 IH]; intros D; cbn; [constructor|]. cbn in D. inversion D as [|? ? D1 D2]; subst.
        destruct (q a); [|apply IH, D2]. cbn. constructor; [|apply IH, D2]. intros X. apply D1. apply in_map_iff in X. destruct X as (y & <- & Hy). apply filter_In in Hy. apply in_map, Hy. }
      apply G, sh_keys.
    + assert (X : forall kb, In kb fl -> exists r' l', k_ex (seen r l (group_of nr kb)) = (r', l') /\
         (fst kb = (r + nr * l, r' + nr * l') \/ fst kb = (r' + nr * l', r + nr * l)) /\ fst (fst kb) < snd (fst kb)).
      { intros [k b] Hkb. unfold fl in Hkb. apply filter_In in Hkb. destruct Hkb as [Hkb Cg].
        destruct (shared_entry k b Hkb) as (r1 & l1 & r2 & l2 & Ek & A1 & A2 & A3 & A4 & Ne & Nb & Gr & _ & Q). rewrite Gr in *.
        assert (Lt : fst k < snd k).
        { destruct b as [|d b]; [contradiction|]. clear Nb. pose proof Hkb as K. apply (Permutation_in _ (Hos sh)) in K. apply group_In in K. destruct K as [K _].
          assert (In d (bucket (key nr size c) (pairing m nr size c p) k order)) as D by (rewrite <- K; left; reflexivity).
          apply in_map_iff in D. destruct D as (f & _ & Hf). apply filter_In in Hf. destruct Hf as [Hf Kf]. apply order_In in Hf.
          destruct (pair_eqb_spec (key nr size c f) k) as [<-|]; [|discriminate]. apply (pairing_facts m nr size c p Hm Hn Hp Hc f Hf). }
        apply concerns_spec in Cg. destruct Cg as [E|E]; injection E as -> ->.
        - exists r2, l2. rewrite seen_A. split; [reflexivity|]. split; [left; exact Ek | exact Lt].
        - exists r1, l1. rewrite seen_B by exact Ne. split; [reflexivity|]. split; [right; exact Ek | exact Lt]. }
      intros x y Hx Hy E. destruct (X x Hx) as (r1 & l1 & E1 & C1 & L1). destruct (X y Hy) as (r2 & l2 & E2 & C2 & L2).
      rewrite E1, E2 in E. injection E as -> ->. destruct C1 as [C1|C1], C2 as [C2|C2]; rewrite C1, C2 in *; cbn [fst snd] in *; try reflexivity; lia.
  - intros g Hg. destruct (group_cases r l g Hg) as (k & b & r' & l' & Hkb & Ne & Hr' & Hl' & Nb & Nd & [(Ek & _ & -> & Q)|(Ek & _ & -> & Q)]);
      cbn [k_loc_in k_sub_in k_loc_ex k_sub_ex k_faces]; unfold k_ex; cbn [k_loc_ex k_sub_ex];
      (split; [reflexivity|]; split; [reflexivity|]; split; [exact Hr'|]; split; [exact Hl'|]; split; [exact Ne|]; split; [intros X; apply map_eq_nil in X; contradiction|]; split).
    + rewrite map_map. cbn [b_ein b_fin]. apply (NoDup_map_via _ _ _ (fun d => edge_of (d_e1 d) (d_e2 d)) _ _ Nd).
      intros [a1 a2 a3 a4 a5] [b1 b2 b3 b4 b5] Ha Hb E. apply Q in Ha. apply Q in Hb. cbn in E |- *. injection E as -> ->.
      f_equal. apply (face_at_fun m Hm b1 b3); tauto.
    + intros e k' n k'' q. rewrite in_map_iff. split.
      * intros ([a1 a2 a3 a4 a5] & E & Hd). cbn in E. injection E as -> -> -> -> ->. apply Q in Hd. exact Hd.
      * intros H. apply Q in H. exists (DBPair e n k' k'' q). split; [reflexivity | exact H].
    + rewrite map_map. cbn [b_ein b_fin]. apply (NoDup_map_via _ _ _ (fun d => edge_of (d_e1 d) (d_e2 d)) _ _ Nd).
      intros [a1 a2 a3 a4 a5] [b1 b2 b3 b4 b5] Ha Hb E. apply Q in Ha. apply Q in Hb. cbn in E |- *. injection E as -> ->.
      f_equal. apply (face_at_fun m Hm b2 b4); tauto.
    + intros e k' n k'' q. rewrite in_map_iff. split.
      * intros ([a1 a2 a3 a4 a5] & E & Hd). cbn in E. injection E as -> -> -> -> ->. apply Q in Hd. tauto.
      * intros H. exists (DBPair n e k'' k' q). split; [reflexivity|]. apply Q. tauto.
  - intros e k n r' l' He Hn' Ne F. destruct (N.lt_trichotomy (r + nr * l) (r' + nr * l')) as [Lt|[Eq|Lt]].
    + destruct (shared_exists r l r' l' e k n Lt He Hn' F) as (b & Hb). eexists. split; [apply (proj1 (group_intro r l r' l' b Hr (proj1 Hn') Ne)), Hb|]. reflexivity.
    + exfalso. apply code_inj in Eq; [|exact Hr|apply Hn']. destruct Eq as [-> ->]. congruence.
    + destruct (proj1 (proj2 Hn) e k n F) as (k' & F'). destruct (shared_exists r' l' r l n k' e Lt Hn' He F') as (b & Hb).
      eexists. split; [apply (proj2 (group_intro r l r' l' b Hr (proj1 Hn') Ne)), Hb|]. reflexivity.
Qed.

Theorem dist_boundaries_pair : forall r l r' l' ks ks' g, r < nr -> l < size r -> r' < nr -> l' < size r' ->
  dist_boundaries m nr size c p of os r l = Ok ks -> dist_boundaries m nr size c p of os r' l' = Ok ks' ->
  In g ks -> k_ex g = (r', l') -> exists g', In g' ks' /\ k_ex g' = (r, l) /\ k_faces g' = map flip (k_faces g).
Proof.
  intros r l r' l' ks ks' g Hr Hl Hr' Hl' E E' Hg Eg. rewrite dist_value in E, E'. injection E as <-. injection E' as <-.
  destruct (group_cases r l g Hg) as (k & b & r2 & l2 & Hkb & Ne & _ & _ & _ & _ & [(Ek & _ & -> & _)|(Ek & _ & -> & _)]);
    unfold k_ex in Eg; cbn [k_loc_ex k_sub_ex] in Eg; injection Eg as -> ->; rewrite Ek in Hkb.
  - eexists. split; [apply (proj2 (group_intro r' l' r l b Hr' Hr (not_eq_sym Ne))), Hkb|]. split; [reflexivity|]. cbn [k_faces]. rewrite map_map. reflexivity.
  - eexists. split; [apply (proj1 (group_intro r' l' r l b Hr' Hr (not_eq_sym Ne))), Hkb|]. split; [reflexivity|]. cbn [k_faces]. rewrite map_map. reflexivity.
Qed.
End Dist.

From Coq Require Import Sorted NArith List Bool Arith Lia Permutation.
From Verif Require Import Outcome ModelMesh SpecMesh LemmasMesh LemmasMesh2 LemmasMesh3 LemmasMesh4.
Import ListNotations.
Local Open Scope N_scope.

Lemma rm_emplace_new : forall (V : Type) (m : rmap V) k v, ~ In k (map fst m) ->
  Permutation (rm_emplace m k v) ((k, v) :: m).
Proof.
  intros V. induction m as [|[k' v'] m IH]; intros k v NI; cbn [rm_emplace]; [constructor; constructor|].
  destruct (key_ltb k k'); [apply Permutation_refl|].
  destruct (key_eqb_spec k k') as [->|_]; [exfalso; apply NI; left; reflexivity|].
  rewrite IH by (intros I; apply NI; right; assumption). apply perm_swap.
Qed.

(** Entries the faces contribute to the map of type code T. *)
Definition raw_entry (T : N) (e : N) (k : nat) (info : N * N) : list ((N * N) * face) :=
  if snd info =? T then [(if is_internal (snd info) then (e, fst info) else (e, N.of_nat k), (e, k))] else [].
Definition raw_entries (T : N) (t : etable) (ids : list N) : list ((N * N) * face) :=
  flat_map (fun e => match t e with
                     | Some g => flat_map (fun k => raw_entry T e k (g k)) [0; 1; 2]%nat
                     | None => [] end) ids.

Lemma raw_add_perm : forall T rb e k info l, Permutation (rb T) l -> NoDup (map fst (l ++ raw_entry T e k info)) ->
  Permutation (raw_add rb e k info T) (l ++ raw_entry T e k info).
Proof.
  intros T rb e k [nb bt] l P ND. unfold raw_add, raw_entry in *. cbn [fst snd] in *.
  rewrite (N.eqb_sym T bt). destruct (N.eqb_spec bt T) as [->|_]; [|rewrite app_nil_r; assumption].
  rewrite map_app in ND. cbn [map fst] in ND.
  rewrite rm_emplace_new.
  - rewrite P. apply Permutation_cons_append.
  - intros I. apply (Permutation_in _ (Permutation_map fst P)) in I.
    apply NoDup_remove_2 in ND. rewrite app_nil_r in ND. contradiction.
Qed.

Lemma NoDup_map_app_l : forall (A B : Type) (g : A -> B) l m, NoDup (map g (l ++ m)) -> NoDup (map g l).
Proof. intros A B g l m H. rewrite map_app in H. apply NoDup_app_inv in H. tauto. Qed.

Lemma create_raw_perm_gen : forall T t ids rb rb' l, Permutation (rb T) l ->
  ofold (fun rb e => match t e with
    | None => Throw
    | Some g => Ok (fold_left (fun rb k => raw_add rb e k (g k)) [0; 1; 2]%nat rb) end) ids rb = Ok rb' ->
  NoDup (map fst (l ++ raw_entries T t ids)) -> Permutation (rb' T) (l ++ raw_entries T t ids).
Proof.
  intros T t. induction ids as [|e ids IH]; intros rb rb' l P H ND.
  - cbn in H. injection H as <-. cbn. rewrite app_nil_r. assumption.
  - cbn [ofold] in H. unfold raw_entries in *. cbn [flat_map] in ND |- *.
    destruct (t e) as [g|] eqn:E; [|discriminate]. cbn [bind] in H.
    rewrite app_assoc in ND |- *. refine (IH _ rb' _ _ H ND).
    apply NoDup_map_app_l in ND.
    cbn [fold_left flat_map] in *. rewrite app_nil_r in *.
    rewrite !app_assoc in *.
    apply raw_add_perm; [|assumption]. apply NoDup_map_app_l in ND.
    apply raw_add_perm; [|assumption]. apply NoDup_map_app_l in ND.
    apply raw_add_perm; assumption.
Qed.

Lemma create_raw_perm : forall T t ids rb, create_raw ids t = Ok rb ->
  NoDup (map fst (raw_entries T t ids)) -> Permutation (rb T) (raw_entries T t ids).
Proof.
  intros T t ids rb H ND. exact (create_raw_perm_gen T t ids (fun _ => []) rb [] (Permutation_refl _) H ND).
Qed.

Lemma in_raw_entries : forall T t ids key f, In (key, f) (raw_entries T t ids) <->
  In (fst f) ids /\ (snd f < 3)%nat /\ exists nb, et_get t f = Some (nb, T) /\
    key = (if is_internal T then (fst f, nb) else (fst f, N.of_nat (snd f))).
Proof.
  intros T t ids key [e k]. unfold raw_entries. rewrite in_flat_map. cbn [fst snd]. split.
  - intros (e' & I & J). destruct (t e') as [g|] eqn:E; [|destruct J].
    apply in_flat_map in J as (k' & J1 & J2). unfold raw_entry in J2.
    destruct (N.eqb_spec (snd (g k')) T) as [ET|]; [|destruct J2].
    destruct J2 as [J2|[]]. injection J2 as <- <- <-. split; [assumption|].
    split; [cbn in J1; intuition lia|]. exists (fst (g k')). unfold et_get; cbn [fst snd]. rewrite E, ET.
    split; [rewrite <- ET; destruct (g k'); reflexivity | reflexivity].
  - intros (I & Hk & nb & G & ->). unfold et_get in G; cbn [fst snd] in G.
    destruct (t e) as [g|] eqn:E; [|discriminate]. injection G as G.
    exists e. split; [assumption|]. rewrite E. apply in_flat_map. exists k. split; [cbn; lia|].
    unfold raw_entry. rewrite G. cbn [fst snd]. rewrite N.eqb_refl. left; reflexivity.
Qed.

Lemma raw_entries_faces_nodup : forall T t ids, NoDup ids -> NoDup (map snd (raw_entries T t ids)).
Proof.
  intros T t ids ND. induction ids as [|e ids IH]; [constructor|].
  inversion ND as [|? ? N1 N2]; subst.
  change (raw_entries T t (e :: ids)) with
    (match t e with Some g => flat_map (fun k => raw_entry T e k (g k)) [0; 1; 2]%nat | None => [] end ++ raw_entries T t ids).
  rewrite map_app.
  assert (F : forall f, In f (map snd (raw_entries T t ids)) -> fst f <> e).
  { intros f I C. apply in_map_iff in I as ([key f'] & E & I). cbn in E; subst f'.
    apply in_raw_entries in I as (I & _). subst e. contradiction. }
  assert (H : exists ks, NoDup ks /\ map snd (match t e with Some g => flat_map (fun k => raw_entry T e k (g k)) [0; 1; 2]%nat | None => [] end) = map (fun k => (e, k)) ks).
  { destruct (t e) as [g|]; [|exists []; split; [constructor | reflexivity]].
    exists (filter (fun k => snd (g k) =? T) [0; 1; 2]%nat). split.
    - apply NoDup_filter. repeat constructor; cbn; intuition lia.
    - cbn [flat_map filter]. unfold raw_entry.
      destruct (snd (g 0%nat) =? T), (snd (g 1%nat) =? T), (snd (g 2%nat) =? T); reflexivity. }
  destruct H as (ks & NK & ->).
  induction ks as [|k ks IHk]; [apply IH; assumption|]. cbn. inversion NK; subst. constructor; [|apply IHk; assumption].
  rewrite in_app_iff. intros [I|I].
  - apply in_map_iff in I as (k' & E & I). injection E as ->. contradiction.
  - apply (F _ I). reflexivity.
Qed.

(** Interfaces created from a face table in which the faces of type T are
    paired off by a relation. *)
Section Pairing.
  Variables (T : N) (t : etable) (ids : list N) (rho : face -> face -> Prop).
  Definition is_face (f : face) : Prop := In (fst f) ids /\ (snd f < 3)%nat.
  Hypothesis TI : is_internal T = true.
  Hypothesis ND : NoDup ids.
  Hypothesis R1 : forall f nb, is_face f -> et_get t f = Some (nb, T) -> exists g, rho f g.
  Hypothesis R2 : forall f g, rho f g -> is_face f /\ et_get t f = Some (fst g, T).
  Hypothesis RS : forall f g, rho f g -> rho g f.
  Hypothesis RN : forall f g, rho f g -> fst f <> fst g.
  Hypothesis RU : forall f g f' g', rho f g -> rho f' g' -> fst f = fst f' -> fst g = fst g' -> f = f'.

  Lemma entries_in : forall key f, In (key, f) (raw_entries T t ids) <-> exists g, rho f g /\ key = (fst f, fst g).
  Proof.
    intros key f. rewrite in_raw_entries, TI. split.
    - intros (I & Hk & nb & G & ->). destruct (R1 f nb (conj I Hk) G) as (g & Hg). exists g. split; [assumption|].
      destruct (R2 f g Hg) as [_ G']. rewrite G in G'. injection G' as ->. reflexivity.
    - intros (g & Hg & ->). destruct (R2 f g Hg) as [[I Hk] G]. repeat split; auto. exists (fst g). auto.
  Qed.

  Lemma entries_keys_nodup : NoDup (map fst (raw_entries T t ids)).
  Proof.
    pose proof (raw_entries_faces_nodup T t ids ND) as NF.
    assert (U : forall k1 k2 f1 f2, In (k1, f1) (raw_entries T t ids) -> In (k2, f2) (raw_entries T t ids) -> k1 = k2 -> f1 = f2).
    { intros k1 k2 f1 f2 I1 I2 E. apply entries_in in I1 as (g1 & H1 & ->). apply entries_in in I2 as (g2 & H2 & ->).
      injection E as E1 E2. eapply RU; eassumption. }
    revert NF U. generalize (raw_entries T t ids) as l. induction l as [|[k f] l IH]; intros NF U; [constructor|].
    cbn in *. inversion NF as [|? ? N1 N2]; subst. constructor.
    - intros I. apply in_map_iff in I as ([k' f'] & E & I). cbn in E; subst k'.
      rewrite (U k k f f' (or_introl eq_refl) (or_intror I) eq_refl) in N1. apply N1. apply (in_map snd) in I. exact I.
    - apply IH; [assumption|]. intros k1 k2 f1 f2 I1 I2. apply U; auto.
  Qed.

  Theorem interfaces_pairing : forall rb, create_raw ids t = Ok rb ->
    (forall f g, In (f, g) (create_interfaces (rb T)) -> rho f g) /\
    NoDup (flat_map both (create_interfaces (rb T))) /\
    (forall f, In f (flat_map both (create_interfaces (rb T))) <-> exists g, rho f g).
  Proof.
    intros rb H. pose proof (create_raw_perm T t ids rb H entries_keys_nodup) as P.
    assert (NK : NoDup (map fst (rb T))).
    { apply (Permutation_NoDup (Permutation_sym (Permutation_map fst P))). exact entries_keys_nodup. }
    assert (IN : forall key f, In (key, f) (rb T) <-> exists g, rho f g /\ key = (fst f, fst g)).
    { intros key f. rewrite <- entries_in. split; apply Permutation_in; [exact P | apply Permutation_sym; exact P]. }
    assert (NSW : forall k, In k (map fst (rb T)) -> swap k <> k).
    { intros k I. apply in_map_iff in I as ([k' f] & E & I). cbn in E; subst k'. apply IN in I as (g & Hg & ->).
      unfold swap; cbn [fst snd]. intros C. injection C as C _. apply (RN f g Hg). auto. }
    assert (ALL : forall kv, In kv (rb T) -> mem_key (rb T) (swap (fst kv)) = true).
    { intros [k f] I. apply mem_key_spec. apply IN in I as (g & Hg & ->).
      apply in_map_iff. exists ((fst g, fst f), g). split; [reflexivity|]. apply IN. exists f. split; [apply RS; assumption | reflexivity]. }
    pose proof (create_interfaces_perm _ (rb T) NK NSW) as PI.
    assert (FA : filter (fun kv : (N * N) * face => mem_key (rb T) (swap (fst kv))) (rb T) = rb T).
    { clear -ALL. set (h := fun kv : (N * N) * face => mem_key (rb T) (swap (fst kv))) in *.
      assert (A : forall kv, In kv (rb T) -> h kv = true) by exact ALL. clearbody h. revert A.
      generalize (rb T) as l. induction l as [|kv l IH]; intros A; [reflexivity|].
      cbn. rewrite A by (left; reflexivity). f_equal. apply IH. intros; apply A; right; assumption. }
    rewrite FA in PI.
    split; [|split].
    - intros f g I. destruct (create_interfaces_pairs _ (rb T) NK f g I) as (k & K1 & K2).
      apply IN in K1 as (g0 & H0 & ->). apply IN in K2 as (f0 & H1 & E).
      unfold swap in E; cbn [fst snd] in E. injection E as E1 E2.
      assert (g0 = g) by (apply (RU g0 f g f0); auto). subst g0. assumption.
    - apply (Permutation_NoDup (Permutation_sym PI)).
      apply (Permutation_NoDup (Permutation_sym (Permutation_map snd P))). apply raw_entries_faces_nodup; assumption.
    - intros f. split.
      + intros I. apply (Permutation_in _ PI) in I. apply in_map_iff in I as ([k f'] & E & I). cbn in E; subst f'.
        apply IN in I as (g & Hg & _). exists g; assumption.
      + intros (g & Hg). apply (Permutation_in _ (Permutation_sym PI)). apply in_map_iff.
        exists ((fst f, fst g), f). split; [reflexivity|]. apply IN. exists g; auto.
  Qed.
End Pairing.

(** ** Classification never yields the plain internal code *)
Lemma seg_type_range : forall segs p0 p1 t, seg_type segs p0 p1 = Ok (Some t) ->
  In t [bt_land; bt_flow; bt_levee; bt_function; bt_outflow].
Proof.
  induction segs as [|s segs IH]; intros p0 p1 t H; [discriminate|].
  cbn [seg_type] in H. cbv zeta in H.
  repeat match type of H with
  | (if ?b then _ else _) = _ => destruct b
  | bind (of_at ?o) _ = _ => destruct o; cbn [of_at bind] in H; [|discriminate H]
  end;
  try (apply IH in H; exact H); injection H as <-; cbn; auto 10.
Qed.
Lemma get_ibtype_range : forall m p0 p1 t, get_ibtype m p0 p1 = Ok t ->
  In t [bt_land; bt_tide; bt_flow; bt_function; bt_outflow; bt_levee].
Proof.
  intros m p0 p1 t H. unfold get_ibtype in H.
  destruct (existsb _ (ad_nbdv m)); [injection H as <-; cbn; auto|].
  destruct (seg_type (ad_segs m) p0 p1) as [[s|]| |] eqn:E; cbn [bind] in H; try discriminate.
  - injection H as <-. apply seg_type_range in E. cbn in *. intuition.
  - destruct (existsb _ (ad_nbgn m)); [injection H as <-; cbn; auto|].
    destruct (is_levee_end (ad_segs m) p0 p1) as [[|]| |]; cbn [bind] in H; try discriminate.
    injection H as <-; cbn; auto.
Qed.

Lemma pair_is_sym : forall a b x y, pair_is a b x y = pair_is b a x y.
Proof. intros. unfold pair_is. rewrite (N.min_comm a b), (N.max_comm a b). reflexivity. Qed.
Lemma is_levee_end_sym : forall segs a b, is_levee_end segs a b = is_levee_end segs b a.
Proof.
  induction segs as [|s segs IH]; intros a b; [reflexivity|]. cbn [is_levee_end]. rewrite (IH a b).
  destruct (sg_type s mod 10 =? 4); [|reflexivity].
  destruct (sg_ibconn s); [|reflexivity]. cbn [of_at bind].
  destruct (hd_error (sg_nbvv s)); [|reflexivity]. cbn [of_index bind]. destruct (hd_error l); [|reflexivity]. cbn [of_index bind].
  rewrite (pair_is_sym a b). destruct (pair_is b a n n0); [reflexivity|].
  destruct (hd_error (rev (sg_nbvv s))); [|reflexivity]. cbn [of_index bind]. destruct (hd_error (rev l)); [|reflexivity].
  cbn [of_index bind]. rewrite (pair_is_sym a b). reflexivity.
Qed.
Lemma seg_type_sym : forall segs a b, seg_type segs a b = seg_type segs b a.
Proof.
  induction segs as [|s segs IH]; intros a b; [reflexivity|]. cbn [seg_type]. cbv zeta.
  rewrite (IH a b), (has_edge_sym (sg_nbvv s) a b). destruct (sg_ibconn s); [|reflexivity].
  cbn [of_at bind]. rewrite (has_edge_sym l a b). reflexivity.
Qed.
Lemma existsb_ext' : forall (A : Type) (f g : A -> bool) l, (forall x, f x = g x) -> existsb f l = existsb g l.
Proof. intros A f g l H. induction l; cbn; [reflexivity|]. rewrite H, IHl. reflexivity. Qed.
Lemma get_ibtype_sym : forall m a b, get_ibtype m a b = get_ibtype m b a.
Proof.
  intros. unfold get_ibtype.
  rewrite (existsb_ext' _ (fun l => has_edge l a b) (fun l => has_edge l b a)) by (intros; apply has_edge_sym).
  rewrite (existsb_ext' _ (fun l => has_edge l a b) (fun l => has_edge l b a)) by (intros; apply has_edge_sym).
  rewrite seg_type_sym, is_levee_end_sym. reflexivity.
Qed.

(** Maps sorted by key; the first value entered under a key stays. *)
Lemma key_ltb_irrefl : forall k, key_ltb k k = false.
Proof. intros [a b]. unfold key_ltb. cbn. rewrite !N.ltb_irrefl, andb_false_r. reflexivity. Qed.
Lemma key_ltb_trans : forall a b c, key_ltb a b = true -> key_ltb b c = true -> key_ltb a c = true.
Proof.
  intros [a1 a2] [b1 b2] [c1 c2]. unfold key_ltb. cbn. rewrite !orb_true_iff, !andb_true_iff, !N.ltb_lt, !N.eqb_eq. lia.
Qed.
Lemma key_eqb_eq : forall a b, key_eqb a b = true <-> a = b.
Proof.
  intros [a1 a2] [b1 b2]. unfold key_eqb. cbn. rewrite andb_true_iff, !N.eqb_eq. split; [intros [-> ->]; reflexivity|intros H; injection H; auto].
Qed.
Lemma key_total : forall a b, key_ltb a b = false -> key_eqb a b = false -> key_ltb b a = true.
Proof.
  intros [a1 a2] [b1 b2]. unfold key_ltb, key_eqb. cbn. rewrite orb_false_iff, !andb_false_iff, !N.ltb_ge, !N.eqb_neq, orb_true_iff, andb_true_iff, !N.ltb_lt, N.eqb_eq. lia.
Qed.
Lemma rm_emplace_keys : forall (V : Type) (m : rmap V) k v x, In x (rm_emplace m k v) -> x = (k, v) \/ In x m.
Proof.
  intros V. induction m as [|[k' v'] m IH]; intros k v x H; cbn [rm_emplace] in H.
  - destruct H as [<-|[]]. left. reflexivity.
  - destruct (key_ltb k k'); [destruct H as [<-|H]; [left; reflexivity|right; exact H]|]. destruct (key_eqb k k'); [right; exact H|].
    destruct H as [<-|H]; [right; left; reflexivity|]. destruct (IH _ _ _ H) as [->|H']; [left; reflexivity|right; right; exact H'].
Qed.
Lemma rm_find_below : forall (V : Type) (m : rmap V) k, Forall (fun b => key_ltb k (fst b) = true) m -> rm_find m k = None.
Proof.
  intros V. induction m as [|[k' v'] m IH]; intros k H; [reflexivity|]. apply Forall_cons_iff in H as [H1 H2]. cbn in *.
  destruct (key_eqb k k') eqn:E; [|apply IH; exact H2]. apply key_eqb_eq in E. subst. rewrite key_ltb_irrefl in H1. discriminate.
Qed.
Lemma rm_emplace_first : forall (V : Type) (m : rmap V) k v, key_sorted m -> key_sorted (rm_emplace m k v) /\
  forall k', rm_find (rm_emplace m k v) k' = if key_eqb k' k then match rm_find m k with Some old => Some old | None => Some v end else rm_find m k'.
Proof.
  intros V. induction m as [|[k1 v1] m IH]; intros k v S; cbn [rm_emplace].
  - split; [repeat constructor|]. intros k'. reflexivity.
  - apply StronglySorted_inv in S as [S F]. destruct (key_ltb k k1) eqn:L.
    + assert (F' : Forall (fun b => key_ltb k (fst b) = true) ((k1, v1) :: m)).
      { constructor; [exact L|]. revert F. apply Forall_impl. intros b Hb. exact (key_ltb_trans _ _ _ L Hb). }
      split; [constructor; [constructor; assumption|exact F']|]. intros k'. rewrite (rm_find_below _ _ _ F'). reflexivity.
    + destruct (key_eqb k k1) eqn:E.
      * split; [constructor; assumption|]. intros k'. apply key_eqb_eq in E. subst k1. cbn [rm_find]. rewrite (proj2 (key_eqb_eq k k) eq_refl).
        destruct (key_eqb k' k); reflexivity.
      * destruct (IH k v S) as [S' R]. split.
        -- constructor; [exact S'|]. apply Forall_forall. intros x Hx. destruct (rm_emplace_keys _ _ _ _ _ Hx) as [->|Hx']; [exact (key_total _ _ L E)|].
           rewrite Forall_forall in F. apply F. exact Hx'.
        -- intros k'. cbn [rm_find]. rewrite E. destruct (key_eqb k' k1) eqn:E1; [|apply R].
           destruct (key_eqb k' k) eqn:E2; [|reflexivity]. apply key_eqb_eq in E1. apply key_eqb_eq in E2. subst. rewrite (proj2 (key_eqb_eq _ _) eq_refl) in E. discriminate.
Qed.

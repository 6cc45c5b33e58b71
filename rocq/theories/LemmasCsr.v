From Coq Require Import ZArith NArith List Bool Arith Reals Sorted Permutation Lia Lra.
From Verif Require Import Num Outcome ModelMesh ModelPart SpecPart LemmasPart.
Import ListNotations.

(** ** Adjacency sets *)
Definition nbrs (m : list (N * list N)) (s : N) : list N := match afind m s with Some l => l | None => [] end.

Lemma set_add_spec : forall m s d, NoDup (map fst m) -> (forall x, NoDup (nbrs m x)) ->
  NoDup (map fst (set_add m s d)) /\ (forall x, NoDup (nbrs (set_add m s d) x)) /\
  forall x y, In y (nbrs (set_add m s d) x) <-> In y (nbrs m x) \/ (x = s /\ y = d).
Proof.
  intros m s d Hn Hr. unfold set_add. destruct (afind m s) as [l|] eqn:E.
  - destruct (existsb (N.eqb d) l) eqn:Ex.
    + apply existsb_N in Ex. split; [assumption|]. split; [assumption|]. intros x y. split; [auto|]. intros [H|[-> ->]]; [exact H|].
      unfold nbrs. rewrite E. exact Ex.
    + assert (ND : NoDup (l ++ [d])).
      { apply NoDup_snoc; [specialize (Hr s); unfold nbrs in Hr; rewrite E in Hr; exact Hr|].
        intros K. apply existsb_N in K. congruence. }
      split; [apply aset_NoDup, Hn|]. unfold nbrs. split.
      * intros x. rewrite aset_find. destruct (x =? s)%N; [exact ND | apply Hr].
      * intros x y. rewrite aset_find. destruct (N.eqb_spec x s) as [->|n].
        -- rewrite E, in_app_iff. cbn. intuition.
        -- intuition.
  - assert (NK : ~ In s (map fst m)) by (apply afind_None, E).
    split; [rewrite map_app; apply NoDup_snoc; assumption|]. unfold nbrs.
    assert (F : forall x, afind (m ++ [(s, [d])]) x = if (x =? s)%N then Some [d] else afind m x).
    { intros x. rewrite afind_app. cbn. destruct (N.eqb_spec x s) as [->|]; [rewrite E; reflexivity|]. destruct (afind m x); reflexivity. }
    split.
    + intros x. rewrite F. destruct (x =? s)%N; [repeat constructor; intros [] | apply Hr].
    + intros x y. rewrite F. destruct (N.eqb_spec x s) as [->|n].
      * rewrite E. cbn. intuition.
      * intuition.
Qed.

Lemma edge_sets_spec : forall (ew : list ((N * N) * R)),
  NoDup (map fst (edge_sets ew)) /\ (forall x, NoDup (nbrs (edge_sets ew) x)) /\
  forall s d, In d (nbrs (edge_sets ew) s) <-> adjacent ew s d.
Proof.
  intros ew. unfold edge_sets.
  set (f := fun (m : list (N * list N)) (e : (N * N) * R) => set_add (set_add m (fst (fst e)) (snd (fst e))) (snd (fst e)) (fst (fst e))).
  assert (G : forall l m, NoDup (map fst m) -> (forall x, NoDup (nbrs m x)) ->
    NoDup (map fst (fold_left f l m)) /\ (forall x, NoDup (nbrs (fold_left f l m) x)) /\
    forall s d, In d (nbrs (fold_left f l m) s) <-> In d (nbrs m s) \/ adjacent l s d).
  { induction l as [|[[a b] w] l IH]; intros m Hn Hr; cbn [fold_left].
    - split; [exact Hn|]. split; [exact Hr|]. intros s d. unfold adjacent. cbn. tauto.
    - unfold f at 2 4 6. cbn [fst snd].
      destruct (set_add_spec m a b Hn Hr) as (N1 & R1 & I1).
      destruct (set_add_spec _ b a N1 R1) as (N2 & R2 & I2).
      destruct (IH _ N2 R2) as (N3 & R3 & I3). split; [exact N3|]. split; [exact R3|].
      intros s d. rewrite I3, I2, I1. unfold adjacent. cbn [map fst In].
      split.
      + intros [[[H|[-> ->]]|[-> ->]]|[H|H]]; tauto.
      + intros [H|[[H|H]|[H|H]]]; try tauto.
        * injection H as <- <-. tauto.
        * injection H as <- <-. tauto. }
  destruct (G ew [] (NoDup_nil _) (fun x => NoDup_nil _)) as (A & B & C). split; [exact A|]. split; [exact B|].
  intros s d. rewrite C. cbn. tauto.
Qed.

Lemma afind_map : forall (V W : Type) (f : V -> W) (m : list (N * V)) k,
  afind (map (fun p => (fst p, f (snd p))) m) k = option_map f (afind m k).
Proof. intros V W f. induction m as [|[j v] m IH]; intros k; cbn; [reflexivity|]. destruct (k =? j)%N; [reflexivity | apply IH]. Qed.

Lemma row_spec : forall (nw : list (N * list R)) ew c, csr_make nw ew = Ok c -> forall s,
  StronglySorted N.lt (row c s) /\ forall d, In d (row c s) <-> adjacent ew s d.
Proof.
  intros nw ew c H s. unfold csr_make in H. destruct (forallb _ nw); [|discriminate]. injection H as <-.
  destruct (edge_sets_spec ew) as (_ & ND & I). unfold row. cbn [c_edges]. rewrite afind_map.
  specialize (ND s). specialize (I s). unfold nbrs in ND, I.
  destruct (afind (edge_sets ew) s) as [l|]; cbn [option_map].
  - split; [apply isort_lt, ND|]. intros d. rewrite isort_In. apply I.
  - split; [constructor | exact I].
Qed.

(** ** Offsets *)
Fixpoint offsets (a : nat) (ls : list nat) : list nat := match ls with [] => [] | x :: r => (a + x)%nat :: offsets (a + x) r end.
Lemma xadj_offsets : forall (c : csr R), xadj c = 0%nat :: offsets 0 (map (fun s => length (row c s)) (c_nodes c)).
Proof.
  intros c. unfold xadj.
  assert (G : forall ids r a, fold_left (fun r id => r ++ [(last r 0 + length (row c id))%nat]) ids (r ++ [a]) = r ++ [a] ++ offsets a (map (fun s => length (row c s)) ids)).
  { induction ids as [|x ids IH]; intros r a; cbn [fold_left map offsets]; [rewrite ?app_nil_r; reflexivity|].
    rewrite last_last. rewrite (IH (r ++ [a])). rewrite <- app_assoc. reflexivity. }
  apply (G (c_nodes c) [] 0%nat).
Qed.
Lemma offsets_length : forall ls a, length (offsets a ls) = length ls.
Proof. induction ls; intros; cbn; [reflexivity | rewrite IHls; reflexivity]. Qed.
Lemma offsets_nth : forall ls a i, (i < length ls)%nat -> nth i (offsets a ls) 0%nat = (a + fold_right plus 0 (firstn (S i) ls))%nat.
Proof.
  induction ls as [|x ls IH]; intros a i H; cbn in H; [lia|]. destruct i as [|i].
  - cbn. lia.
  - cbn [offsets nth]. rewrite IH by lia. cbn [firstn fold_right]. destruct ls; cbn in *; lia.
Qed.
Lemma xs_nth : forall ls i, (i <= length ls)%nat -> nth i (0%nat :: offsets 0 ls) 0%nat = fold_right plus 0%nat (firstn i ls).
Proof.
  intros ls i H. destruct i as [|i]; [reflexivity|]. cbn [nth]. rewrite offsets_nth by lia. reflexivity.
Qed.

Lemma concat_slice : forall (A : Type) (ls : list (list A)) i l, nth_error ls i = Some l ->
  slice (concat ls) (fold_right plus 0%nat (firstn i (map (@length A) ls))) (fold_right plus 0%nat (firstn (S i) (map (@length A) ls))) = l /\
  (fold_right plus 0%nat (firstn i (map (@length A) ls)) <= fold_right plus 0%nat (firstn (S i) (map (@length A) ls)))%nat.
Proof.
  intros A. induction ls as [|x ls IH]; intros i l H; [destruct i; discriminate|].
  destruct i as [|i]; cbn in H.
  - injection H as ->. cbn. unfold slice. cbn [skipn]. rewrite Nat.sub_0_r, Nat.add_0_r. split; [|lia].
    rewrite firstn_app, Nat.sub_diag, firstn_all. cbn. apply app_nil_r.
  - destruct (IH i l H) as [E L]. cbn [map firstn fold_right concat]. cbn [firstn] in E, L.
    set (u := fold_right plus 0%nat (firstn i (map (@length A) ls))) in *.
    destruct (map (@length A) ls) as [|y ys] eqn:M; [destruct ls; [destruct i; discriminate H | discriminate M]|].
    set (w := fold_right plus 0%nat (y :: firstn i ys)) in *.
    split; [|lia]. unfold slice in *. replace (length x + w - (length x + u))%nat with (w - u)%nat by lia.
    rewrite skipn_app, skipn_all2 by lia. replace (length x + u - length x)%nat with u by lia. exact E.
Qed.

Lemma sum_lengths : forall (A : Type) (ls : list (list A)), fold_right plus 0%nat (map (@length A) ls) = length (concat ls).
Proof. intros A. induction ls as [|x ls IH]; cbn; [reflexivity|]. rewrite app_length, IH. reflexivity. Qed.

(** ** Indices *)
Lemma index_of_nth : forall l x i, index_of l x = Some i -> nth_error l i = Some x.
Proof.
  induction l as [|y l IH]; intros x i H; [discriminate|]. cbn in H. destruct (N.eqb_spec x y) as [->|].
  - injection H as <-. reflexivity.
  - destruct (index_of l x) as [j|] eqn:E; [|discriminate]. injection H as <-. cbn. apply IH, E.
Qed.
Lemma nth_index_of : forall l x i, NoDup l -> nth_error l i = Some x -> index_of l x = Some i.
Proof.
  induction l as [|y l IH]; intros x i D H; [destruct i; discriminate|]. inversion D as [|? ? D1 D2]; subst. cbn.
  destruct i as [|i]; cbn in H.
  - injection H as ->. rewrite N.eqb_refl. reflexivity.
  - destruct (N.eqb_spec x y) as [->|]; [exfalso; apply D1; apply nth_error_In in H; exact H|].
    rewrite (IH x i D2 H). reflexivity.
Qed.
Lemma index_of_In : forall l x, In x l -> exists i, index_of l x = Some i.
Proof.
  induction l as [|y l IH]; intros x H; [destruct H|]. cbn. destruct (N.eqb_spec x y) as [->|]; [eexists; reflexivity|].
  destruct H as [H|H]; [congruence|]. destruct (IH x H) as [i ->]. eexists; reflexivity.
Qed.
Lemma sorted_nth : forall l i j x y, StronglySorted N.lt l -> nth_error l i = Some x -> nth_error l j = Some y -> (x < y)%N -> (i < j)%nat.
Proof.
  induction l as [|z l IH]; intros i j x y S Hi Hj L; [destruct i; discriminate|]. inversion S as [|? ? S1 S2]; subst.
  rewrite Forall_forall in S2. destruct i as [|i], j as [|j]; cbn in Hi, Hj.
  - injection Hi as ->. injection Hj as ->. lia.
  - lia.
  - injection Hj as ->. apply nth_error_In in Hi. specialize (S2 x Hi). lia.
  - apply -> Nat.succ_lt_mono. apply (IH i j x y); assumption.
Qed.

Definition idx (ns : list N) (d : N) : nat := match index_of ns d with Some i => i | None => 0%nat end.

Lemma adj_value : forall (c : csr R), (forall s d, In s (c_nodes c) -> In d (row c s) -> In d (c_nodes c)) ->
  adj c = Ok (concat (map (fun s => map (idx (c_nodes c)) (row c s)) (c_nodes c))).
Proof.
  intros c H. unfold adj.
  assert (G : forall l res, (forall d, In d l -> In d (c_nodes c)) ->
    ofold (fun res d => do i <- of_at (index_of (c_nodes c) d) ; Ok (res ++ [i])) l res = Ok (res ++ map (idx (c_nodes c)) l)).
  { induction l as [|d l IH]; intros res Hl; cbn [ofold map]; [rewrite app_nil_r; reflexivity|].
    destruct (index_of_In (c_nodes c) d (Hl d (or_introl eq_refl))) as [i E]. unfold idx at 1. rewrite E. cbn [of_at bind].
    rewrite IH by (intros; apply Hl; right; assumption). rewrite <- app_assoc. reflexivity. }
  rewrite G.
  - rewrite flat_map_concat_map, concat_map, map_map. reflexivity.
  - intros d Hd. apply in_flat_map in Hd. destruct Hd as (s & Hs & Hd). apply (H s d Hs Hd).
Qed.

Lemma map_idx_sorted : forall ns l, StronglySorted N.lt ns -> StronglySorted N.lt l -> (forall d, In d l -> In d ns) ->
  StronglySorted lt (map (idx ns) l).
Proof.
  intros ns l Sn. induction l as [|d l IH]; intros Sl Hl; cbn; constructor.
  - inversion Sl; subst. apply IH; [assumption | intros; apply Hl; right; assumption].
  - inversion Sl as [|? ? S1 S2]; subst. rewrite Forall_forall in *. intros j Hj. apply in_map_iff in Hj.
    destruct Hj as (e & <- & He). specialize (S2 e He).
    destruct (index_of_In ns d (Hl d (or_introl eq_refl))) as [i Ei].
    destruct (index_of_In ns e (Hl e (or_intror He))) as [k Ek]. unfold idx. rewrite Ei, Ek.
    apply (sorted_nth ns i k d e Sn); [apply index_of_nth, Ei | apply index_of_nth, Ek | exact S2].
Qed.

(** ** Weights *)
Lemma stored_pfind : forall ew s d, NoDup (map fst ew) ->
  stored ew s d = match pfind ew (s, d) with Some w => w | None => 0%R end.
Proof.
  induction ew as [|[[a b] w] ew IH]; intros s d H; [reflexivity|]. inversion H as [|? ? H1 H2]; subst.
  cbn [stored fold_right fst snd pfind]. fold (stored ew s d).
  destruct (pair_eqb_spec (s, d) (a, b)) as [E|n].
  - injection E as -> ->. destruct (N.eq_dec a a); [|contradiction]. destruct (N.eq_dec b b); [|contradiction].
    rewrite IH by assumption. assert (pfind ew (a, b) = None) as -> by (apply pfind_None; exact H1). lra.
  - destruct (N.eq_dec a s); [destruct (N.eq_dec b d)|]; [subst; contradiction | apply IH; assumption | apply IH; assumption].
Qed.
Lemma edge_wgt_total : forall c s d, NoDup (map fst (c_ew c)) -> edge_wgt c s d = (stored (c_ew c) s d + stored (c_ew c) d s)%R.
Proof.
  intros c s d H. unfold edge_wgt. rewrite !stored_pfind by assumption. num_R.
  destruct (pfind (c_ew c) (s, d)), (pfind (c_ew c) (d, s)); lra.
Qed.

Lemma firstn_skipn_map : forall (A B : Type) (f : A -> B) l a b, slice (map f l) a b = map f (slice l a b).
Proof. intros. unfold slice. rewrite skipn_map, firstn_map. reflexivity. Qed.

Theorem csr_make_graph : forall (nw : list (N * list R)) (ew : list ((N * N) * R)) c,
  csr_make nw ew = Ok c -> NoDup (map fst nw) -> NoDup (map fst ew) ->
  (forall a b, In (a, b) (map fst ew) -> In a (map fst nw) /\ In b (map fst nw)) ->
  StronglySorted N.lt (c_nodes c) /\ (forall x, In x (c_nodes c) <-> In x (map fst nw)) /\
  exists av, adj c = Ok av /\ csr_graph ew (c_nodes c) (xadj c) av (edge_wgts c).
Proof.
  intros nw ew c H Hn He Hc. pose proof (row_spec nw ew c H) as RS.
  assert (CN : c_nodes c = isort (map fst nw)) by (unfold csr_make in H; destruct (forallb _ nw); [|discriminate]; injection H as <-; reflexivity).
  assert (CE : c_ew c = ew) by (unfold csr_make in H; destruct (forallb _ nw); [|discriminate]; injection H as <-; reflexivity).
  assert (SN : StronglySorted N.lt (c_nodes c)) by (rewrite CN; apply isort_lt, Hn).
  assert (MN : forall x, In x (c_nodes c) <-> In x (map fst nw)) by (intros x; rewrite CN; apply isort_In).
  split; [exact SN|]. split; [exact MN|].
  assert (RN : forall s d, In d (row c s) -> In d (c_nodes c)).
  { intros s d Hd. apply RS in Hd. apply MN. destruct Hd as [Hd|Hd]; apply Hc in Hd; tauto. }
  rewrite adj_value by (intros s d _; apply RN). eexists. split; [reflexivity|].
  set (ns := c_nodes c) in *.
  set (rows := map (fun s => map (idx ns) (row c s)) ns).
  assert (X : xadj c = 0%nat :: offsets 0 (map (@length nat) rows)).
  { rewrite xadj_offsets. unfold rows. rewrite map_map. f_equal. f_equal. apply map_ext. intros s. rewrite map_length. reflexivity. }
  assert (XW : xadj c = 0%nat :: offsets 0 (map (@length R) (map (fun s => map (edge_wgt c s) (row c s)) ns))).
  { rewrite xadj_offsets. rewrite map_map. f_equal. f_equal. apply map_ext. intros s. rewrite map_length. reflexivity. }
  assert (WV : edge_wgts c = concat (map (fun s => map (edge_wgt c s) (row c s)) ns)) by (unfold edge_wgts; rewrite flat_map_concat_map; reflexivity).
  assert (LR : length rows = length ns) by (unfold rows; apply map_length).
  unfold csr_graph. split; [rewrite X; cbn; rewrite offsets_length, map_length, LR; reflexivity|].
  split; [rewrite X; reflexivity|]. split.
  { rewrite X. rewrite xs_nth by (rewrite map_length; lia). rewrite <- LR, <- (map_length (@length nat) rows), firstn_all. apply sum_lengths. }
  split.
  { rewrite WV, <- !sum_lengths. unfold rows. rewrite !map_map. f_equal. apply map_ext. intros s. rewrite !map_length. reflexivity. }
  intros i s Hi. cbv zeta.
  assert (HL : (i < length ns)%nat) by (apply nth_error_Some; rewrite Hi; discriminate).
  assert (Hr : nth_error rows i = Some (map (idx ns) (row c s))) by (unfold rows; rewrite nth_error_map, Hi; reflexivity).
  assert (Hw : nth_error (map (fun s => map (edge_wgt c s) (row c s)) ns) i = Some (map (edge_wgt c s) (row c s))) by (rewrite nth_error_map, Hi; reflexivity).
  destruct (concat_slice nat rows i _ Hr) as [E1 L1].
  destruct (concat_slice R _ i _ Hw) as [E2 L2].
  assert (A1 : nth i (xadj c) 0%nat = fold_right plus 0%nat (firstn i (map (@length nat) rows))) by (rewrite X; apply xs_nth; rewrite map_length; lia).
  assert (B1 : nth (S i) (xadj c) 0%nat = fold_right plus 0%nat (firstn (S i) (map (@length nat) rows))) by (rewrite X; apply xs_nth; rewrite map_length; lia).
  assert (A2 : nth i (xadj c) 0%nat = fold_right plus 0%nat (firstn i (map (@length R) (map (fun s => map (edge_wgt c s) (row c s)) ns)))) by (rewrite XW; apply xs_nth; rewrite !map_length; lia).
  assert (B2 : nth (S i) (xadj c) 0%nat = fold_right plus 0%nat (firstn (S i) (map (@length R) (map (fun s => map (edge_wgt c s) (row c s)) ns)))) by (rewrite XW; apply xs_nth; rewrite !map_length; lia).
  rewrite <- A1, <- B1 in E1, L1. rewrite <- A2, <- B2 in E2.
  split; [exact L1|]. rewrite WV, E1, E2.
  split; [apply map_idx_sorted; [exact SN | apply RS | intros d; apply RN]|].
  split.
  - intros j. rewrite in_map_iff. split.
    + intros (d & <- & Hd). exists d. destruct (index_of_In ns d (RN s d Hd)) as [k Ek]. unfold idx. rewrite Ek.
      split; [apply index_of_nth, Ek | apply RS, Hd].
    + intros (d & Hj & Hd). exists d. split; [|apply RS, Hd]. unfold idx. rewrite (nth_index_of ns d j); [reflexivity | apply sorted_NoDup, SN | exact Hj].
  - assert (Hd : forall d, In d (row c s) -> In d ns) by (intros d; apply RN). revert Hd. generalize (row c s). clear - SN He CE.
    induction l as [|d l IH]; intros Hd; cbn [map]; constructor.
    + intros d' E. destruct (index_of_In ns d (Hd d (or_introl eq_refl))) as [k Ek]. unfold idx in E. rewrite Ek in E.
      apply index_of_nth in Ek. rewrite Ek in E. injection E as <-. rewrite edge_wgt_total by (rewrite CE; exact He). rewrite CE. reflexivity.
    + apply IH. intros; apply Hd; right; assumption.
Qed.

(** Node weights in node order. *)
Theorem csr_node_wgts : forall (nw : list (N * list R)) (ew : list ((N * N) * R)) c,
  csr_make nw ew = Ok c -> NoDup (map fst nw) ->
  exists ws, node_wgts c = Ok (concat ws) /\ Forall2 (fun id w => In (id, w) nw) (c_nodes c) ws /\ Forall (fun w => length w = c_ncon c) ws.
Proof.
  intros nw ew c H Hn. unfold csr_make in H. destruct (forallb _ nw) eqn:F; [|discriminate].
  set (nc := match nw with [] => 0%nat | x :: _ => length (snd x) end) in *.
  rewrite forallb_forall in F. injection H as <-. unfold node_wgts. cbn [c_nodes c_nw c_ncon].
  assert (I : forall (w : list R) n res, (n <= length w)%nat ->
    ofold (fun res k => do v <- of_at (nth_error w k) ; Ok (res ++ [v])) (seq 0 n) res = Ok (res ++ firstn n w)).
  { intros w n res. induction n as [|n IH]; intros L.
    - cbn. rewrite app_nil_r. reflexivity.
    - rewrite seq_S, ofold_app, IH by lia. cbn [bind ofold plus].
      destruct (nth_error w n) as [v|] eqn:E; [|apply nth_error_None in E; lia]. cbn [of_at bind].
      rewrite <- app_assoc. do 2 f_equal.
      rewrite <- (firstn_skipn n w) at 2. rewrite firstn_app, firstn_length, Nat.min_l by lia.
      replace (S n - n)%nat with 1%nat by lia. rewrite firstn_firstn, Nat.min_r by lia. f_equal.
      clear - E. revert n E. induction w as [|x w IH]; intros n E; destruct n as [|n]; try discriminate E; cbn in *; [injection E as ->; reflexivity | apply IH, E]. }
  assert (G : forall ids res, (forall x, In x ids -> In x (map fst nw)) -> exists ws,
    ofold (fun res id => do w <- of_at (afind nw id) ;
      ofold (fun res k => do v <- of_at (nth_error w k) ; Ok (res ++ [v])) (seq 0 nc) res) ids res = Ok (res ++ concat ws) /\
    Forall2 (fun id w => In (id, w) nw) ids ws /\ Forall (fun w => length w = nc) ws).
  { induction ids as [|x ids IH]; intros res Hx.
    - exists []. cbn. rewrite app_nil_r. repeat constructor.
    - destruct (afind_keys nw x (Hx x (or_introl eq_refl))) as [w E]. cbn [ofold]. rewrite E. cbn [of_at bind].
      assert (L : length w = nc) by (apply afind_In in E; specialize (F _ E); apply Nat.eqb_eq in F; exact F).
      rewrite I by lia. cbn [bind]. destruct (IH (res ++ firstn nc w)) as (ws & -> & F2 & F3); [intros; apply Hx; right; assumption|].
      exists (w :: ws). rewrite <- app_assoc. cbn [concat]. rewrite <- L at 1. rewrite firstn_all. split; [reflexivity|].
      split; constructor; try assumption. apply afind_In, E. }
  destruct (G (isort (map fst nw)) []) as (ws & E & A & B); [intros x; apply isort_In|]. exists ws. auto.
Qed.

(** Layout and exchange of message buffers. *)
From Coq Require Import ZArith NArith List Bool Arith Permutation Lia Reals Lra.
From Verif Require Import Num Outcome ModelComm SpecComm LemmasPart.
Import ListNotations.
Open Scope nat_scope.

Lemma increments_capacity : forall s g, increments s g = map (fun k => capacity s k g) (comms s).
Proof. intros [] g; cbn [increments comms map capacity]; repeat (apply f_equal2; [lia|]); reflexivity. Qed.

Lemma total_app : forall s k a b, total s k (a ++ b) = (total s k a + total s k b)%N.
Proof. induction a as [|g a IH]; intros b; cbn; [reflexivity|]. rewrite IH. lia. Qed.

Lemma add_all_map : forall (A : Type) (f g : A -> N) l, add_all (map f l) (map g l) = map (fun k => w32 (f k + g k)) l.
Proof. intros A f g l. unfold add_all. induction l as [|a l IH]; cbn; [reflexivity|]. rewrite IH. reflexivity. Qed.

Lemma fits_prefix : forall s a b, fits s (a ++ b) -> fits s a.
Proof. intros s a b H k Hk. specialize (H k Hk). rewrite total_app in H. lia. Qed.

Lemma layout_eq : forall s ngps, fits s ngps ->
  layout s ngps = (map (fun i => map (fun k => total s k (firstn i ngps)) (comms s)) (seq 0 (length ngps)),
                   map (fun k => total s k ngps) (comms s)).
Proof.
  intros s. induction ngps as [|g ngps IH] using rev_ind; intros F.
  - destruct s; reflexivity.
  - unfold layout in *. rewrite fold_left_app. rewrite (IH (fits_prefix _ _ _ F)). cbn [fold_left]. unfold comm_buffer_offsets. cbn [fst snd].
    rewrite increments_capacity, add_all_map. rewrite app_length. cbn [length]. rewrite Nat.add_1_r, seq_S, map_app. f_equal.
    + f_equal.
      * apply map_ext_in. intros i Hi. apply in_seq in Hi. apply map_ext. intros k. rewrite firstn_app.
        replace (i - length ngps) with 0 by lia. rewrite firstn_O, app_nil_r. reflexivity.
      * cbn [map Nat.add]. apply f_equal2; [|reflexivity]. apply map_ext. intros k. rewrite firstn_app, Nat.sub_diag, firstn_O, app_nil_r, firstn_all. reflexivity.
    + apply map_ext_in. intros k Hk. specialize (F k Hk). rewrite total_app in *. cbn [total] in *. rewrite N.add_0_r in *.
      unfold w32. apply N.mod_small. exact F.
Qed.

Lemma starts_iff : forall s ngps c i a, fits s ngps -> starts s ngps c i a <->
  exists k, nth_error (comms s) c = Some k /\ i < length ngps /\ a = total s k (firstn i ngps).
Proof.
  intros s ngps c i a F. unfold starts. rewrite layout_eq by exact F. cbn [fst]. split.
  - intros (o & Ho & Ha). rewrite nth_error_map in Ho. destruct (nth_error (seq 0 (length ngps)) i) as [x|] eqn:E; [|discriminate].
    assert (Hi : i < length ngps) by (rewrite <- (seq_length (length ngps) 0); apply nth_error_Some; congruence).
    rewrite (nth_error_nth' _ 0) in E by (rewrite seq_length; exact Hi). rewrite seq_nth in E by exact Hi. injection E as <-.
    cbn in Ho. injection Ho as <-. rewrite nth_error_map in Ha. destruct (nth_error (comms s) c) as [k|]; [|discriminate].
    cbn in Ha. injection Ha as <-. exists k. auto.
  - intros (k & Hk & Hi & ->). eexists. split.
    + rewrite nth_error_map, (nth_error_nth' _ 0) by (rewrite seq_length; exact Hi). rewrite seq_nth by exact Hi. reflexivity.
    + cbn. rewrite nth_error_map, Hk. reflexivity.
Qed.

Lemma firstn_split : forall (A : Type) (l : list A) i g, nth_error l i = Some g -> firstn (S i) l = firstn i l ++ [g].
Proof. induction l as [|a l IH]; intros [|i] g H; cbn in *; try discriminate; [congruence|]. f_equal. apply IH. exact H. Qed.

Lemma total_S : forall s k ngps i g, nth_error ngps i = Some g ->
  total s k (firstn (S i) ngps) = (total s k (firstn i ngps) + capacity s k g)%N.
Proof. intros s k ngps i g H. rewrite (firstn_split _ _ _ _ H), total_app. cbn [total]. lia. Qed.

Lemma total_mono : forall s k ngps i j, i <= j -> (total s k (firstn i ngps) <= total s k (firstn j ngps))%N.
Proof.
  intros s k ngps i j H. replace (firstn j ngps) with (firstn i ngps ++ firstn (j - i) (skipn i ngps)).
  - rewrite total_app. lia.
  - replace j with (i + (j - i)) at 2 by lia. rewrite <- (firstn_skipn i ngps) at 3. rewrite firstn_app, firstn_firstn, firstn_length.
    f_equal.
    + f_equal. lia.
    + destruct (Nat.le_gt_cases i (length ngps)).
      * f_equal. lia.
      * rewrite skipn_all2 by lia. rewrite !firstn_nil. reflexivity.
Qed.

Lemma layout_regions : forall s ngps c k, fits s ngps -> nth_error (comms s) c = Some k ->
  nth_error (snd (layout s ngps)) c = Some (total s k ngps) /\
  (forall i g, nth_error ngps i = Some g -> exists a, starts s ngps c i a /\ (a + capacity s k g <= total s k ngps)%N) /\
  (forall i j g a b, i < j -> nth_error ngps i = Some g -> starts s ngps c i a -> starts s ngps c j b -> (a + capacity s k g <= b)%N).
Proof.
  intros s ngps c k F Hk. split; [|split].
  - rewrite layout_eq by exact F. cbn. rewrite nth_error_map, Hk. reflexivity.
  - intros i g Hi. exists (total s k (firstn i ngps)). assert (i < length ngps) by (apply nth_error_Some; congruence). split.
    + apply starts_iff; [exact F|]. exists k. auto.
    + rewrite <- (total_S _ _ _ _ _ Hi). rewrite <- (firstn_all ngps) at 2. apply total_mono. lia.
  - intros i j g a b Hij Hi Ha Hb. apply starts_iff in Ha; [|exact F]. apply starts_iff in Hb; [|exact F].
    destruct Ha as (k1 & H1 & _ & ->). destruct Hb as (k2 & H2 & _ & ->). assert (k1 = k) by congruence. assert (k2 = k) by congruence. subst.
    rewrite <- (total_S _ _ _ _ _ Hi). apply total_mono. lia.
Qed.

(** ** One buffer *)
Section One.
  Context {T : Type}.

  Lemma nth_error_firstn : forall (l : list T) n j, nth_error (firstn n l) j = if j <? n then nth_error l j else None.
  Proof.
    induction l as [|a l IH]; intros n j; [rewrite firstn_nil; destruct (j <? n); destruct j; reflexivity|].
    destruct n; [destruct j; reflexivity|]. destruct j; [reflexivity|]. cbn [firstn nth_error]. rewrite IH. reflexivity.
  Qed.
  Lemma nth_error_skipn : forall (l : list T) n j, nth_error (skipn n l) j = nth_error l (n + j).
  Proof. induction l as [|a l IH]; intros [|n] j; cbn; auto. destruct j; reflexivity. Qed.

  Lemma write_at_ok : forall (buf : list T) off m, off + length m <= length buf -> exists buf',
    write_at buf off m = Ok buf' /\ length buf' = length buf /\
    forall j, nth_error buf' j = if (off <=? j) && (j <? off + length m) then nth_error m (j - off) else nth_error buf j.
  Proof.
    intros buf off m H. unfold write_at. apply Nat.leb_le in H. rewrite H. apply Nat.leb_le in H. eexists. split; [reflexivity|]. split.
    - rewrite !app_length, firstn_length, skipn_length. lia.
    - intros j. assert (E : length (firstn off buf) = off) by (rewrite firstn_length; lia).
      destruct (off <=? j) eqn:A; cbn [andb].
      + apply Nat.leb_le in A. rewrite nth_error_app2 by lia. rewrite E. destruct (j <? off + length m) eqn:B.
        * apply Nat.ltb_lt in B. apply nth_error_app1. lia.
        * apply Nat.ltb_ge in B. rewrite nth_error_app2 by lia. rewrite nth_error_skipn. f_equal. lia.
      + apply Nat.leb_gt in A. rewrite nth_error_app1 by lia. rewrite nth_error_firstn. apply Nat.ltb_lt in A. rewrite A. reflexivity.
  Qed.

  Lemma read_at_ok : forall (buf : list T) off n, off + n <= length buf -> exists m,
    read_at buf off n = Ok m /\ length m = n /\ forall j, j < n -> nth_error m j = nth_error buf (off + j).
  Proof.
    intros buf off n H. unfold read_at. apply Nat.leb_le in H. rewrite H. apply Nat.leb_le in H. eexists. split; [reflexivity|]. split.
    - rewrite firstn_length, skipn_length. lia.
    - intros j Hj. rewrite nth_error_firstn. apply Nat.ltb_lt in Hj. rewrite Hj. apply nth_error_skipn.
  Qed.
End One.

(** ** All faces *)
Section All.
  Context {T : Type} {NT : Num T}.
  Variables (s : scheme) (ngps : list N) (c : nat) (k : comm) (msg : nat -> list T).
  Hypothesis F : fits s ngps.
  Hypothesis Hk : nth_error (comms s) c = Some k.
  Hypothesis Hm : forall i g, nth_error ngps i = Some g -> (N.of_nat (length (msg i)) <= capacity s k g)%N.

  Definition start (i : nat) : nat := N.to_nat (total s k (firstn i ngps)).

  Lemma offs_nth : forall i, i < length ngps -> exists o, nth_error (fst (layout s ngps)) i = Some o /\
    nth_error o c = Some (total s k (firstn i ngps)).
  Proof. intros i Hi. apply (proj2 (starts_iff s ngps c i _ F)). exists k. auto. Qed.

  Lemma send_ok : forall order (bufs : list (list T)) buf0, NoDup order -> (forall i, In i order -> i < length ngps) ->
    nth_error bufs c = Some buf0 -> length buf0 = N.to_nat (total s k ngps) ->
    exists bufs' buf, send_all (fst (layout s ngps)) c msg order bufs = Ok bufs' /\ nth_error bufs' c = Some buf /\
      length buf = length buf0 /\ map (@length T) bufs' = map (@length T) bufs /\
      (forall c', c' <> c -> nth_error bufs' c' = nth_error bufs c') /\
      (forall i j, In i order -> j < length (msg i) -> nth_error buf (start i + j) = nth_error (msg i) j) /\
      (forall x, (forall i, In i order -> x < start i \/ start i + length (msg i) <= x) -> nth_error buf x = nth_error buf0 x).
  Proof.
    induction order as [|i order IH]; intros bufs buf0 Nd Ho Hb Hl.
    - exists bufs, buf0. split; [reflexivity|]. split; [assumption|]. split; [reflexivity|]. split; [reflexivity|].
      split; [reflexivity|]. split; [contradiction | reflexivity].
    - inversion Nd as [|? ? Hi Nd']; subst. assert (Hin : i < length ngps) by (apply Ho; left; reflexivity).
      destruct (nth_error ngps i) as [g|] eqn:Hg; [|apply nth_error_None in Hg; lia].
      destruct (offs_nth i Hin) as (o & Ho1 & Ho2). pose proof (Hm i g Hg) as Hlen.
      destruct (layout_regions s ngps c k F Hk) as (_ & Rin & _).
      destruct (Rin i g Hg) as (a & Ha & Hle). apply starts_iff in Ha; [|exact F]. destruct Ha as (k' & Hk' & _ & ->).
      assert (k' = k) by congruence. subst k'.
      destruct (write_at_ok buf0 (start i) (msg i)) as (buf1 & Hw & Hl1 & Hn1); [unfold start; lia|].
      assert (Hc : c < length bufs) by (apply nth_error_Some; congruence).
      set (bufs1 := firstn c bufs ++ buf1 :: skipn (S c) bufs).
      assert (Hb1 : nth_error bufs1 c = Some buf1).
      { unfold bufs1. rewrite nth_error_app2; rewrite firstn_length; [|lia]. replace (c - Nat.min c (length bufs)) with 0 by lia. reflexivity. }
      assert (Hoth : forall c', c' <> c -> nth_error bufs1 c' = nth_error bufs c').
      { intros c' Hne. unfold bufs1. destruct (Nat.lt_ge_cases c' c).
        - rewrite nth_error_app1 by (rewrite firstn_length; lia). rewrite nth_error_firstn.
          assert (X : c' <? c = true) by (apply Nat.ltb_lt; lia). rewrite X. reflexivity.
        - rewrite nth_error_app2 by (rewrite firstn_length; lia). rewrite firstn_length. replace (c' - Nat.min c (length bufs)) with (S (c' - S c)) by lia.
          cbn [nth_error]. rewrite nth_error_skipn. f_equal. lia. }
      assert (Hlen1 : map (@length T) bufs1 = map (@length T) bufs).
      { apply nth_error_split in Hb. destruct Hb as (l1 & l2 & -> & E). unfold bufs1. rewrite <- E.
        rewrite firstn_app, Nat.sub_diag, firstn_all, firstn_O, app_nil_r.
        replace (skipn (S (length l1)) (l1 ++ buf0 :: l2)) with l2.
        - rewrite !map_app. cbn. rewrite Hl1. reflexivity.
        - clear. induction l1 as [|y l1 IHl]; [reflexivity | exact IHl]. }
      destruct (IH bufs1 buf1 Nd') as (bufs2 & buf2 & E & E1 & E2 & E3 & E4 & E5 & E6).
      { intros i' Hi'. apply Ho. right. exact Hi'. } { exact Hb1. } { lia. }
      exists bufs2, buf2. split; [|split; [exact E1|split; [lia|split; [congruence|split; [|split]]]]].
      + unfold send_all. cbn [ofold]. rewrite Ho1. cbn [of_index bind]. unfold set_to_send_buffer. rewrite Hb, Ho2. cbn [of_index bind].
        fold (start i). rewrite Hw. cbn [bind]. fold bufs1. exact E.
      + intros c' Hne. rewrite E4 by exact Hne. apply Hoth. exact Hne.
      + intros i' j [<-|Hi'] Hj; [|apply E5; assumption]. rewrite E6.
        * rewrite Hn1. assert (X1 : start i <=? start i + j = true) by (apply Nat.leb_le; lia).
          assert (X2 : start i + j <? start i + length (msg i) = true) by (apply Nat.ltb_lt; lia). rewrite X1, X2. cbn [andb]. f_equal. lia.
        * intros i' Hi'. assert (Hlt : i' < length ngps) by (apply Ho; right; exact Hi').
          destruct (nth_error ngps i') as [g'|] eqn:Hg'; [|apply nth_error_None in Hg'; lia].
          pose proof (Hm i' g' Hg') as Hlen'.
          destruct (Nat.lt_trichotomy i i') as [L|[->|L]]; [|contradiction|].
          -- left. unfold start. pose proof (total_mono s k ngps (S i) i' L) as M. rewrite (total_S _ _ _ _ _ Hg) in M. lia.
          -- right. unfold start. pose proof (total_mono s k ngps (S i') i L) as M. rewrite (total_S _ _ _ _ _ Hg') in M. lia.
      + intros x Hx. rewrite E6 by (intros i' Hi'; apply Hx; right; exact Hi'). rewrite Hn1.
        destruct (Hx i (or_introl eq_refl)) as [L|L].
        * assert (X : start i <=? x = false) by (apply Nat.leb_gt; lia). rewrite X. reflexivity.
        * assert (X : x <? start i + length (msg i) = false) by (apply Nat.ltb_ge; lia). rewrite X, andb_false_r. reflexivity.
  Qed.

  Lemma exchange_ok : forall order (bufs : list (list T)), Permutation order (seq 0 (length ngps)) ->
    map (fun b => N.of_nat (length b)) bufs = snd (layout s ngps) ->
    exists bufs', send_all (fst (layout s ngps)) c msg order bufs = Ok bufs' /\
      map (@length T) bufs' = map (@length T) bufs /\ (forall c', c' <> c -> nth_error bufs' c' = nth_error bufs c') /\
      forall i g n, nth_error ngps i = Some g -> (N.of_nat n <= capacity s k g)%N ->
        exists m, receive (fst (layout s ngps)) c i n bufs' = Ok m /\ carries m (msg i) n.
  Proof.
    intros order bufs Hp Hs. assert (Ho : forall i, In i order -> i < length ngps).
    { intros i Hi. apply (Permutation_in _ Hp) in Hi. apply in_seq in Hi. lia. }
    assert (Nd : NoDup order) by (eapply Permutation_NoDup; [apply Permutation_sym; exact Hp | apply seq_NoDup]).
    destruct (layout_regions s ngps c k F Hk) as (Sz & Rin & _).
    rewrite <- Hs, nth_error_map in Sz. destruct (nth_error bufs c) as [buf0|] eqn:Hb; [|discriminate]. cbn in Sz. injection Sz as Sz.
    destruct (send_ok order bufs buf0 Nd Ho Hb ltac:(lia)) as (bufs' & buf & E & E1 & E2 & E3 & E4 & E5 & _).
    exists bufs'. split; [exact E|]. split; [exact E3|]. split; [exact E4|]. intros i g n Hg Hn.
    assert (Hi : i < length ngps) by (apply nth_error_Some; congruence).
    destruct (Rin i g Hg) as (a & Ha & Hle). apply starts_iff in Ha; [|exact F]. destruct Ha as (k' & Hk' & _ & ->).
    assert (k' = k) by congruence. subst k'.
    destruct (read_at_ok buf (start i) n) as (m & Hr & Hl & Hn'); [unfold start; lia|].
    exists m. split.
    - unfold receive. destruct (offs_nth i Hi) as (o & Ho1 & Ho2). rewrite Ho1. cbn [of_index bind]. unfold get_from_receive_buffer.
      rewrite E1, Ho2. cbn [of_index bind]. exact Hr.
    - split; [exact Hl|]. intros j Hj Hj'. rewrite Hn' by exact Hj. apply E5; [|exact Hj'].
      apply (Permutation_in _ (Permutation_sym Hp)). apply in_seq. lia.
  Qed.
End All.

Lemma buffers_sizes : forall {T : Type} {NT : Num T} s ngps, map (fun b : list T => N.of_nat (length b)) (buffers s ngps) = snd (layout s ngps).
Proof.
  intros T NT s ngps. unfold buffers. rewrite map_map. erewrite map_ext; [apply map_id|]. intros n. cbn. rewrite repeat_length. lia.
Qed.

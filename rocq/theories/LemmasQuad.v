(** Quadrilateral mesh generator: loops and tables. *)
From Coq Require Import ZArith NArith List Arith Bool Lia.
From Verif Require Import Num Outcome ModelMesh ModelQuad SpecMesh LemmasPart.
Import ListNotations.
Local Open Scope N_scope.

Lemma in_nrange : forall n k, In k (nrange n) <-> k < n.
Proof.
  intros n k. unfold nrange. rewrite in_map_iff. split.
  - intros (x & <- & H). apply in_seq in H. lia.
  - intros H. exists (N.to_nat k). split; [apply N2Nat.id|]. apply in_seq. lia.
Qed.
Lemma nrange_nodup : forall n, NoDup (nrange n).
Proof. intros n. apply FinFun.Injective_map_NoDup; [intros a b; apply Nat2N.inj|apply seq_NoDup]. Qed.
Lemma nrange_length : forall n, length (nrange n) = N.to_nat n.
Proof. intros. unfold nrange. rewrite map_length. apply seq_length. Qed.
Lemma nrange_succ : forall n, nrange (n + 1) = nrange n ++ [n].
Proof.
  intros n. unfold nrange. replace (N.to_nat (n + 1)) with (S (N.to_nat n)) by lia. rewrite seq_S, map_app. cbn [map Nat.add]. rewrite N2Nat.id. reflexivity.
Qed.

Lemma in_loop1 : forall n k, In k (loop 0 1 n) <-> k < n.
Proof.
  intros n k. unfold loop. rewrite in_map_iff. split.
  - intros (x & <- & H). apply in_nrange in H. rewrite N.div_1_r in H. lia.
  - intros H. exists k. split; [lia|]. apply in_nrange. rewrite N.div_1_r. lia.
Qed.
Lemma in_loop2 : forall s n k, s < 2 -> (In k (loop s 2 n) <-> k < n /\ k mod 2 = s).
Proof.
  intros s n k Hs. unfold loop. rewrite in_map_iff. split.
  - intros (x & <- & H). apply in_nrange in H.
    assert (2 * x + 1 < n - s + 2 - 1).
    { pose proof (N.mul_div_le (n - s + 2 - 1) 2 ltac:(lia)). lia. }
    split; [lia|]. rewrite N.mul_comm, N.mod_add by lia. apply N.mod_small. exact Hs.
  - intros [H1 H2]. exists (k / 2). pose proof (N.div_mod k 2 ltac:(lia)) as D. split; [lia|]. apply in_nrange.
    apply N.lt_le_trans with (k / 2 + 1); [lia|].
    apply N.div_le_lower_bound; lia.
Qed.

Lemma ofold_vset : forall (A : Type) (F : N -> A) (ws : list (N * A)) v,
  (forall w, In w ws -> fst w < v_size v /\ snd w = F (fst w)) ->
  exists v', ofold vset ws v = Ok v' /\ v_size v' = v_size v /\
    forall k, v_at v' k = if in_dec N.eq_dec k (map fst ws) then Some (F k) else v_at v k.
Proof.
  intros A F ws. induction ws as [|w ws IH]; intros v H.
  - exists v. split; [reflexivity|]. split; [reflexivity|]. intros k. destruct (in_dec _ _ _) as [[]|]. reflexivity.
  - cbn [ofold]. unfold vset at 1. destruct (H w (or_introl eq_refl)) as [H1 H2]. apply N.ltb_lt in H1. rewrite H1. cbn [bind].
    destruct (IH (Vec (v_size v) (fun k => if k =? fst w then Some (snd w) else v_at v k))) as (v' & E & S & G).
    { intros w' Hw. apply (H w' (or_intror Hw)). }
    exists v'. split; [exact E|]. split; [exact S|]. intros k. rewrite G. cbn [v_at map].
    destruct (in_dec N.eq_dec k (map fst ws)) as [I|I], (in_dec N.eq_dec k (fst w :: map fst ws)) as [J|J]; try reflexivity.
    + exfalso. apply J. right. exact I.
    + destruct (N.eqb_spec k (fst w)) as [->|K]; [rewrite H2; reflexivity|]. destruct J as [J|J]; [congruence|contradiction].
    + destruct (N.eqb_spec k (fst w)) as [->|K]; [|reflexivity]. exfalso. apply J. left. reflexivity.
Qed.
Lemma vall_ok : forall (A : Type) (F : N -> A) v, (forall k, k < v_size v -> v_at v k = Some (F k)) -> vall v = Ok (map F (nrange (v_size v))).
Proof.
  intros A F v H. unfold vall.
  assert (G : forall l acc, (forall k, In k l -> v_at v k = Some (F k)) ->
    ofold (fun l k => do x <- of_index (v_at v k) ; Ok (l ++ [x])) l acc = Ok (acc ++ map F l)).
  { induction l as [|k l IH]; intros acc Hl; [rewrite List.app_nil_r; reflexivity|]. cbn [ofold]. rewrite (Hl k (or_introl eq_refl)). cbn [of_index bind].
    rewrite IH by (intros; apply Hl; right; assumption). rewrite <- app_assoc. reflexivity. }
  rewrite G; [reflexivity|]. intros k Hk. apply H. apply in_nrange. exact Hk.
Qed.
Lemma fill_ok : forall (A : Type) (F : N -> A) (ws : list (N * A)) size,
  (forall w, In w ws -> fst w < size /\ snd w = F (fst w)) -> (forall k, k < size -> In k (map fst ws)) ->
  (do v <- ofold vset ws (Vec size (fun _ => None)) ; vall v) = Ok (map F (nrange size)).
Proof.
  intros A F ws size H1 H2. destruct (ofold_vset A F ws (Vec size (fun _ => None)) H1) as (v' & E & S & G). rewrite E. cbn [bind].
  rewrite (vall_ok A F v'); [rewrite S; reflexivity|]. intros k Hk. rewrite G. rewrite S in Hk. destruct (in_dec _ _ _) as [|J]; [reflexivity|]. exfalso. exact (J (H2 k Hk)).
Qed.

(** ** Explicit form of the elements *)
Inductive cut := Up | Down.
Definition cut_of (p : pattern) (i j : N) : cut :=
  match p with
  | simple => Up
  | zigzag => if j mod 2 =? 0 then Up else Down
  | checker => if i mod 2 =? j mod 2 then Up else Down
  end.
Definition nd (m i j : N) : N := i + (m + 1) * j.
Definition cell_tri (m : N) (c : cut) (i j : N) (h : bool) : N * N * N :=
  match c, h with
  | Up, false => (nd m i j, nd m (i + 1) (j + 1), nd m i (j + 1))
  | Up, true => (nd m i j, nd m (i + 1) j, nd m (i + 1) (j + 1))
  | Down, false => (nd m i j, nd m (i + 1) j, nd m i (j + 1))
  | Down, true => (nd m (i + 1) j, nd m (i + 1) (j + 1), nd m i (j + 1))
  end.
Definition eid (m i j : N) (h : bool) : N := 2 * (i + m * j) + (if h then 1 else 0).
Definition tri_of (p : pattern) (m e : N) : N * N * N :=
  let i := (e / 2) mod m in let j := (e / 2) / m in cell_tri m (cut_of p i j) i j (e mod 2 =? 1).

Lemma nd_inj : forall m i j i' j', i <= m -> i' <= m -> nd m i j = nd m i' j' -> i = i' /\ j = j'.
Proof.
  intros m i j i' j' H H' E. unfold nd in E. destruct (N.div_mod_unique (m + 1) j j' i i'); [lia|lia|lia|]. auto.
Qed.
Lemma eid_inj : forall m i j h i' j' h', i < m -> i' < m -> eid m i j h = eid m i' j' h' -> i = i' /\ j = j' /\ h = h'.
Proof.
  intros m i j h i' j' h' H H' E. unfold eid in E. assert (E2 : i + m * j = i' + m * j' /\ h = h') by (destruct h, h'; split; try reflexivity; lia).
  destruct E2 as [E2 ->]. destruct (N.div_mod_unique m j j' i i'); [lia|lia|lia|]. auto.
Qed.
Lemma eid_split : forall m n e, 0 < m -> e < 2 * m * n -> exists i j h, i < m /\ j < n /\ e = eid m i j h.
Proof.
  intros m n e Hm He. exists ((e / 2) mod m), ((e / 2) / m), (e mod 2 =? 1).
  pose proof (N.div_mod e 2 ltac:(lia)) as D. pose proof (N.div_mod (e / 2) m ltac:(lia)) as D2. pose proof (N.mod_lt e 2 ltac:(lia)).
  split; [apply N.mod_lt; lia|]. split.
  - apply N.div_lt_upper_bound; [lia|]. apply N.div_lt_upper_bound; lia.
  - unfold eid. set (c := e / 2) in *. set (b := e mod 2) in *. set (q := m * (c / m)) in *. set (r := c mod m) in *. destruct (N.eqb_spec b 1); lia.
Qed.
Lemma eid_half : forall m i j h, eid m i j h / 2 = i + m * j /\ (eid m i j h mod 2 =? 1) = h.
Proof.
  intros. unfold eid. split.
  - symmetry. apply (N.div_unique _ 2 _ (if h then 1 else 0)); [destruct h; lia|reflexivity].
  - rewrite <- (N.mod_unique _ 2 (i + m * j) (if h then 1 else 0)); [destruct h; reflexivity|destruct h; lia|reflexivity].
Qed.
Lemma tri_of_eid : forall p m i j h, i < m -> tri_of p m (eid m i j h) = cell_tri m (cut_of p i j) i j h.
Proof.
  intros p m i j h Hi. unfold tri_of. destruct (eid_half m i j h) as [-> ->].
  assert (E1 : (i + m * j) mod m = i) by (symmetry; apply (N.mod_unique _ m j i); [exact Hi|lia]).
  assert (E2 : (i + m * j) / m = j) by (symmetry; apply (N.div_unique _ m j i); [exact Hi|lia]).
  rewrite E1, E2. reflexivity.
Qed.
Lemma eid_lt : forall m n i j h, i < m -> j < n -> eid m i j h < 2 * m * n.
Proof. intros m n i j h Hi Hj. unfold eid. assert (m * j + m <= m * n) by nia. destruct h; lia. Qed.
Lemma nd_lt : forall m n i j, i <= m -> j <= n -> nd m i j < (m + 1) * (n + 1).
Proof. intros m n i j Hi Hj. unfold nd. nia. Qed.

Definition fits (m n : N) : Prop := 0 < m /\ 0 < n /\ 2 * m * n < 4294967296 /\ (m + 1) * (n + 1) < 4294967296.
Lemma u32_small : forall x, x < 4294967296 -> u32 x = x.
Proof. intros. apply N.mod_small. assumption. Qed.

Lemma cut_writes : forall m n c i j, fits m n -> i < m -> j < n ->
  (match c with Up => cut_up m i j | Down => cut_down m i j end) =
  map (fun h => (eid m i j h, (eid m i j h, cell_tri m c i j h))) [false; true].
Proof.
  intros m n c i j (Hm & Hn & H1 & H2) Hi Hj.
  pose proof (eid_lt m n i j false Hi Hj) as E0. pose proof (eid_lt m n i j true Hi Hj) as E1.
  pose proof (nd_lt m n i j ltac:(lia) ltac:(lia)) as N0. pose proof (nd_lt m n (i + 1) j ltac:(lia) ltac:(lia)) as N1.
  pose proof (nd_lt m n i (j + 1) ltac:(lia) ltac:(lia)) as N2. pose proof (nd_lt m n (i + 1) (j + 1) ltac:(lia) ltac:(lia)) as N3.
  assert (Q0 : 2 * i + 2 * m * j = eid m i j false) by (unfold eid; lia). assert (Q1 : 2 * i + 2 * m * j + 1 = eid m i j true) by (unfold eid; lia).
  assert (P0 : i + (m + 1) * j = nd m i j) by reflexivity. assert (P1 : i + 1 + (m + 1) * j = nd m (i + 1) j) by reflexivity.
  assert (P2 : i + m + 1 + (m + 1) * j = nd m i (j + 1)) by (unfold nd; lia). assert (P3 : i + m + 2 + (m + 1) * j = nd m (i + 1) (j + 1)) by (unfold nd; lia).
  destruct c; unfold cut_up, cut_down; rewrite Q1, Q0, ?P0, ?P1, ?P2, ?P3, !u32_small by lia; reflexivity.
Qed.

Lemma in_cells : forall cutf js is w, In w (cells cutf js is) <-> exists i j, In j js /\ In i (is j) /\ In w (cutf i j).
Proof.
  intros. unfold cells. rewrite in_flat_map. split.
  - intros (j & Hj & H). apply in_flat_map in H. destruct H as (i & Hi & H). eauto.
  - intros (i & j & Hj & Hi & H). exists j. split; [exact Hj|]. apply in_flat_map. eauto.
Qed.
Lemma in_pattern : forall p m n, fits m n -> forall w, In w (pattern_writes p m n) <->
  exists i j h, i < m /\ j < n /\ w = (eid m i j h, (eid m i j h, cell_tri m (cut_of p i j) i j h)).
Proof.
  intros p m n F w.
  assert (Q : forall c i j, i < m -> j < n -> (In w (match c with Up => cut_up m i j | Down => cut_down m i j end) <->
    exists h, w = (eid m i j h, (eid m i j h, cell_tri m c i j h)))).
  { intros c i j Hi Hj. rewrite (cut_writes m n c i j F Hi Hj). rewrite in_map_iff. split; [intros (h & <- & _); eauto|]. intros (h & ->). exists h. split; [reflexivity|]. destruct h; cbn; auto. }
  assert (Mod : forall x, x mod 2 = 0 \/ x mod 2 = 1) by (intros x; pose proof (N.mod_lt x 2 ltac:(lia)) as X; generalize dependent (x mod 2); intros y X; lia).
  assert (Mod1 : forall x, (x + 1) mod 2 = 1 - x mod 2).
  { intros x. rewrite N.add_mod by lia. destruct (Mod x) as [-> | ->]; reflexivity. }
  destruct p; cbn [pattern_writes].
  - unfold simple_pattern. rewrite in_cells. split.
    + intros (i & j & Hj & Hi & H). apply in_loop1 in Hi. apply in_loop1 in Hj. apply (Q Up) in H; [|assumption..]. destruct H as (h & H). exists i, j, h. auto.
    + intros (i & j & h & Hi & Hj & H). exists i, j. rewrite !in_loop1. split; [exact Hj|]. split; [exact Hi|]. apply (Q Up); eauto.
  - unfold zigzag_pattern. rewrite in_app_iff, !in_cells. split.
    + intros [(i & j & Hj & Hi & H)|(i & j & Hj & Hi & H)]; apply in_loop1 in Hi; apply in_loop2 in Hj; try lia; destruct Hj as [Hj Hm].
      * apply (Q Up) in H; [|assumption..]. destruct H as (h & H). exists i, j, h. cbn [cut_of]. rewrite Hm. auto.
      * apply (Q Down) in H; [|assumption..]. destruct H as (h & H). exists i, j, h. cbn [cut_of]. rewrite Hm. auto.
    + intros (i & j & h & Hi & Hj & H). cbn [cut_of] in H. destruct (Mod j) as [E|E]; rewrite E in H; cbn [N.eqb] in H; [left|right]; exists i, j; rewrite in_loop1, in_loop2 by lia; (split; [auto|]; split; [auto|]).
      * apply (Q Up); eauto.
      * apply (Q Down); eauto.
  - unfold checker_pattern. rewrite in_app_iff, !in_cells. split.
    + intros [(i & j & Hj & Hi & H)|(i & j & Hj & Hi & H)]; apply in_loop1 in Hj; apply in_loop2 in Hi; try (apply N.mod_lt; lia); destruct Hi as [Hi Hm].
      * apply (Q Up) in H; [|assumption..]. destruct H as (h & H). exists i, j, h. cbn [cut_of]. rewrite Hm, N.eqb_refl. auto.
      * apply (Q Down) in H; [|assumption..]. destruct H as (h & H). exists i, j, h. cbn [cut_of]. rewrite Hm, Mod1. destruct (Mod j) as [-> | ->]; auto.
    + intros (i & j & h & Hi & Hj & H). cbn [cut_of] in H. destruct (N.eqb_spec (i mod 2) (j mod 2)) as [E|E]; [left|right]; exists i, j; rewrite in_loop1, in_loop2 by (apply N.mod_lt; lia); (split; [auto|]; split).
      * auto.
      * apply (Q Up); eauto.
      * split; [exact Hi|]. rewrite Mod1. destruct (Mod i) as [A|A], (Mod j) as [B|B]; rewrite ?A, ?B in *; try reflexivity; exfalso; apply E; reflexivity.
      * apply (Q Down); eauto.
Qed.

Definition quad_elements (p : pattern) (m n : N) : list element := map (fun e => (e, tri_of p m e)) (nrange (2 * m * n)).
Lemma make_elements_ok : forall p m n, fits m n -> make_elements p m n = Ok (quad_elements p m n).
Proof.
  intros p m n F. assert (F' := F). destruct F' as (Hm & Hn & H1 & H2). unfold make_elements. rewrite u32_small by exact H1. apply fill_ok.
  - intros w Hw. apply (in_pattern p m n F) in Hw. destruct Hw as (i & j & h & Hi & Hj & ->). cbn [fst snd]. split; [apply eid_lt; assumption|].
    rewrite tri_of_eid by exact Hi. reflexivity.
  - intros k Hk. destruct (eid_split m n k Hm Hk) as (i & j & h & Hi & Hj & ->).
    apply in_map_iff. exists (eid m i j h, (eid m i j h, cell_tri m (cut_of p i j) i j h)). split; [reflexivity|]. apply (in_pattern p m n F). eauto 8.
Qed.
Lemma in_quad_elements : forall p m n e t, 0 < m -> (In (e, t) (quad_elements p m n) <->
  exists i j h, i < m /\ j < n /\ e = eid m i j h /\ t = cell_tri m (cut_of p i j) i j h).
Proof.
  intros p m n e t Hm. unfold quad_elements. rewrite in_map_iff. split.
  - intros (k & E & Hk). apply in_nrange in Hk. injection E as -> <-. destruct (eid_split m n e Hm Hk) as (i & j & h & Hi & Hj & ->).
    exists i, j, h. rewrite tri_of_eid by exact Hi. auto.
  - intros (i & j & h & Hi & Hj & -> & ->). exists (eid m i j h). rewrite tri_of_eid by exact Hi. split; [reflexivity|]. apply in_nrange. apply eid_lt; assumption.
Qed.

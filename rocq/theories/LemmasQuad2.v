(** Quadrilateral mesh generator: faces and edges. *)
From Coq Require Import ZArith NArith List Arith Bool Lia Permutation.
From Verif Require Import Outcome ModelMesh ModelQuad SpecMesh SpecQuad LemmasQuad.
Import ListNotations.
Local Open Scope N_scope.

(** Place of a face in its cell. *)
Inductive place := Bot | Top | Lft | Rgt | Dia.
Definition place_of (c : cut) (h : bool) (k : nat) : place :=
  match c, h, k with
  | Up, false, 0%nat => Top | Up, false, 1%nat => Lft | Up, false, _ => Dia
  | Up, true, 0%nat => Rgt | Up, true, 1%nat => Dia | Up, true, _ => Bot
  | Down, false, 0%nat => Dia | Down, false, 1%nat => Lft | Down, false, _ => Bot
  | Down, true, 0%nat => Top | Down, true, 1%nat => Dia | Down, true, _ => Rgt
  end.
(** Edges of the grid: horizontal, vertical, diagonal. *)
Inductive kind := EH | EV | ED.
Definition edge_of (i j : N) (q : place) : kind * N * N :=
  match q with Bot => (EH, i, j) | Top => (EH, i, j + 1) | Lft => (EV, i, j) | Rgt => (EV, i + 1, j) | Dia => (ED, i, j) end.

Section Grid.
  Context (p : pattern) (m n : N) (Hm : 0 < m) (Hn : 0 < n).
  Notation els := (quad_elements p m n).

  Definition ends (c : kind * N * N) : N * N :=
    let '(k, i, j) := c in
    match k with
    | EH => (nd m i j, nd m (i + 1) j)
    | EV => (nd m i j, nd m i (j + 1))
    | ED => match cut_of p i j with Up => (nd m i j, nd m (i + 1) (j + 1)) | Down => (nd m (i + 1) j, nd m i (j + 1)) end
    end.
  Definition on_grid (c : kind * N * N) : Prop :=
    let '(k, i, j) := c in
    match k with EH => i < m /\ j <= n | EV => i <= m /\ j < n | ED => i < m /\ j < n end.

  Lemma side_ends : forall i j h k, (k < 3)%nat ->
    same_edge (side (cell_tri m (cut_of p i j) i j h) k) (ends (edge_of i j (place_of (cut_of p i j) h k))).
  Proof.
    intros i j h k Hk. destruct (cut_of p i j) eqn:E, h, k as [|[|[|k]]]; try lia; cbn [place_of edge_of ends]; rewrite ?E;
      unfold same_edge, side, vertex, cell_tri; cbn [Nat.add Nat.modulo Nat.divmod fst snd nth Nat.sub]; auto.
  Qed.
  Lemma same_edge_sym : forall a b, same_edge a b -> same_edge b a.
  Proof. intros [a1 a2] [b1 b2] [H|H]; cbn in H; injection H as -> ->; unfold same_edge; cbn; auto. Qed.
  Lemma same_edge_trans : forall a b c, same_edge a b -> same_edge b c -> same_edge a c.
  Proof.
    intros [a1 a2] [b1 b2] [c1 c2] [H|H] [G|G]; cbn in H, G; injection H as -> ->; injection G as -> ->; unfold same_edge; cbn; auto.
  Qed.

  Lemma ends_inj : forall a b, on_grid a -> on_grid b -> same_edge (ends a) (ends b) -> a = b.
  Proof.
    intros [[k i] j] [[k' i'] j'] A B H.
    assert (R : forall x y x' y', x <= m -> x' <= m -> nd m x y = nd m x' y' -> x = x' /\ y = y') by (intros; apply (nd_inj m); assumption).
    destruct k, k'; cbn in A, B, H; repeat match type of H with context [cut_of p ?a ?b] => destruct (cut_of p a b) eqn:? end;
      destruct H as [H|H]; cbn [fst snd] in H; injection H as H1 H2; apply R in H1; try lia; apply R in H2; try lia;
      (assert (i = i') by lia; assert (j = j') by lia; subst; reflexivity).
  Qed.

  Lemma edge_on_grid : forall i j q, i < m -> j < n -> on_grid (edge_of i j q).
  Proof. intros i j q Hi Hj. destruct q; cbn; lia. Qed.

  (** Faces. *)
  Definition is_face (f : face) (i j : N) (h : bool) (k : nat) : Prop :=
    i < m /\ j < n /\ (k < 3)%nat /\ f = (eid m i j h, k).
  Definition pl (i j : N) (h : bool) (k : nat) : place := place_of (cut_of p i j) h k.
  Definition ce (i j : N) (h : bool) (k : nat) : kind * N * N := edge_of i j (pl i j h k).
  Lemma face_char : forall f q, face_on els f q <-> exists i j h k, is_face f i j h k /\ q = side (cell_tri m (cut_of p i j) i j h) k.
  Proof.
    intros [e k] q. unfold face_on. cbn [fst snd]. split.
    - intros (t & Hin & Hk & ->). apply in_quad_elements in Hin; [|exact Hm]. destruct Hin as (i & j & h & Hi & Hj & -> & ->). exists i, j, h, k. unfold is_face. auto.
    - intros (i & j & h & k' & (Hi & Hj & Hk & E) & ->). injection E as -> ->. exists (cell_tri m (cut_of p i j) i j h). split; [|auto].
      apply in_quad_elements; [exact Hm|]. eauto 8.
  Qed.
  Lemma is_face_inj : forall f i j h k i' j' h' k', is_face f i j h k -> is_face f i' j' h' k' -> i = i' /\ j = j' /\ h = h' /\ k = k'.
  Proof.
    intros f i j h k i' j' h' k' (Hi & Hj & Hk & ->) (Hi' & Hj' & Hk' & E). injection E as E ->. apply eid_inj in E; [|assumption..]. destruct E as (-> & -> & ->). auto.
  Qed.

  Lemma share_char : forall f g, share_edge els f g <-> f <> g /\ exists i j h k i' j' h' k',
    is_face f i j h k /\ is_face g i' j' h' k' /\ ce i j h k = ce i' j' h' k'.
  Proof.
    intros f g. unfold share_edge. split.
    - intros (Hne & q & r & Hf & Hg & HS). split; [exact Hne|]. apply face_char in Hf. apply face_char in Hg.
      destruct Hf as (i & j & h & k & F & ->), Hg as (i' & j' & h' & k' & G & ->). exists i, j, h, k, i', j', h', k'. split; [exact F|]. split; [exact G|].
      destruct F as (F1 & F2 & F3 & _), G as (G1 & G2 & G3 & _).
      apply ends_inj; [apply edge_on_grid; assumption..|]. eapply same_edge_trans; [apply same_edge_sym, side_ends; assumption|].
      eapply same_edge_trans; [exact HS|]. apply side_ends. assumption.
    - intros (Hne & i & j & h & k & i' & j' & h' & k' & F & G & E). split; [exact Hne|].
      exists (side (cell_tri m (cut_of p i j) i j h) k), (side (cell_tri m (cut_of p i' j') i' j' h') k').
      split; [apply face_char; eauto 8|]. split; [apply face_char; eauto 8|].
      destruct F as (F1 & F2 & F3 & _), G as (G1 & G2 & G3 & _). eapply same_edge_trans; [apply side_ends; assumption|].
      fold (pl i j h k). fold (ce i j h k). rewrite E. apply same_edge_sym, side_ends. assumption.
  Qed.

  (** On which of its two sides a face lies on its edge. *)
  Definition flag (i j : N) (h : bool) (k : nat) : bool :=
    match pl i j h k with Bot | Lft => false | Top | Rgt => true | Dia => h end.
  Lemma flag_inj : forall i j h k i' j' h' k', (k < 3)%nat -> (k' < 3)%nat ->
    ce i j h k = ce i' j' h' k' -> flag i j h k = flag i' j' h' k' -> i = i' /\ j = j' /\ h = h' /\ k = k'.
  Proof.
    intros i j h k i' j' h' k' Hk Hk' E G.
    assert (Q : i = i' /\ j = j' /\ pl i j h k = pl i' j' h' k').
    { unfold ce, flag in *. destruct (pl i j h k), (pl i' j' h' k'); cbn in E; try discriminate; injection E as E1 E2; repeat split; try assumption; lia. }
    destruct Q as (-> & -> & Q). split; [reflexivity|]. split; [reflexivity|]. unfold flag, pl in *. rewrite Q in G.
    destruct (cut_of p i' j'), h, h', k as [|[|[|k]]], k' as [|[|[|k']]]; try lia; cbn in Q, G; try discriminate; auto.
  Qed.

  Lemma quad_at_most_two : at_most_two els.
  Proof.
    intros f g h A B C. apply share_char in A. apply share_char in B. apply share_char in C.
    destruct A as (N1 & i & j & s & k & i' & j' & s' & k' & F & G & E). destruct B as (N2 & a & b & c & d & a' & b' & c' & d' & F' & G' & E').
    destruct C as (N3 & _). destruct (is_face_inj _ _ _ _ _ _ _ _ _ G F') as (-> & -> & -> & ->).
    destruct F as (F1 & F2 & F3 & F4), F' as (H1 & H2 & H3 & H4), G' as (G1 & G2 & G3 & G4).
    destruct (Bool.bool_dec (flag i j s k) (flag a b c d)) as [X|X].
    { destruct (flag_inj _ _ _ _ _ _ _ _ F3 H3 E X) as (-> & -> & -> & ->). congruence. }
    destruct (Bool.bool_dec (flag a b c d) (flag a' b' c' d')) as [Y|Y].
    { destruct (flag_inj _ _ _ _ _ _ _ _ H3 G3 E' Y) as (-> & -> & -> & ->). congruence. }
    assert (Z : flag i j s k = flag a' b' c' d') by (destruct (flag i j s k), (flag a b c d), (flag a' b' c' d'); congruence).
    destruct (flag_inj _ _ _ _ _ _ _ _ F3 G3 (eq_trans E E') Z) as (-> & -> & -> & ->). congruence.
  Qed.

  (** Where the other element of a shared face is. *)
  Definition toward (i j : N) (q : place) (i' j' : N) : Prop :=
    match q with
    | Bot => i' = i /\ j' + 1 = j | Top => i' = i /\ j' = j + 1
    | Lft => i' + 1 = i /\ j' = j | Rgt => i' = i + 1 /\ j' = j
    | Dia => i' = i /\ j' = j
    end.
  Lemma share_toward : forall f g, share_edge els f g -> exists i j h k i' j' h' k',
    is_face f i j h k /\ is_face g i' j' h' k' /\ toward i j (pl i j h k) i' j' /\ (pl i j h k = Dia -> h' = negb h).
  Proof.
    intros f g H. apply share_char in H. destruct H as (Hne & i & j & h & k & i' & j' & h' & k' & F & G & E).
    exists i, j, h, k, i', j', h', k'. split; [exact F|]. split; [exact G|].
    destruct F as (F1 & F2 & F3 & ->), G as (G1 & G2 & G3 & ->).
    assert (X : flag i j h k <> flag i' j' h' k').
    { intros X. destruct (flag_inj _ _ _ _ _ _ _ _ F3 G3 E X) as (-> & -> & -> & ->). congruence. }
    unfold ce, flag in *. split.
    - destruct (pl i j h k), (pl i' j' h' k'); cbn in E, X |- *; try discriminate; try congruence; injection E as E1 E2; lia.
    - intros D. rewrite D in *. destruct (pl i' j' h' k'); cbn in E, X; try discriminate. destruct h, h'; try reflexivity; exfalso; apply X; reflexivity.
  Qed.
  Lemma place_inj : forall i j h k k', (k < 3)%nat -> (k' < 3)%nat -> pl i j h k = pl i j h k' -> k = k'.
  Proof. intros i j h k k' Hk Hk' E. unfold pl in E. destruct (cut_of p i j), h, k as [|[|[|k]]], k' as [|[|[|k']]]; try lia; cbn in E; try discriminate; reflexivity. Qed.

  Lemma quad_meet_once : meet_once els.
  Proof.
    split.
    - intros f g H E. apply share_toward in H. destruct H as (i & j & h & k & i' & j' & h' & k' & (F1 & F2 & F3 & ->) & (G1 & G2 & G3 & ->) & T & D). cbn [fst] in E.
      apply eid_inj in E; [|assumption..]. destruct E as (-> & -> & ->). destruct (pl i' j' h' k); cbn in T; try lia. specialize (D eq_refl). destruct h'; discriminate.
    - intros f g f' g' H H' E1 E2. apply share_toward in H. apply share_toward in H'.
      destruct H as (i & j & h & k & i' & j' & h' & k' & (F1 & F2 & F3 & ->) & (G1 & G2 & G3 & ->) & T & D).
      destruct H' as (a & b & c & d & a' & b' & c' & d' & (K1 & K2 & K3 & ->) & (L1 & L2 & L3 & ->) & T' & D').
      cbn [fst] in E1, E2. apply eid_inj in E1; [|assumption..]. apply eid_inj in E2; [|assumption..]. destruct E1 as (-> & -> & ->), E2 as (-> & -> & ->).
      f_equal. apply (place_inj a b c); [assumption..|]. destruct (pl a b c k), (pl a b c d); cbn in T, T'; try reflexivity; lia.
  Qed.

  (** The face on a given side of a grid edge. *)
  Lemma place_face : forall i j q b, exists h k, (k < 3)%nat /\ pl i j h k = q /\ (q = Dia -> h = b).
  Proof.
    intros i j q b. unfold pl. destruct (cut_of p i j), q.
    - exists true, 2%nat. repeat split; try lia; discriminate.
    - exists false, 0%nat. repeat split; try lia; discriminate.
    - exists false, 1%nat. repeat split; try lia; discriminate.
    - exists true, 0%nat. repeat split; try lia; discriminate.
    - destruct b; [exists true, 1%nat|exists false, 2%nat]; repeat split; lia.
    - exists false, 2%nat. repeat split; try lia; discriminate.
    - exists true, 0%nat. repeat split; try lia; discriminate.
    - exists false, 1%nat. repeat split; try lia; discriminate.
    - exists true, 2%nat. repeat split; try lia; discriminate.
    - destruct b; [exists true, 1%nat|exists false, 0%nat]; repeat split; lia.
  Qed.
  Definition outer (i j : N) (q : place) : Prop :=
    match q with Bot => j = 0 | Top => j + 1 = n | Lft => i = 0 | Rgt => i + 1 = m | Dia => False end.
  Lemma inner_shared : forall f i j h k, is_face f i j h k -> ~ outer i j (pl i j h k) -> exists g, share_edge els f g.
  Proof.
    intros f i j h k F O.
    assert (Q : exists i' j' q', i' < m /\ j' < n /\ edge_of i j (pl i j h k) = edge_of i' j' q' /\ (toward i j (pl i j h k) i' j') /\ (pl i j h k = Dia <-> q' = Dia)).
    { destruct F as (F1 & F2 & _). destruct (pl i j h k); cbn in O.
      - exists i, (j - 1), Top. cbn. repeat split; try lia; try discriminate. f_equal; lia.
      - exists i, (j + 1), Bot. cbn. repeat split; try lia; try discriminate.
      - exists (i - 1), j, Rgt. cbn. repeat split; try lia; try discriminate. repeat f_equal; lia.
      - exists (i + 1), j, Lft. cbn. repeat split; try lia; try discriminate.
      - exists i, j, Dia. cbn. repeat split; try lia; try discriminate. }
    destruct Q as (i' & j' & q' & Hi' & Hj' & E & T & D). destruct (place_face i' j' q' (negb h)) as (h' & k' & Hk' & Eq & Hh).
    exists (eid m i' j' h', k'). apply share_char. split.
    - intros X. destruct F as (F1 & F2 & F3 & ->). injection X as X ->. apply eid_inj in X; [|assumption..]. destruct X as (-> & -> & ->).
      destruct (pl i' j' h' k') eqn:P; cbn in T; try lia. rewrite <- Eq in Hh. specialize (Hh eq_refl). destruct h'; discriminate.
    - exists i, j, h, k, i', j', h', k'. split; [exact F|]. split; [unfold is_face; auto|]. unfold ce. rewrite Eq. exact E.
  Qed.
  Lemma outer_unshared : forall f i j h k, is_face f i j h k -> outer i j (pl i j h k) -> forall g, ~ share_edge els f g.
  Proof.
    intros f i j h k F O g H. apply share_toward in H. destruct H as (a & b & c & d & i' & j' & h' & k' & F' & (G1 & G2 & _) & T & D).
    destruct (is_face_inj _ _ _ _ _ _ _ _ _ F F') as (-> & -> & -> & ->). destruct F as (F1 & F2 & _). destruct (pl a b c d); cbn in O, T; lia.
  Qed.
  Lemma outer_dec : forall i j q, outer i j q \/ ~ outer i j q.
  Proof. intros i j q. destruct q; cbn; lia. Qed.

  (** ** Boundary lists *)
  Lemma followed_range : forall (g : N -> N) k x y, followed (map g (nrange (k + 1))) x y <-> exists i, i < k /\ x = g i /\ y = g (i + 1).
  Proof.
    intros g k x y. split.
    - intros (a & b & E). exists (N.of_nat (length a)).
      assert (L : (length a + 2 + length b = N.to_nat (k + 1))%nat).
      { pose proof (map_length g (nrange (k + 1))) as Q. rewrite E, nrange_length, app_length in Q. cbn [length] in Q. lia. }
      assert (X : forall t v, nth_error (map g (nrange (k + 1))) t = Some v -> v = g (N.of_nat t)).
      { intros t v Hv. unfold nrange in Hv. rewrite map_map in Hv. assert (t < N.to_nat (k + 1))%nat.
        { rewrite <- (seq_length (N.to_nat (k + 1)) 0), <- (map_length (fun x => g (N.of_nat x))). apply nth_error_Some. congruence. }
        rewrite nth_error_map, (nth_error_nth' _ 0%nat) in Hv by (rewrite seq_length; assumption). rewrite seq_nth in Hv by assumption.
        cbn [option_map Nat.add] in Hv. injection Hv as <-. reflexivity. }
      split; [lia|]. split.
      + apply X. rewrite E, nth_error_app2 by lia. rewrite Nat.sub_diag. reflexivity.
      + replace (N.of_nat (length a) + 1) with (N.of_nat (length a + 1)) by lia. apply X. rewrite E, nth_error_app2 by lia.
        replace (length a + 1 - length a)%nat with 1%nat by lia. reflexivity.
    - intros (i & Hi & -> & ->). unfold nrange. exists (map g (map N.of_nat (seq 0 (N.to_nat i)))), (map g (map N.of_nat (seq (N.to_nat i + 2) (N.to_nat k - N.to_nat i - 1)))).
      replace (N.to_nat (k + 1)) with (N.to_nat i + (2 + (N.to_nat k - N.to_nat i - 1)))%nat by lia. rewrite seq_app, seq_app, !map_app. cbn [seq map app Nat.add].
      rewrite N2Nat.id. replace (N.of_nat (S (N.to_nat i))) with (i + 1) by lia. reflexivity.
  Qed.

  Definition side_list (s : nat) : list N := nth s (boundary_nodes m n) [].
  Definition side_ends_of (s : nat) (i : N) : kind * N * N :=
    match s with 0%nat => (EH, i, 0) | 1%nat => (EV, m, i) | 2%nat => (EH, i, n) | _ => (EV, 0, i) end.
  Definition side_len (s : nat) : N := match s with 0%nat | 2%nat => m | _ => n end.
  Definition small : Prop := (m + 1) * (n + 1) < 4294967296.

  Lemma neighbours_edge : small -> forall s x y, (s < 4)%nat -> (neighbours (side_list s) x y <->
    exists i, i < side_len s /\ same_edge (x, y) (ends (side_ends_of s i))).
  Proof.
    intros Sm s x y Hs.
    assert (U : forall i j, i <= m -> j <= n -> u32 (nd m i j) = nd m i j) by (intros i j A B; apply u32_small; pose proof (nd_lt m n i j A B); unfold small in Sm; lia).
    assert (Q : exists g, side_list s = map g (nrange (side_len s + 1)) /\ forall i, i < side_len s -> (g i, g (i + 1)) = ends (side_ends_of s i)).
    { destruct s as [|[|[|[|s]]]]; [| | | |lia].
      - exists (fun i => i). split; [reflexivity|]. intros i Hi. cbn. unfold nd. f_equal; lia.
      - exists (fun i => u32 (m + i * (m + 1))). split; [reflexivity|]. intros i Hi. cbn [side_len] in Hi. cbn [side_ends_of ends].
        rewrite <- (U m i), <- (U m (i + 1)) by lia. unfold nd. f_equal; f_equal; lia.
      - exists (fun i => u32 (i + (m + 1) * n)). split; [reflexivity|]. intros i Hi. cbn [side_len] in Hi. cbn [side_ends_of ends].
        rewrite <- (U i n), <- (U (i + 1) n) by lia. unfold nd. f_equal; f_equal; lia.
      - exists (fun i => u32 (i * (m + 1))). split; [reflexivity|]. intros i Hi. cbn [side_len] in Hi. cbn [side_ends_of ends].
        rewrite <- (U 0 i), <- (U 0 (i + 1)) by lia. unfold nd. f_equal; f_equal; lia. }
    destruct Q as (g & -> & Q). unfold neighbours. rewrite !followed_range. split.
    - intros [(i & Hi & -> & ->)|(i & Hi & -> & ->)]; exists i; (split; [exact Hi|]); rewrite <- Q by exact Hi; unfold same_edge; cbn; auto.
    - intros (i & Hi & H). rewrite <- Q in H by exact Hi. destruct H as [H|H]; cbn in H; injection H as -> ->; [left|right]; eauto.
  Qed.
  Lemma side_on_grid : forall s i, (s < 4)%nat -> i < side_len s -> on_grid (side_ends_of s i).
  Proof. intros s i Hs Hi. destruct s as [|[|[|[|s]]]]; cbn in *; lia. Qed.

  (** A face lies on list s iff its grid edge does. *)
  Lemma face_on_side : small -> forall f i j h k s, is_face f i j h k -> (s < 4)%nat ->
    (neighbours (side_list s) (fst (side (cell_tri m (cut_of p i j) i j h) k)) (snd (side (cell_tri m (cut_of p i j) i j h) k)) <->
     exists t, t < side_len s /\ ce i j h k = side_ends_of s t).
  Proof.
    intros Sm f i j h k s (F1 & F2 & F3 & _) Hs. rewrite (neighbours_edge Sm) by exact Hs. rewrite <- surjective_pairing. split.
    - intros (t & Ht & H). exists t. split; [exact Ht|]. apply ends_inj; [apply edge_on_grid; assumption|apply side_on_grid; assumption|].
      eapply same_edge_trans; [|exact H]. apply same_edge_sym, side_ends. exact F3.
    - intros (t & Ht & E). exists t. split; [exact Ht|]. rewrite <- E. apply side_ends. exact F3.
  Qed.

  Lemma quad_conforming : small -> conforming els (boundary_nodes m n).
  Proof.
    intros Sm. split; [exact quad_at_most_two|]. split; [exact quad_meet_once|]. split.
    - intros f q Hf. apply face_char in Hf. destruct Hf as (i & j & h & k & F & ->).
      assert (L : forall s, (s < 4)%nat -> _) by (intros s Hs; exact (face_on_side Sm f i j h k s F Hs)). assert (F' := F). destruct F' as (F1 & F2 & F3 & _).
      destruct (outer_dec i j (pl i j h k)) as [O|O].
      + right. split; [exact (outer_unshared f i j h k F O)|].
        assert (X : exists s, (s < 4)%nat /\ (exists t, t < side_len s /\ ce i j h k = side_ends_of s t) /\
          forall s', (s' < 4)%nat -> (exists t, t < side_len s' /\ ce i j h k = side_ends_of s' t) -> s' = s).
        { unfold ce. destruct (pl i j h k); cbn in O; [exists 0%nat|exists 2%nat|exists 3%nat|exists 1%nat|contradiction]; (split; [lia|]);
            (split; [first [exists i; cbn; split; [lia|congruence]|exists j; cbn; split; [lia|congruence]]|]);
            intros s' Hs' (t & Ht & E); destruct s' as [|[|[|[|s']]]]; try lia; try reflexivity; cbn in E; try discriminate; injection E as E1 E2; lia. }
        destruct X as (s & Hs & X1 & X2). exists s. split; [exact Hs|]. split; [apply (L s Hs); exact X1|].
        intros s' Hs' H. apply X2; [exact Hs'|]. apply (L s' Hs'). exact H.
      + left. split; [exact (inner_shared f i j h k F O)|].
        intros l Hl H. apply In_nth with (d := []) in Hl. destruct Hl as (s & Hs & <-). change (s < 4)%nat in Hs. apply (L s Hs) in H. destruct H as (t & Ht & E).
        apply O. unfold ce in E. destruct (pl i j h k), s as [|[|[|[|s]]]]; try lia; cbn in E; try discriminate; injection E as E1 E2; cbn; lia.
    - intros l x y Hl H. apply In_nth with (d := []) in Hl. destruct Hl as (s & Hs & <-). change (s < 4)%nat in Hs.
      apply (neighbours_edge Sm) in H; [|exact Hs]. destruct H as (t & Ht & HS).
      assert (X : exists i j q, i < m /\ j < n /\ edge_of i j q = side_ends_of s t /\ q <> Dia /\ outer i j q).
      { destruct s as [|[|[|[|s]]]]; [| | | |lia]; cbn in Ht.
        - exists t, 0, Bot. cbn. repeat split; try lia; discriminate.
        - exists (m - 1), t, Rgt. cbn. repeat split; try lia; try discriminate. repeat f_equal; lia.
        - exists t, (n - 1), Top. cbn. repeat split; try lia; try discriminate. repeat f_equal; lia.
        - exists 0, t, Lft. cbn. repeat split; try lia; discriminate. }
      destruct X as (i & j & q & Hi & Hj & E & Nd & O). destruct (place_face i j q true) as (h & k & Hk & P & _).
      exists (eid m i j h, k), (side (cell_tri m (cut_of p i j) i j h) k).
      assert (F : is_face (eid m i j h, k) i j h k) by (unfold is_face; auto).
      assert (Es : same_edge (x, y) (side (cell_tri m (cut_of p i j) i j h) k)).
      { eapply same_edge_trans; [exact HS|]. rewrite <- E, <- P. apply same_edge_sym, side_ends. exact Hk. }
      assert (Fo : face_on els (eid m i j h, k) (side (cell_tri m (cut_of p i j) i j h) k)) by (apply face_char; eauto 8).
      split; [exact Fo|]. split; [exact Es|].
      intros f' p' Hf' HS'. assert (D : f' = (eid m i j h, k) \/ f' <> (eid m i j h, k)).
      { destruct f' as [e' k']. destruct (N.eq_dec e' (eid m i j h)) as [->|]; [|right; congruence]. destruct (Nat.eq_dec k' k) as [->|]; [left; reflexivity|right; congruence]. }
      destruct D as [D|D]; [exact D|]. exfalso. rewrite <- P in O. refine (outer_unshared _ i j h k F O f' _). split; [congruence|].
      exists (side (cell_tri m (cut_of p i j) i j h) k), p'. split; [exact Fo|]. split; [exact Hf'|]. eapply same_edge_trans; [apply same_edge_sym; exact Es|exact HS'].
  Qed.

  (** All nodes are used and no others. *)
  Lemma vertex_range : forall e t v, In (e, t) els -> vertex t v < (m + 1) * (n + 1).
  Proof.
    intros e t v H. apply in_quad_elements in H; [|exact Hm]. destruct H as (i & j & h & Hi & Hj & -> & ->).
    unfold vertex. pose proof (Nat.mod_upper_bound v 3 ltac:(lia)) as Hv. destruct (v mod 3)%nat as [|[|[|w]]]; [| | |lia];
      destruct (cut_of p i j), h; cbn [cell_tri nth]; apply nd_lt; lia.
  Qed.
  Lemma nodes_used : forall v, v < (m + 1) * (n + 1) -> exists e t k, In (e, t) els /\ (k < 3)%nat /\ vertex t k = v.
  Proof.
    intros v Hv. set (i := v mod (m + 1)). set (j := v / (m + 1)).
    assert (Hi : i <= m) by (pose proof (N.mod_lt v (m + 1) ltac:(lia)); subst i; lia).
    assert (Hj : j <= n) by (assert (j < n + 1) by (apply N.div_lt_upper_bound; lia); lia).
    assert (E : v = nd m i j) by (unfold nd; pose proof (N.div_mod v (m + 1) ltac:(lia)); subst i j; lia).
    set (a := if i =? m then i - 1 else i). set (b := if j =? n then j - 1 else j).
    assert (Ha : a < m) by (subst a; destruct (N.eqb_spec i m); lia). assert (Hb : b < n) by (subst b; destruct (N.eqb_spec j n); lia).
    assert (Q : exists h k, (k < 3)%nat /\ vertex (cell_tri m (cut_of p a b) a b h) k = v).
    { rewrite E. assert (A : i = a \/ i = a + 1) by (subst a; destruct (N.eqb_spec i m); lia). assert (B : j = b \/ j = b + 1) by (subst b; destruct (N.eqb_spec j n); lia).
      clearbody a b. destruct (cut_of p a b), A as [->| ->], B as [->| ->].
      - exists true, 0%nat. split; [lia|reflexivity].
      - exists false, 2%nat. split; [lia|reflexivity].
      - exists true, 1%nat. split; [lia|reflexivity].
      - exists true, 2%nat. split; [lia|reflexivity].
      - exists false, 0%nat. split; [lia|reflexivity].
      - exists false, 2%nat. split; [lia|reflexivity].
      - exists false, 1%nat. split; [lia|reflexivity].
      - exists true, 1%nat. split; [lia|reflexivity]. }
    destruct Q as (h & k & Hk & Q). exists (eid m a b h), (cell_tri m (cut_of p a b) a b h), k. split; [|auto].
    apply in_quad_elements; [exact Hm|]. eauto 8.
  Qed.
  Lemma quad_ids : map fst els = nrange (2 * m * n).
  Proof. unfold quad_elements. rewrite map_map. cbn [fst]. apply map_id. Qed.
  Lemma quad_ids_ok : 2 * m * n < 4294967296 -> small -> ids_ok els.
  Proof.
    intros H1 H2. split; [rewrite quad_ids; apply nrange_nodup|]. intros e t Hin. split.
    - apply (in_map fst) in Hin. rewrite quad_ids in Hin. apply in_nrange in Hin. cbn [fst] in Hin. lia.
    - intros v. unfold small in H2. pose proof (vertex_range e t v Hin). lia.
  Qed.
End Grid.

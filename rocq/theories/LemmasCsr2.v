(** Symmetry of the CSR graph, loops, weights of the submesh graph. *)
From Coq Require Import ZArith NArith List Bool Reals Sorted Permutation Arith Lia Lra.
From Verif Require Import Num Outcome ModelMesh ModelPart SpecPart LemmasPart LemmasCsr LemmasPart2 LemmasPart3.
Import ListNotations.
Open Scope N_scope.

Lemma nth_error_firstn_lt : forall A (l : list A) n k, (k < n)%nat -> nth_error (firstn n l) k = nth_error l k.
Proof.
  induction l as [|x l IH]; intros [|n] [|k] H; cbn; try reflexivity; try lia. apply IH. lia.
Qed.
Lemma nth_error_skipn_add : forall A (l : list A) n k, nth_error (skipn n l) k = nth_error l (n + k).
Proof. induction l as [|x l IH]; intros [|n] k; cbn; try reflexivity; [destruct k; reflexivity | apply IH]. Qed.
Lemma nth_error_slice : forall A (l : list A) a b k, (k < b - a)%nat -> nth_error (slice l a b) k = nth_error l (a + k).
Proof. intros. unfold slice. rewrite nth_error_firstn_lt, nth_error_skipn_add by assumption. reflexivity. Qed.

Lemma Forall2_nth_l : forall A B (Q : A -> B -> Prop) l m k a, Forall2 Q l m -> nth_error l k = Some a ->
  exists b, nth_error m k = Some b /\ Q a b.
Proof. intros A B Q l m k a H. revert k. induction H; intros [|k] E; try discriminate; cbn in *; [injection E as ->; eauto | apply IHForall2, E]. Qed.

Theorem csr_edge_spec : forall ew ns xs av wv, csr_graph ew ns xs av wv -> forall i s, nth_error ns i = Some s ->
  forall j w, csr_edge xs av wv i j w <->
    exists d, nth_error ns j = Some d /\ adjacent ew s d /\ w = (stored ew s d + stored ew d s)%R.
Proof.
  intros ew ns xs av wv (L & _ & _ & _ & H) i s Hs j w. destruct (H i s Hs) as (Hle & _ & Hin & Hw). clear H.
  set (a := nth i xs 0%nat) in *. set (b := nth (S i) xs 0%nat) in *. split.
  - intros (k & Hk & Ej & Ew). fold a b in Hk.
    assert (Sj : nth_error (slice av a b) (k - a) = Some j) by (rewrite nth_error_slice by lia; replace (a + (k - a))%nat with k by lia; exact Ej).
    destruct (Forall2_nth_l _ _ _ _ _ _ _ Hw Sj) as (w' & Ew' & Q). rewrite nth_error_slice in Ew' by lia.
    replace (a + (k - a))%nat with k in Ew' by lia. rewrite Ew in Ew'. injection Ew' as <-.
    apply nth_error_In, Hin in Sj. destruct Sj as (d & Ed & Ad). exists d. auto.
  - intros (d & Ed & Ad & ->). assert (In j (slice av a b)) as Hj by (apply Hin; eauto).
    apply In_nth_error in Hj. destruct Hj as (k & Ek).
    destruct (Forall2_nth_l _ _ _ _ _ _ _ Hw Ek) as (w' & Ew' & Q). rewrite (Q d Ed) in Ew'.
    assert (Lk : (k < b - a)%nat).
    { assert (nth_error (slice av a b) k <> None) as X by congruence. apply nth_error_Some in X. unfold slice in X. rewrite firstn_length in X. lia. }
    rewrite nth_error_slice in Ek, Ew' by exact Lk. exists (a + k)%nat. fold a b. split; [lia|]. auto.
Qed.

Theorem csr_edge_sym : forall ew ns xs av wv, csr_graph ew ns xs av wv -> forall i j w, (i < length ns)%nat ->
  csr_edge xs av wv i j w -> (j < length ns)%nat /\ csr_edge xs av wv j i w.
Proof.
  intros ew ns xs av wv G i j w Hi E. destruct (nth_error ns i) as [s|] eqn:Es; [|apply nth_error_None in Es; lia].
  pose proof (csr_edge_spec _ _ _ _ _ G i s Es j w) as Q. apply Q in E. destruct E as (d & Ed & Ad & ->).
  split; [apply nth_error_Some; congruence|]. apply (csr_edge_spec _ _ _ _ _ G j d Ed). exists s.
  split; [exact Es|]. split; [unfold adjacent in *; tauto | lra].
Qed.

(** The mesh graph has no loops. *)
Lemma mesh_edges_no_loop : forall els, (forall e x, In (e, x) els -> ~ In e (e_neigh x)) -> forall a, ~ In (a, a) (mesh_edges els).
Proof.
  intros els H a Ha. apply mesh_edges_spec in Ha. destruct Ha as (e & x & n & Hx & Hn & Hd & E).
  unfold edge_of in E. injection E as E1 E2. assert (e = n) by lia. subst n. exact (H e x Hx Hn).
Qed.

(** ** Weights of the submesh graph *)
Lemma add_weights_nth : forall (a b r : list R) k, add_weights a b = Ok r -> (length b <= length a)%nat ->
  length r = length a /\ nth k r 0%R = (nth k a 0 + nth k b 0)%R.
Proof.
  induction a as [|x a IH]; intros b r k H L; destruct b as [|y b]; cbn in H, L.
  - injection H as <-. split; [reflexivity|]. destruct k; cbn; lra.
  - lia.
  - injection H as <-. split; [reflexivity|]. destruct k as [|k]; cbn; [lra|]. destruct k; cbn; lra.
  - destruct (add_weights a b) as [r'| |] eqn:E; cbn in H; try discriminate. injection H as <-.
    destruct (IH b r' (pred k) E) as [A B]; [lia|]. split; [cbn; lia|]. destruct k as [|k]; cbn; [num_R; lra|]. exact B.
Qed.

Lemma part_weight_app : forall f l m p k, part_weight f (l ++ m) p k = (part_weight f l p k + part_weight f m p k)%R.
Proof.
  intros f l m p k. unfold part_weight. rewrite filter_app, map_app. generalize (map (fun x : N * list R => nth k (snd x) 0%R)
    (filter (fun x => match f (fst x) with Some q => q =? p | None => false end) l)). intros u.
  induction u as [|a u IH]; cbn; [lra | rewrite IH; lra].
Qed.

Lemma submesh_weight_inv : forall e2p (pw : list (N * list R)) L m, (forall e w, In (e, w) pw -> length w = L) ->
  submesh_weight e2p pw = Ok m ->
  (forall p w, afind m p = Some w -> length w = L) /\
  forall p k, nth k (match afind m p with Some w => w | None => [] end) 0%R = part_weight (afind e2p) pw p k.
Proof.
  intros e2p pw L m HL. unfold submesh_weight. revert m.
  induction pw as [|[e we] pw IH] using rev_ind; intros m H.
  - cbn in H. injection H as <-. split; [intros p w Q; discriminate Q | intros p [|k]; reflexivity].
  - rewrite ofold_app in H. destruct (ofold _ pw []) as [m0| |] eqn:E0; cbn [bind] in H; try discriminate.
    destruct (IH (fun e' w' Hin => HL e' w' (in_or_app _ _ _ (or_introl Hin))) m0 eq_refl) as (D0 & H0). clear IH.
    cbn [ofold fst snd] in H. assert (Lw : length we = L) by (apply (HL e); apply in_or_app; right; left; reflexivity).
    destruct (afind e2p e) as [q|] eqn:Eq; cbn [of_at bind] in H; [|discriminate].
    assert (PW : forall p k, part_weight (afind e2p) (pw ++ [(e, we)]) p k =
              (part_weight (afind e2p) pw p k + if p =? q then nth k we 0 else 0)%R).
    { intros p k. rewrite part_weight_app. f_equal. unfold part_weight. cbn [filter fst]. rewrite Eq, (N.eqb_sym q p). destruct (p =? q); cbn; lra. }
    destruct (afind m0 q) as [wq|] eqn:Em.
    + pose proof (D0 q wq Em) as Lq. destruct (add_weights wq we) as [w'| |] eqn:Ea; cbn [bind] in H; try discriminate.
      injection H as <-. split.
      * intros p w Hp. rewrite aset_find in Hp. destruct (N.eqb_spec p q) as [->|]; [|apply (D0 p w Hp)].
        injection Hp as <-. destruct (add_weights_nth wq we w' 0 Ea) as [A _]; lia.
      * intros p k. rewrite aset_find, PW, <- H0. destruct (N.eqb_spec p q) as [->|]; [|lra].
        rewrite Em. apply (add_weights_nth wq we w' k Ea). lia.
    + injection H as <-. split.
      * intros p w Hp. rewrite afind_app in Hp. destruct (afind m0 p) as [wp|] eqn:Ep; [injection Hp as ->; apply (D0 p w Ep)|].
        cbn in Hp. destruct (p =? q); [injection Hp as <-; exact Lw | discriminate].
      * intros p k. rewrite afind_app, PW, <- H0. destruct (N.eqb_spec p q) as [->|n].
        { rewrite Em. cbn [afind]. rewrite N.eqb_refl. destruct k; cbn; lra. }
        destruct (afind m0 p); [lra|]. cbn [afind]. destruct (N.eqb_spec p q); [contradiction|]. lra.
Qed.
Theorem submesh_weight_sums : forall e2p (pw : list (N * list R)) L m, (forall e w, In (e, w) pw -> length w = L) ->
  submesh_weight e2p pw = Ok m -> forall p w, afind m p = Some w ->
  length w = L /\ forall k, nth k w 0%R = part_weight (afind e2p) pw p k.
Proof.
  intros e2p pw L m HL H p w Hp. destruct (submesh_weight_inv e2p pw L m HL H) as (A & B). split; [apply (A p w Hp)|].
  intros k. rewrite <- B, Hp. reflexivity.
Qed.

Lemma pset_NoDup : forall (m : list ((N * N) * R)) k v, NoDup (map fst m) -> In k (map fst m) -> NoDup (map fst (pset m k v)).
Proof. intros m k v H Hk. rewrite pset_keys by exact Hk. exact H. Qed.

Theorem submesh_edge_weight_counts : forall e2p edges (m : list ((N * N) * R)), submesh_edge_weight e2p edges = Ok m ->
  NoDup (map fst m) /\ (forall p q, In (p, q) (map fst m) -> p <= q) /\
  forall p q, p <= q -> (stored m p q = INR (length (edges_between (afind e2p) edges p q))) /\
    (In (p, q) (map fst m) <-> edges_between (afind e2p) edges p q <> []).
Proof.
  intros e2p edges. unfold submesh_edge_weight. induction edges as [|[a b] edges IH] using rev_ind; intros m H.
  - cbn in H. injection H as <-. split; [constructor|]. split; [intros p q []|]. intros p q Hpq. cbn. split; [reflexivity|]. split; [intros [] | intros Q; exact (Q eq_refl)].
  - rewrite ofold_app in H. destruct (ofold _ edges []) as [m0| |] eqn:E0; cbn [bind] in H; try discriminate.
    destruct (IH m0 eq_refl) as (D0 & O0 & C0). clear IH. cbn [ofold fst snd] in H.
    destruct (afind e2p a) as [pa|] eqn:Ea; cbn [of_at bind] in H; [|discriminate].
    destruct (afind e2p b) as [pb|] eqn:Eb; cbn [of_at bind] in H; [|discriminate].
    assert (EB : forall p q, p <= q -> edges_between (afind e2p) (edges ++ [(a, b)]) p q =
              edges_between (afind e2p) edges p q ++ if pair_eqb (p, q) (edge_of pa pb) then [(a, b)] else []).
    { intros p q Hpq. unfold edges_between. rewrite filter_app. f_equal. cbn [filter fst snd]. rewrite Ea, Eb.
      destruct (pair_eqb_spec (p, q) (edge_of pa pb)) as [E|n].
      - unfold edge_of in E. injection E as -> ->.
        destruct (N.min_spec pa pb) as [[M ->]|[M ->]], (N.max_spec pa pb) as [[M' ->]|[M' ->]]; try lia; rewrite !N.eqb_refl; cbn; rewrite ?orb_true_r; reflexivity.
      - destruct (N.eqb_spec pa p), (N.eqb_spec pb q), (N.eqb_spec pa q), (N.eqb_spec pb p); cbn; try reflexivity; exfalso; apply n; unfold edge_of; f_equal; lia. }
    assert (P2 : forall p q, p <= q -> length (edges_between (afind e2p) (edges ++ [(a, b)]) p q) =
       (length (edges_between (afind e2p) edges p q) + if pair_eqb (p, q) (edge_of pa pb) then 1 else 0)%nat).
    { intros p q Hpq. rewrite EB, app_length by exact Hpq. destruct (pair_eqb _ _); reflexivity. }
    assert (ST : forall (mm : list ((N * N) * R)) p q, NoDup (map fst mm) -> stored mm p q = match pfind mm (p, q) with Some w => w | None => 0%R end) by (intros; apply stored_pfind; assumption).
    destruct (pfind m0 (edge_of pa pb)) as [w|] eqn:Ep; injection H as <-.
    + assert (K : In (edge_of pa pb) (map fst m0)) by (apply pfind_In in Ep; apply (in_map fst) in Ep; exact Ep).
      assert (D : NoDup (map fst (pset m0 (edge_of pa pb) (nadd w (nofZ 1))))) by (apply pset_NoDup; assumption).
      split; [exact D|]. rewrite pset_keys by exact K. split; [exact O0|]. intros p q Hpq. destruct (C0 p q Hpq) as (C1 & C2). split.
      * rewrite ST, pset_find, P2 by assumption. rewrite ST in C1 by assumption. destruct (pair_eqb_spec (p, q) (edge_of pa pb)) as [E|n].
        { rewrite E, Ep in C1. rewrite plus_INR, <- C1. num_R. cbn. lra. }
        rewrite Nat.add_0_r. exact C1.
      * rewrite C2, EB by exact Hpq. destruct (pair_eqb_spec (p, q) (edge_of pa pb)) as [E|n].
        { split; [intros _ Q; apply app_eq_nil in Q; destruct Q; discriminate|]. intros _. apply C2. rewrite E. exact K. }
        rewrite app_nil_r. reflexivity.
    + assert (K : ~ In (edge_of pa pb) (map fst m0)) by (apply pfind_None, Ep).
      assert (D : NoDup (map fst (m0 ++ [(edge_of pa pb, nofZ 1)]))) by (rewrite map_app; apply NoDup_snoc; assumption).
      split; [exact D|]. rewrite map_app. split.
      { intros p q Q. apply in_app_iff in Q. destruct Q as [Q|[Q|[]]]; [apply (O0 p q Q)|]. cbn [fst] in Q. unfold edge_of in Q. injection Q as <- <-. lia. }
      intros p q Hpq. destruct (C0 p q Hpq) as (C1 & C2). split.
      * rewrite ST, pfind_app, P2 by assumption. rewrite ST in C1 by assumption. destruct (pair_eqb_spec (p, q) (edge_of pa pb)) as [E|n].
        { rewrite E, Ep in *. cbn [pfind]. destruct (pair_eqb_spec (edge_of pa pb) (edge_of pa pb)); [|contradiction].
          rewrite plus_INR, <- C1. num_R. cbn. lra. }
        rewrite Nat.add_0_r, <- C1. destruct (pfind m0 (p, q)); [reflexivity|]. cbn [pfind]. destruct (pair_eqb_spec (p, q) (edge_of pa pb)); [contradiction | reflexivity].
      * rewrite in_app_iff, C2, EB by exact Hpq. cbn [map fst In]. destruct (pair_eqb_spec (p, q) (edge_of pa pb)) as [E|n].
        { split; [intros _ Q; apply app_eq_nil in Q; destruct Q; discriminate | intros _; right; left; symmetry; exact E]. }
        rewrite app_nil_r. split; [intros [Q|[Q|[]]]; [exact Q | congruence] | auto].
Qed.

(** Proofs: averages at the nodes. *)
From Coq Require Import Reals List Bool Arith Lra Lia Permutation Sorted.
From Verif Require Import Num Outcome ModelSWE ModelShape ModelBasis ModelJac ModelSlope ModelStep ModelGN SpecShape SpecStepper SpecStage ModelGrad SpecGrad.
Import ListNotations.
Open Scope R_scope.

Section Average.
  Context (ids : nat -> nat -> nat).
  Lemma set_in : forall x l y, In y (set_insert x l) <-> y = x \/ In y l.
  Proof.
    intros x l y. induction l as [|z l IH]; cbn [set_insert In]; [intuition|]. destruct (x <? z)%nat; [cbn [In]; intuition|]. destruct (Nat.eqb_spec x z) as [->|]; cbn [In]; [intuition|]. rewrite IH. intuition.
  Qed.
  Lemma set_sorted : forall x l, StronglySorted lt l -> StronglySorted lt (set_insert x l).
  Proof.
    intros x l H. induction H as [|z l H IH F]; cbn [set_insert]; [repeat constructor|]. destruct (Nat.ltb_spec x z) as [L|L].
    - constructor; [constructor; assumption|]. constructor; [exact L|]. rewrite Forall_forall in *. intros y Hy. specialize (F y Hy). lia.
    - destruct (Nat.eqb_spec x z) as [->|N]; [constructor; assumption|]. constructor; [exact IH|]. rewrite Forall_forall in *. intros y Hy. apply set_in in Hy. destruct Hy as [->|Hy]; [lia|exact (F y Hy)].
  Qed.
  Lemma list_in : forall els x, In x (node_list ids els) <-> exists e v, In e els /\ (v < 3)%nat /\ x = ids e v.
  Proof.
    intros els x. unfold node_list.
    assert (G : forall l s, In x (fold_left (fun s e => fold_left (fun s v => set_insert (ids e v) s) corners s) l s) <-> In x s \/ exists e v, In e l /\ (v < 3)%nat /\ x = ids e v).
    { induction l as [|e l IH]; intros s; cbn [fold_left].
      - split; [intros H; left; exact H|intros [H|(e & v & [] & _)]; exact H].
      - rewrite IH. unfold corners. cbn [seq fold_left]. rewrite !set_in. split.
        + intros [[H|[H|[H|H]]]|(e' & v & I & Hv & E)]; [right; exists e, 2%nat|right; exists e, 1%nat|right; exists e, 0%nat|left; exact H|right; exists e', v]; repeat split; try (left; reflexivity); try lia; try exact H; try exact E. right; exact I.
        + intros [H|(e' & v & [<-|I] & Hv & E)].
          * left. right. right. right. exact H.
          * left. destruct v as [|[|[|v]]]; [right; right; left; exact E|right; left; exact E|left; exact E|lia].
          * right. exists e', v. repeat split; assumption. }
    rewrite G. split; [intros [[]|H]; exact H|intros H; right; exact H].
  Qed.
  Lemma list_nodup : forall els, NoDup (node_list ids els).
  Proof.
    intros els. assert (S : StronglySorted lt (node_list ids els)).
    { unfold node_list. assert (G : forall l s, StronglySorted lt s -> StronglySorted lt (fold_left (fun s e => fold_left (fun s v => set_insert (ids e v) s) corners s) l s)).
      { induction l as [|e l IH]; intros s H; cbn [fold_left]; [exact H|]. apply IH. unfold corners. cbn [seq fold_left]. repeat apply set_sorted. exact H. }
      apply G. constructor. }
    induction S as [|x l H IH F]; constructor; [|exact IH]. intros I. rewrite Forall_forall in F. specialize (F x I). lia.
  Qed.
  Lemma place_nth : forall l i, NoDup l -> (i < length l)%nat -> place (nth i l 0%nat) l = i.
  Proof.
    induction l as [|y l IH]; intros i N Hi; [cbn in Hi; lia|]. inversion N as [|? ? Ny Nl]; subst. destruct i as [|i]; cbn [nth place]; [rewrite Nat.eqb_refl; reflexivity|].
    cbn [length] in Hi. destruct (Nat.eqb_spec (nth i l 0%nat) y) as [E|_]; [exfalso; apply Ny; rewrite <- E; apply nth_In; lia|]. rewrite IH by (assumption || lia). reflexivity.
  Qed.
  Lemma nth_place : forall l x, In x l -> nth (place x l) l 0%nat = x /\ (place x l < length l)%nat.
  Proof.
    induction l as [|y l IH]; intros x H; [destruct H|]. cbn [place]. destruct (Nat.eqb_spec x y) as [->|N]; [split; [reflexivity|cbn; lia]|].
    destruct H as [H|H]; [congruence|]. destruct (IH x H) as [E L]. cbn [nth length]. split; [exact E|lia].
  Qed.
  Definition total (s : nat -> R) (g : nat) (els : list nat) : R := fold_right Rplus 0 (map (fun e => at_node ids g e * s e) els).
  Lemma total_app : forall s g l l', total s g (l ++ l') = total s g l + total s g l'.
  Proof. intros s g l l'. unfold total. induction l as [|e l IH]; cbn [app map fold_right]; [ring|]. rewrite IH. ring. Qed.
  Lemma gather_total : forall s els i, (i < length (node_list ids els))%nat -> gather ids s els i = total s (nth i (node_list ids els) 0%nat) els.
  Proof.
    intros s els i Hi. unfold gather. set (L := node_list ids els) in *.
    assert (P : forall x, In x L -> Nat.eqb i (place x L) = Nat.eqb x (nth i L 0%nat)).
    { intros x Hx. destruct (nth_place L x Hx) as [E _]. destruct (Nat.eqb_spec i (place x L)) as [->|N]; [rewrite E, Nat.eqb_refl; reflexivity|].
      destruct (Nat.eqb_spec x (nth i L 0%nat)) as [->|]; [|reflexivity]. rewrite place_nth in N; [congruence|apply list_nodup|exact Hi]. }
    assert (G : forall l D, (forall e, In e l -> In e els) ->
      fold_left (fun D e => fold_left (fun D v => let k := place (ids e v) L in upd D k (D k + s e)) corners D) l D i = D i + total s (nth i L 0%nat) l).
    { induction l as [|e l IH]; intros D H; cbn [fold_left]; [unfold total; cbn; ring|]. rewrite IH by (intros; apply H; right; assumption).
      assert (J : forall v, (v < 3)%nat -> In (ids e v) L) by (intros v Hv; apply list_in; exists e, v; repeat split; [apply H; left; reflexivity|exact Hv]).
      assert (U : forall D k, upd D k (D k + s e) i = D i + (if Nat.eqb i k then s e else 0)) by (intros D' k; unfold upd; destruct (Nat.eqb_spec i k) as [->|]; ring).
      unfold corners. cbn [seq fold_left]. rewrite !U, !P by (apply J; lia). unfold total. cbn [map fold_right]. unfold at_node.
      destruct (Nat.eqb (ids e 0%nat) (nth i L 0%nat)), (Nat.eqb (ids e 1%nat) (nth i L 0%nat)), (Nat.eqb (ids e 2%nat) (nth i L 0%nat)); ring. }
    rewrite G by (intros; assumption). ring.
  Qed.
  Lemma total_none : forall s g els, ~ In g (node_list ids els) -> total s g els = 0.
  Proof.
    intros s g els N. assert (H : forall l, (forall e, In e l -> In e els) -> total s g l = 0); [|apply H; intros; assumption].
    induction l as [|e l IH]; intros H; [reflexivity|]. unfold total in *. cbn [map fold_right]. rewrite IH by (intros; apply H; right; assumption). unfold at_node.
    assert (K : forall v, (v < 3)%nat -> Nat.eqb (ids e v) g = false).
    { intros v Hv. apply Nat.eqb_neq. intros E. apply N. apply list_in. exists e, v. repeat split; [apply H; left; reflexivity|exact Hv|symmetry; exact E]. }
    rewrite !K by lia. ring.
  Qed.
  Lemma rank_total : forall s G els g, add_rank ids s G els g = G g + total s g els.
  Proof.
    intros s G els g. unfold add_rank. set (L := node_list ids els).
    assert (H : forall l G, NoDup l -> (forall i, In i l -> (i < length L)%nat) ->
      fold_left (fun G i => let g := nth i L 0%nat in upd G g (G g + gather ids s els i)) l G g = G g + (if existsb (fun i => Nat.eqb (nth i L 0%nat) g) l then total s g els else 0)).
    { induction l as [|i l IH]; intros G0 N H; cbn [fold_left existsb]; [ring|]. inversion N as [|? ? Ni Nl]; subst. rewrite IH; [|exact Nl|intros; apply H; right; assumption].
      unfold upd. cbv zeta. rewrite (Nat.eqb_sym g). destruct (Nat.eqb_spec (nth i L 0%nat) g) as [E|E]; cbn [orb]; [|ring].
      destruct (existsb _ l) eqn:X.
      - apply existsb_exists in X. destruct X as (j & Ij & Ej). apply Nat.eqb_eq in Ej. exfalso. apply Ni.
        replace i with j; [exact Ij|]. rewrite <- (place_nth L i (list_nodup els) (H i (or_introl eq_refl))), <- (place_nth L j (list_nodup els) (H j (or_intror Ij))), E, Ej. reflexivity.
      - rewrite gather_total by (apply H; left; reflexivity). fold L. rewrite E. ring. }
    rewrite H; [|apply seq_NoDup|intros i Hi; apply in_seq in Hi; lia]. f_equal.
    destruct (existsb _ _) eqn:X; [reflexivity|]. symmetry. apply total_none. intros I. fold L in I. destruct (nth_place L g I) as [E Lt].
    assert (T : existsb (fun i => Nat.eqb (nth i L 0%nat) g) (seq 0 (length L)) = true) by (apply existsb_exists; exists (place g L); split; [apply in_seq; lia|apply Nat.eqb_eq; exact E]). congruence.
  Qed.
  Lemma assembled_total : forall s ranks g, assembled ids s ranks g = total s g (concat ranks).
  Proof.
    intros s ranks g. unfold assembled. assert (H : forall l G, fold_left (add_rank ids s) l G g = G g + total s g (concat l)).
    { induction l as [|els l IH]; intros G; cbn [fold_left concat]; [unfold total; cbn; ring|]. rewrite IH, rank_total, total_app. ring. }
    rewrite H. ring.
  Qed.
  Lemma count_total : forall g els, total (fun _ => 1) g els = fold_right Rplus 0 (map (at_node ids g) els).
  Proof. intros g els. unfold total. f_equal. apply map_ext. intros e. ring. Qed.
  Theorem average_mean : forall s ranks els e v, In e els -> (v < 3)%nat -> average ids s ranks els e v = node_mean ids s (concat ranks) (ids e v).
  Proof.
    intros s ranks els e v I Hv. unfold average, scattered. assert (J : In (ids e v) (node_list ids els)) by (apply list_in; exists e, v; repeat split; assumption).
    rewrite (proj1 (nth_place _ _ J)), !assembled_total, count_total. reflexivity.
  Qed.
  Lemma perm_sum : forall (f : nat -> R) l l', Permutation l l' -> fold_right Rplus 0 (map f l) = fold_right Rplus 0 (map f l').
  Proof. intros f l l' P. induction P as [|x l l' P IH|x y l|l l' l'' P IH P' IH']; cbn [map fold_right]; [reflexivity|rewrite IH; reflexivity|ring|congruence]. Qed.
  Lemma mean_perm : forall s l l' g, Permutation l l' -> node_mean ids s l g = node_mean ids s l' g.
  Proof. intros s l l' g P. unfold node_mean. rewrite !(perm_sum _ l l' P). reflexivity. Qed.
  Lemma count_pos : forall l e v, In e l -> (v < 3)%nat -> 0 < fold_right Rplus 0 (map (at_node ids (ids e v)) l).
  Proof.
    intros l e v I Hv. assert (P : forall g e, 0 <= at_node ids g e) by (intros g e'; unfold at_node; destruct (Nat.eqb _ _), (Nat.eqb _ _), (Nat.eqb _ _); lra).
    assert (Q : forall g l, 0 <= fold_right Rplus 0 (map (at_node ids g) l)) by (intros g; induction l0 as [|x l0 IH]; cbn [map fold_right]; [lra|pose proof (P g x); lra]).
    induction l as [|x l IH]; [destruct I|]. cbn [map fold_right]. destruct I as [->|I]; [|pose proof (P (ids e v) x); specialize (IH I); lra].
    specialize (Q (ids e v) l). assert (0 < at_node ids (ids e v) e); [|lra]. unfold at_node.
    destruct v as [|[|[|v]]]; [| | |lia]; rewrite Nat.eqb_refl; repeat destruct (Nat.eqb _ _); lra.
  Qed.
  Lemma mean_const : forall s x l e v, In e l -> (v < 3)%nat -> (forall e, In e l -> s e = x) -> node_mean ids s l (ids e v) = x.
  Proof.
    intros s x l e v I Hv H. unfold node_mean. pose proof (count_pos l e v I Hv) as P.
    replace (fold_right Rplus 0 (map (fun e0 => at_node ids (ids e v) e0 * s e0) l)) with (x * fold_right Rplus 0 (map (at_node ids (ids e v)) l)); [field; lra|].
    clear I P. revert H. induction l as [|y l IH]; intros H; cbn [map fold_right]; [ring|]. rewrite <- IH by (intros; apply H; right; assumption). rewrite (H y (or_introl eq_refl)). ring.
  Qed.
  (** The mean lies between the smallest and the largest value around. *)
  Lemma mean_range : forall s l e v lo hi, In e l -> (v < 3)%nat -> (forall e', In e' l -> at_node ids (ids e v) e' <> 0 -> lo <= s e' <= hi) -> lo <= node_mean ids s l (ids e v) <= hi.
  Proof.
    intros s l e v lo hi I Hv H. unfold node_mean. pose proof (count_pos l e v I Hv) as P. set (g := ids e v) in *. set (c := fold_right Rplus 0 (map (at_node ids g) l)) in *.
    assert (B : lo * c <= total s g l <= hi * c).
    { unfold total, c. clear I P c. induction l as [|y l IH]; cbn [map fold_right]; [lra|]. assert (N : 0 <= at_node ids g y) by (unfold at_node; destruct (Nat.eqb _ _), (Nat.eqb _ _), (Nat.eqb _ _); lra).
      specialize (IH (fun e' Ie Ne => H e' (or_intror Ie) Ne)). destruct (Req_dec (at_node ids g y) 0) as [Z|Z]; [rewrite Z; lra|]. pose proof (H y (or_introl eq_refl) Z). nra. }
    fold (total s g l). split; [apply (Rmult_le_reg_r c)|apply (Rmult_le_reg_r c)]; try exact P; unfold Rdiv; rewrite Rmult_assoc, Rinv_l, Rmult_1_r by lra; lra.
  Qed.
  Lemma serial_undefined : forall n w local x, (1 <= n)%nat -> (1 <= w)%nat -> avg_serial n w serial_size local x = UB.
  Proof.
    intros n w local x Hn Hw. unfold avg_serial, corners, serial_size. destruct n as [|n]; [lia|]. cbn [seq ofold bind]. unfold avg_add.
    destruct (Nat.leb_spec (local 0%nat 0%nat * w + w)%nat 0%nat) as [L|L]; [lia|]. reflexivity.
  Qed.
End Average.

(** Any two divisions of a mesh give the same system in the unknowns of the edges. *)
From Coq Require Import NArith List Bool Arith Lia Reals Lra Permutation.
From Verif Require Import Outcome ModelDist ModelComm ModelDofs SpecDofs LemmasDofs ModelGNum SpecGNum LemmasGNum1 LemmasGNum2 LemmasGNum3.
Import ListNotations.
Open Scope N_scope.

Lemma few_tot : forall wet rs, few rs -> tot wet (entries_of rs) < 2 ^ 32.
Proof. intros wet rs H. unfold few, items_of in H. rewrite map_length in H. eapply N.le_lt_trans; [apply tot_le|exact H]. Qed.

Lemma in_entries : forall res e, In e (entries_of (map fst res)) -> exists us (v : list N), In (us, v) res /\ In e (concat us).
Proof.
  intros res e I. unfold entries_of in I. apply in_concat in I. destruct I as (u & I & J). apply in_concat in I. destruct I as (us & I & K).
  apply in_map_iff in I. destruct I as ([us' v] & E & I). cbn in E. subst us'. exists us, v. split; [exact I|]. apply in_concat. exists u. auto.
Qed.
Theorem numbering_ok : forall wet rs, divided wet rs -> few rs ->
  exists res n num, renumber_all wet rs = Ok (res, n) /\ numbering_of wet rs num n /\ renumbered wet rs res num /\
    map (fun e => i_glob (snd e)) (filter (fun e => numbers wet (fst e)) (entries_of (map fst res))) = upto n.
Proof.
  intros wet rs D F. apply (few_tot wet) in F. destruct (renumber_ok wet rs D F) as (res & A & B & C).
  exists res, (tot wet (entries_of rs)), (num wet rs). split; [exact A|]. split; [exact (numbering_num wet rs D F)|]. split; [split; [exact B|]|].
  - intros us v e I J H. apply (holds_wet wet) in H. exact (proj1 (C us v e I J) H).
  - change (upto (tot wet (entries_of rs))) with (seqN (tot wet (entries_of rs))). rewrite <- range_0, <- (proj1 (proj2 (shifted_ok wet rs F))). unfold globs.
    transitivity (map (num wet rs) (map i_edge (filter (numbers wet) (items_of rs)))).
    + rewrite <- (items_same (map fst res) rs B). unfold items_of. rewrite filter_map, !map_map. apply map_ext_in. intros e I. apply filter_In in I. destruct I as [I N0].
      destruct (in_entries res e I) as (us & v & I1 & I2). exact (proj2 (C us v e I1 I2) N0).
    + rewrite <- (items_same (shifted wet rs) rs (proj1 (shifted_ok wet rs F))). unfold items_of. rewrite filter_map, !map_map. apply map_ext_in. intros e I. apply filter_In in I.
      exact (num_of wet rs D F e (proj1 I) (proj2 I)).
Qed.

Lemma good_of : forall wet rs res num, renumbered wet rs res num -> forall e, In e (entries_of (map fst res)) -> holds wet (fst e) = true ->
  i_glob (snd e) = num (i_edge (fst e)) /\ i_slot (snd e) = num (i_edge (fst e)).
Proof.
  intros wet rs res num (_ & H) e I Hd. destruct (in_entries res e I) as (us & v & I1 & I2). apply (holds_wet wet) in Hd. destruct (H us v e I1 I2 Hd) as (A & B & _). auto.
Qed.

Theorem rows_ok : forall wet rs res num n own con rh X at_, divided wet rs -> numbering_of wet rs num n -> renumbered wet rs res num ->
  (forall s j, edge_at rs s j -> wet_edge wet rs j -> at_ s = X (num j)) -> forall k, wet_edge wet rs k ->
  row_times (matrix wet own con (all_units res)) X (num k) = edge_equation wet rs own con at_ k /\
  row_rhs (right_side wet rh (all_units res)) (num k) = sum_of rh (filter (fun s => wet (fst s)) (sides_of rs k)).
Proof.
  intros wet rs res num n own con rh X at_ D Nm Rn At k K. split.
  - exact (row_ok wet rs (map fst res) D num n Nm (proj1 Rn) (good_of wet rs res num Rn) own con X at_ At k K).
  - exact (rhs_ok wet rs (map fst res) num n Nm (proj1 Rn) (good_of wet rs res num Rn) rh k K).
Qed.

(** ** The edge of a face *)
Lemma nodup_flat : forall (A B : Type) (g : A -> list B) l a b s, NoDup (flat_map g l) -> In a l -> In b l -> In s (g a) -> In s (g b) -> a = b.
Proof.
  intros A B g l. induction l as [|c l IH]; intros a b s N0 Ia Ib Sa Sb; [destruct Ia|]. cbn [flat_map] in N0.
  assert (Dj : forall s, In s (g c) -> In s (flat_map g l) -> False).
  { clear - N0. induction (g c) as [|x t IHt]; intros s Hs K; [destruct Hs|]. cbn [app] in N0. inversion N0 as [|? ? H1 H2]; subst. destruct Hs as [->|Hs]; [apply H1; apply in_or_app; right; exact K|exact (IHt H2 s Hs K)]. }
  destruct Ia as [->|Ia], Ib as [->|Ib]; [reflexivity| | |].
  - exfalso. apply (Dj s Sa). apply in_flat_map. exists b. auto.
  - exfalso. apply (Dj s Sb). apply in_flat_map. exists a. auto.
  - apply (IH a b s); auto. clear - N0. induction (g c) as [|x t IHt]; [exact N0|]. inversion N0; auto.
Qed.
Definition face_edge (rs : list (list gunit)) (s : slot) : nat :=
  match find (fun it => existsb (slot_eqb s) (i_slots it)) (items_of rs) with Some it => i_edge it | None => 0%nat end.
Lemma slot_eqb_eq : forall a b, slot_eqb a b = true <-> a = b.
Proof.
  intros [a b] [c d]. unfold slot_eqb. cbn [fst snd]. rewrite andb_true_iff, !Nat.eqb_eq. split; [intros [-> ->]; reflexivity|intros E; injection E as -> ->; auto].
Qed.
Lemma face_edge_ok : forall rs s j, NoDup (flat_map i_slots (items_of rs)) -> edge_at rs s j -> face_edge rs s = j.
Proof.
  intros rs s j N0 H. apply in_sides in H. destruct H as (it & I & E & Hs). unfold face_edge.
  destruct (find (fun it => existsb (slot_eqb s) (i_slots it)) (items_of rs)) as [it'|] eqn:Fd.
  - apply find_some in Fd. destruct Fd as [I' Q]. apply existsb_exists in Q. destruct Q as (s' & Is' & Q). apply slot_eqb_eq in Q. subst s'.
    rewrite <- E. f_equal. exact (nodup_flat _ _ i_slots _ it' it s N0 I' I Is' Hs).
  - pose proof (find_none _ _ Fd it I) as K. cbn beta in K. assert (T : existsb (slot_eqb s) (i_slots it) = true) by (apply existsb_exists; exists s; split; [exact Hs|apply slot_eqb_eq; reflexivity]). congruence.
Qed.

(** ** Two divisions *)
Lemma same_edge_at : forall P Q s j, same_mesh P Q -> (edge_at P s j <-> edge_at Q s j).
Proof. intros P Q s j H. unfold edge_at. split; apply Permutation_in; [apply H|apply Permutation_sym, H]. Qed.
Lemma same_wet : forall wet P Q k, same_mesh P Q -> (wet_edge wet P k <-> wet_edge wet Q k).
Proof. intros wet P Q k H. unfold wet_edge. split; intros (s & I & W); exists s; (split; [|exact W]); apply (same_edge_at P Q s k H); exact I. Qed.
Lemma same_size : forall wet P Q numP numQ n n', same_mesh P Q -> numbering_of wet P numP n -> numbering_of wet Q numQ n' -> n = n'.
Proof.
  intros wet P Q numP numQ n n' H (ks & A & B & C) (ks' & A' & B' & C').
  assert (L : length ks = length ks').
  { apply Permutation_length, NoDup_Permutation; [exact A|exact A'|]. intros k. rewrite B, B'. apply same_wet. exact H. }
  apply (f_equal (@length N)) in C. apply (f_equal (@length N)) in C'. unfold upto in *. rewrite !map_length, seq_length in *. lia.
Qed.
Lemma onto : forall wet rs num n r, numbering_of wet rs num n -> r < n -> exists k, wet_edge wet rs k /\ r = num k.
Proof.
  intros wet rs num n r (ks & A & B & C) H. assert (I : In r (map num ks)).
  { rewrite C. unfold upto. apply in_map_iff. exists (N.to_nat r). split; [apply N2Nat.id|]. apply in_seq. lia. }
  apply in_map_iff in I. destruct I as (k & E & I). exists k. split; [apply B; exact I|symmetry; exact E].
Qed.
Lemma below : forall wet rs num n k, numbering_of wet rs num n -> wet_edge wet rs k -> num k < n.
Proof.
  intros wet rs num n k (ks & A & B & C) H. apply B in H. apply (in_map num) in H. rewrite C in H. unfold upto in H. apply in_map_iff in H.
  destruct H as (i & E & I). apply in_seq in I. lia.
Qed.

Theorem same_rows : forall wet P Q resP resQ numP numQ n n' own con rh X Y, divided wet P -> divided wet Q -> same_mesh P Q ->
  numbering_of wet P numP n -> renumbered wet P resP numP -> numbering_of wet Q numQ n' -> renumbered wet Q resQ numQ ->
  (forall k, wet_edge wet P k -> X (numP k) = Y (numQ k)) -> forall k, wet_edge wet P k ->
  row_times (matrix wet own con (all_units resP)) X (numP k) = row_times (matrix wet own con (all_units resQ)) Y (numQ k) /\
  row_rhs (right_side wet rh (all_units resP)) (numP k) = row_rhs (right_side wet rh (all_units resQ)) (numQ k).
Proof.
  intros wet P Q resP resQ numP numQ n n' own con rh X Y DP DQ H NP RP NQ RQ XY k K.
  set (at_ := fun s => X (numP (face_edge P s))).
  assert (AP : forall s j, edge_at P s j -> wet_edge wet P j -> at_ s = X (numP j)).
  { intros s j A _. unfold at_. rewrite (face_edge_ok P s j (proj1 (proj2 DP)) A). reflexivity. }
  assert (AQ : forall s j, edge_at Q s j -> wet_edge wet Q j -> at_ s = Y (numQ j)).
  { intros s j A B. apply (same_edge_at P Q s j H) in A. apply (same_wet wet P Q j H) in B. rewrite <- (XY j B). exact (AP s j A B). }
  destruct (rows_ok wet P resP numP n own con rh X at_ DP NP RP AP k K) as [A1 A2].
  destruct (rows_ok wet Q resQ numQ n' own con rh Y at_ DQ NQ RQ AQ k (proj1 (same_wet wet P Q k H) K)) as [B1 B2].
  rewrite A1, A2, B1, B2. unfold edge_equation. split; apply sum_perm, filter_perm, H.
Qed.

Theorem same_solutions : forall wet P Q, divided wet P -> divided wet Q -> few P -> few Q -> same_mesh P Q ->
  exists resP resQ n numP numQ, renumber_all wet P = Ok (resP, n) /\ renumber_all wet Q = Ok (resQ, n) /\
    numbering_of wet P numP n /\ renumbered wet P resP numP /\ numbering_of wet Q numQ n /\ renumbered wet Q resQ numQ /\
    forall own con rh X Y, (forall k, wet_edge wet P k -> X (numP k) = Y (numQ k)) ->
      (solves (matrix wet own con (all_units resP)) (right_side wet rh (all_units resP)) n X <->
       solves (matrix wet own con (all_units resQ)) (right_side wet rh (all_units resQ)) n Y).
Proof.
  intros wet P Q DP DQ FP FQ H. destruct (numbering_ok wet P DP FP) as (resP & n & numP & A1 & A2 & A3 & _). destruct (numbering_ok wet Q DQ FQ) as (resQ & n' & numQ & B1 & B2 & B3 & _).
  pose proof (same_size wet P Q numP numQ n n' H A2 B2). subst n'. exists resP, resQ, n, numP, numQ. do 6 (split; [assumption|]).
  intros own con rh X Y XY. pose proof (same_rows wet P Q resP resQ numP numQ n n own con rh X Y DP DQ H A2 A3 B2 B3 XY) as G. split; intros S r L.
  - destruct (onto wet Q numQ n r B2 L) as (k & K & ->). apply (same_wet wet P Q k H) in K. destruct (G k K) as [G1 G2]. rewrite <- G1, <- G2. exact (S _ (below wet P numP n k A2 K)).
  - destruct (onto wet P numP n r A2 L) as (k & K & ->). destruct (G k K) as [G1 G2]. rewrite G1, G2. apply S. apply (below wet Q numQ n k B2). apply (same_wet wet P Q k H). exact K.
Qed.

(** ** Read-back *)
Theorem trace_read : forall wet rs res num X us v e, renumbered wet rs res num -> In (us, v) res -> In e (concat us) ->
  (exists s, In s (i_slots (fst e)) /\ wet (fst s) = true) -> read_trace (scatter X v) e = Ok (X (num (i_edge (fst e)))).
Proof.
  intros wet rs res num X us v e (_ & H) I J W. destruct (H us v e I J W) as (_ & _ & C). unfold read_trace, scatter. rewrite nth_error_map, C. reflexivity.
Qed.
Theorem read_past_end : forall X v us e, In e (concat us) -> N.of_nat (length v) <= i_loc (snd e) -> read_traces (scatter X v) us = UB.
Proof.
  intros X v us e I L. unfold read_traces. assert (E : read_trace (scatter X v) e = UB).
  { unfold read_trace, scatter. rewrite (proj2 (nth_error_None _ _)); [reflexivity|]. rewrite map_length. lia. }
  assert (T : forall e, read_trace (scatter X v) e <> Throw) by (intros e0; unfold read_trace; destruct (nth_error _ _); discriminate).
  assert (G : forall l, In e l -> omap (read_trace (scatter X v)) l = UB); [|exact (G _ I)]. clear I.
  induction l as [|e0 l IH]; intros I; [destruct I|]. cbn [omap]. destruct I as [I|I]; [subst e0; rewrite E; reflexivity|].
  specialize (T e0). destruct (read_trace (scatter X v) e0); [cbn [bind]; rewrite (IH I); reflexivity|congruence|reflexivity].
Qed.

Theorem traces_read : forall wet rs res num X us v, renumbered wet rs res num -> In (us, v) res ->
  (forall e, In e (concat us) -> exists s, In s (i_slots (fst e)) /\ wet (fst s) = true) ->
  read_traces (scatter X v) us = Ok (map (fun e => X (num (i_edge (fst e)))) (concat us)).
Proof.
  intros wet rs res num X us v H I W. unfold read_traces.
  assert (G : forall l, (forall e, In e l -> In e (concat us)) -> omap (read_trace (scatter X v)) l = Ok (map (fun e => X (num (i_edge (fst e)))) l)).
  { induction l as [|e l IH]; intros Q; [reflexivity|]. cbn [omap map]. rewrite (trace_read wet rs res num X us v e H I (Q e (or_introl eq_refl)) (W e (Q e (or_introl eq_refl)))). cbn [bind].
    rewrite IH by (intros; apply Q; right; assumption). reflexivity. }
  apply G. auto.
Qed.
Theorem first_ok : forall rs, divided (fun _ => true) rs -> few rs ->
  exists res n num, first_numbers rs = Ok (res, n) /\ numbering_of (fun _ => true) rs num n /\ renumbered (fun _ => true) rs res num /\
    forall us v X, In (us, v) res -> read_traces (scatter X v) us = Ok (map (fun e => X (num (i_edge (fst e)))) (concat us)) /\ (concat us <> [] -> index_set v <> UB).
Proof.
  intros rs D F. destruct (numbering_ok (fun _ => true) rs D F) as (res & n & num & A & B & C & _). exists res, n, num. do 3 (split; [assumption|]). intros us v X I.
  assert (W : forall e : entry, In e (concat us) -> exists s, In s (i_slots (fst e)) /\ true = true).
  { intros e _. destruct (fst e) as [k a b|k a|k a i x wn]; exists a; cbn; auto. }
  split; [exact (traces_read (fun _ => true) rs res num X us v C I W)|]. intros NE K. destruct (concat us) as [|e l] eqn:Ec; [congruence|].
  assert (Ie : In e (concat us)) by (rewrite Ec; left; reflexivity).
  destruct (proj2 C us v e I Ie (W e (or_introl eq_refl))) as (_ & _ & Q). unfold index_set, front in K. destruct v as [|y v]; [rewrite (proj2 (nth_error_None [] _) (Nat.le_0_l _)) in Q; discriminate|cbn in K; discriminate].
Qed.

(** ** Room in the matrix *)
Theorem row_room : forall wet rs res num n own con k, divided wet rs -> numbering_of wet rs num n -> renumbered wet rs res num -> wet_edge wet rs k ->
  (length (sides_of rs k) <= 2)%nat -> (forall s, In s (sides_of rs k) -> (snd s < 3)%nat) ->
  exists c, (length c <= 4)%nat /\ forall w, In w (matrix wet own con (all_units res)) -> fst (fst w) = num k -> snd (fst w) = num k \/ In (snd (fst w)) c.
Proof.
  intros wet rs res num n own con k D Nm Rn K L F.
  exists (flat_map (fun s => map (fun f => num (face_edge rs (fst s, f))) (others (snd s))) (sides_of rs k)). split.
  - revert L F. generalize (sides_of rs k). intros l L F.
    assert (G : forall l, (forall s, In s l -> (snd s < 3)%nat) -> (length (flat_map (fun s => map (fun f => num (face_edge rs (fst s, f))) (others (snd s))) l) <= 2 * length l)%nat).
    { clear. induction l as [|s l IH]; intros F; [cbn; lia|]. cbn [flat_map length]. rewrite app_length, map_length. specialize (IH (fun s' I => F s' (or_intror I))).
      assert (length (others (snd s)) = 2)%nat; [|lia]. pose proof (F s (or_introl eq_refl)). destruct (snd s) as [|[|[|x]]]; [reflexivity|reflexivity|reflexivity|lia]. }
    exact (Nat.le_trans _ _ _ (G l F) (Nat.mul_le_mono_l _ _ 2 L)).
  - intros w I R0. unfold matrix in I. apply in_flat_map in I. destruct I as (u & Iu & I). apply in_flat_map in I. destruct I as (e & Ie & I).
    unfold edge_blocks in I. destruct (holds wet (fst e)) eqn:Hd; [|destruct I].
    assert (Ie' : In e (entries_of (map fst res))) by (unfold entries_of; apply in_concat; exists u; auto).
    destruct (good_of wet rs res num Rn e Ie' Hd) as [G1 _].
    destruct I as [<-|I]; [left; exact R0|]. right. apply in_flat_map in I. destruct I as (s & Is & I). apply in_map_iff in I. destruct I as (f & <- & If). cbn [fst snd] in *.
    apply filter_In in Is. destruct Is as [Is Ws]. apply in_flat_map. exists s.
    assert (i_edge (fst e) = k) as Ek.
    { apply (numbering_inj wet rs num n _ _ Nm); [apply held_edge; [apply (entry_item rs (map fst res) (proj1 Rn)); exact Ie'|exact Hd]|exact K|rewrite <- G1; exact R0]. }
    split; [apply in_sides; exists (fst e); split; [apply (entry_item rs (map fst res) (proj1 Rn)); exact Ie'|auto]|].
    destruct (slot_seen wet rs (map fst res) D num (proj1 Rn) (good_of wet rs res num Rn) u e s f Iu Ie Is Ws (others_small _ _ If)) as (j & A & _ & C).
    apply in_map_iff. exists f. split; [|exact If]. rewrite C, (face_edge_ok rs _ j (proj1 (proj2 D)) A). reflexivity.
Qed.

(** Covering, agreement of both sides, local solution vectors. *)
From Coq Require Import NArith List Bool Arith Permutation Lia.
From Verif Require Import Outcome ModelDist ModelComm ModelDofs SpecDofs LemmasPart LemmasDist LemmasDofs LemmasDofs2.
Import ListNotations.
Open Scope N_scope.

Lemma Forall2_mono : forall (A B : Type) (P Q : A -> B -> Prop) l l', (forall a b, P a b -> Q a b) -> Forall2 P l l' -> Forall2 Q l l'.
Proof. intros A B P Q l l' H F. induction F; constructor; auto. Qed.

Lemma list_ext : forall (A : Type) (l l' : list A), (forall i, nth_error l i = nth_error l' i) -> l = l'.
Proof.
  intros A. induction l as [|a l IH]; intros [|b l'] H; try reflexivity; try (specialize (H 0%nat); discriminate).
  pose proof (H 0%nat) as H0. cbn in H0. injection H0 as ->. f_equal. apply IH. intros i. apply (H (S i)).
Qed.

Lemma concat_fin_units : forall us a, concat (concat (map (fun y => owned_blocks (fst y) (snd y)) (combine us (fin_units a us)))) = range a (usize us).
Proof.
  unfold usize. induction us as [|u us IH]; intros a; cbn [fin_units combine map sumN concat]; [reflexivity|]. cbn [fst snd].
  rewrite concat_app, concat_numbered, IH, range_app. reflexivity.
Qed.
Lemma concat_fin_all : forall ls a, concat (run_blocks ls (fin_all a ls)) = range a (total_unknowns ls).
Proof.
  unfold run_blocks. induction ls as [|us ls IH]; intros a; cbn [fin_all combine map concat]; [reflexivity|]. cbn [fst snd].
  rewrite !concat_app, concat_fin_units, IH. unfold total_unknowns. cbn [map sumN]. fold (usize us). rewrite range_app. reflexivity.
Qed.

Lemma owned_filter_eq : forall es bs bs', length bs = length es -> length bs' = length es ->
  (forall i e b, nth_error es i = Some e -> nth_error bs i = Some b -> owns e = true -> nth_error bs' i = Some b) ->
  map snd (filter (fun eb : dedge * list N => owns (fst eb)) (combine es bs')) = map snd (filter (fun eb => owns (fst eb)) (combine es bs)).
Proof.
  induction es as [|e es IH]; intros [|b bs] [|b' bs'] L L' H; try discriminate; [reflexivity|]. cbn [combine filter fst].
  assert (R : map snd (filter (fun eb : dedge * list N => owns (fst eb)) (combine es bs')) = map snd (filter (fun eb => owns (fst eb)) (combine es bs))).
  { apply IH; [injection L; auto | injection L'; auto|]. intros i. apply (H (S i)). }
  destruct (owns e) eqn:Ho; cbn [map]; rewrite R; [|reflexivity]. pose proof (H 0%nat e b eq_refl eq_refl Ho) as E. cbn in E. injection E as ->. reflexivity.
Qed.

Lemma nth_error_combine : forall (A B : Type) (l : list A) (l' : list B) i,
  nth_error (combine l l') i = match nth_error l i, nth_error l' i with Some a, Some b => Some (a, b) | _, _ => None end.
Proof. intros A B. induction l as [|a l IH]; intros [|b l'] [|i]; cbn; try reflexivity; [destruct (nth_error l i); reflexivity | apply IH]. Qed.

Section Run.
  Variable ls : list (list dunit).
  Hypothesis Htot : total_unknowns ls < 2 ^ 32.
  Hypothesis Hm : edges_matched ls.

  Lemma owns_not_defers : forall e, owns e = true -> defers e = false.
  Proof. intros e H. apply side_lt_asym. exact H. Qed.

  Lemma run_ok : exists res, number_all ls = Ok (res, total_unknowns ls) /\
    concat (run_blocks ls res) = upto (total_unknowns ls) /\
    (forall p u, unit_at ls p u -> exists n, numbering_at res p n /\
       Forall2 (fun nd b => contiguous b (3 * nd)) (u_int u) (n_int n) /\
       Forall2 (fun nd b => contiguous b (3 * nd)) (u_bnd u) (n_bnd n) /\
       Forall2 (fun e b => contiguous b (3 * g_ndof e)) (u_dist u) (n_dist n)) /\
    (forall p u n i e b, unit_at ls p u -> numbering_at res p n -> nth_error (u_dist u) i = Some e -> nth_error (n_dist n) i = Some b ->
       exists u' n' i' e', unit_at ls (g_ex e) u' /\ numbering_at res (g_ex e) n' /\ nth_error (u_dist u') i' = Some e' /\
         g_ex e' = p /\ g_pos e' = g_pos e /\ nth_error (n_dist n') i' = Some b).
  Proof.
    destruct (number_all_ok ls Htot Hm) as (res & E & L & K & F2). exists res. split; [exact E|]. split; [|split].
    - rewrite <- (range_0 (total_unknowns ls) : _ = upto _). rewrite <- (concat_fin_all ls 0). f_equal. unfold run_blocks. do 2 f_equal.
      apply list_ext. intros i. rewrite !nth_error_map, !nth_error_combine.
      destruct (nth_error ls i) as [us|] eqn:Hi; [|reflexivity]. destruct (fin_all_at ls 0 i us Hi) as (o & Hf & _). rewrite Hf.
      destruct (nth_error res i) as [rs|] eqn:Hr; [|apply nth_error_None in Hr; assert (nth_error ls i <> None) by congruence; apply nth_error_Some in H; lia].
      cbn [option_map fst snd]. f_equal. apply list_ext. intros j. rewrite !nth_error_map, !nth_error_combine.
      destruct (nth_error us j) as [u|] eqn:Hj; [|reflexivity].
      assert (Hu : unit_at ls (N.of_nat i, N.of_nat j) u) by (exists us; cbn [fst snd]; rewrite !Nat2N.id; auto).
      destruct (K _ u Hu) as (o' & n & n' & N1 & N2 & N3 & N4 & A1 & A2 & A3 & A4 & A5).
      destruct N1 as (ns & N1 & N1'). cbn [fst snd] in N1, N1'. rewrite !Nat2N.id in N1, N1'. assert (ns = fin_units o us) by congruence. subst ns.
      destruct N4 as (ns & N4 & N4'). cbn [fst snd] in N4, N4'. rewrite !Nat2N.id in N4, N4'. assert (ns = rs) by congruence. subst ns.
      rewrite N1', N4'. cbn [option_map fst snd]. f_equal. unfold owned_blocks. rewrite A1, A2. do 2 f_equal.
      apply owned_filter_eq; [subst n; apply dblocks_length | exact A3|]. intros k e b He Hb Ho. apply (A4 k e b He Hb). apply owns_not_defers. exact Ho.
    - intros p u Hu. destruct (K p u Hu) as (o & n & n' & N1 & N2 & N3 & N4 & A1 & A2 & A3 & A4 & A5). exists n'. split; [exact N4|].
      assert (B : forall l a, Forall2 (fun nd b => contiguous b (3 * nd)) l (blocks_from a l)).
      { clear. induction l as [|x l IH]; intros a; cbn [blocks_from]; constructor; [exists a; reflexivity | apply IH]. }
      split; [rewrite A1, N2; apply B|]. split; [rewrite A2, N2; apply B|].
      assert (Q : forall i e, nth_error (u_dist u) i = Some e -> exists b, nth_error (n_dist n') i = Some b /\ contiguous b (3 * g_ndof e)).
      { intros i e He. destruct (defers e) eqn:Hd.
        - destruct (A5 i e He Hd) as (u' & m & e' & b & B1 & B2 & B3 & B4 & B5 & B6 & B7 & B8). exists b. split; [exact B8|].
          destruct (owned_head ls Htot Hm _ u' m e' b B1 B2 B3 B4) as (x & X & _). exists x. rewrite X, B7. reflexivity.
        - assert (Hl : (i < length (n_dist n))%nat) by (subst n; cbn [numbered n_dist]; rewrite (dblocks_length (u_dist u)); apply nth_error_Some; congruence).
          destruct (nth_error (n_dist n) i) as [b|] eqn:Hb; [|apply nth_error_None in Hb; lia].
          exists b. split; [apply (A4 i e b He Hb Hd)|]. destruct (proj1 Hm p u e Hu (nth_error_In _ _ He)) as (P1 & P2 & _).
          assert (Ho : owns e = true) by (destruct (side_lt_total (g_in e) (g_ex e)) as [S0|S0]; [congruence | exact S0 | unfold defers in Hd; congruence]).
          destruct (owned_head ls Htot Hm p u n e b Hu N1) as (x & X & _); [eapply nth_error_In; apply combine_nth_error; eauto | exact Ho|]. exists x. exact X. }
      clear - Q A3. revert Q A3. generalize (n_dist n'). generalize (u_dist u). intros es. induction es as [|e es IH]; intros [|b bs] Q A3; try discriminate; constructor.
      + destruct (Q 0%nat e eq_refl) as (b' & E & C). injection E as <-. exact C.
      + apply IH; [|injection A3; auto]. intros i. apply (Q (S i)).
    - intros p u n i e b Hu Hn He Hb. destruct (K p u Hu) as (o & m & n' & N1 & N2 & N3 & N4 & A1 & A2 & A3 & A4 & A5).
      assert (n' = n) by (eapply numbering_at_fun; eassumption). subst n'.
      assert (I : In e (u_dist u)) by (eapply nth_error_In; exact He).
      destruct (defers e) eqn:Hd.
      + destruct (A5 i e He Hd) as (u' & m' & e' & b' & B1 & B2 & B3 & B4 & B5 & B6 & B7 & B8). assert (b' = b) by congruence. subst b'.
        destruct (K _ u' B1) as (o' & m2 & n2 & M1 & M2 & M3 & M4 & C1 & C2 & C3 & C4 & C5). assert (Em : m2 = m') by (eapply numbering_at_fun; eassumption). rewrite Em in C4.
        apply In_nth_error in B3. destruct B3 as (i' & B3). apply combine_nth_error in B3. destruct B3 as (B3 & B3').
        exists u', n2, i', e'. do 5 (split; [assumption|]). apply (C4 i' e' b B3 B3'). apply owns_not_defers. exact B4.
      + destruct (proj1 Hm p u e Hu I) as (P1 & P2 & P3 & u' & e' & U' & I' & X1 & X2 & X3).
        assert (Ho : owns e = true) by (destruct (side_lt_total (g_in e) (g_ex e)) as [S0|S0]; [congruence | exact S0 | unfold defers in Hd; congruence]).
        assert (Hd' : defers e' = true) by (rewrite (partner_defers ls Hm p u e u' e' Hu I U' I' X1); exact Ho).
        destruct (K _ u' U') as (o' & m2 & n2 & M1 & M2 & M3 & M4 & C1 & C2 & C3 & C4 & C5).
        apply In_nth_error in I'. destruct I' as (i' & I'). destruct (C5 i' e' I' Hd') as (u1 & m1 & e1 & b1 & D1 & D2 & D3 & D4 & D5 & D6 & D7 & D8).
        rewrite X1 in D1, D2. assert (u1 = u) by (eapply unit_at_fun; eassumption). subst u1. assert (Em : m1 = m) by (eapply numbering_at_fun; eassumption). rewrite Em in D3.
        apply In_nth_error in D3. destruct D3 as (i1 & D3). apply combine_nth_error in D3. destruct D3 as (D3 & D3').
        assert (i1 = i).
        { apply (proj1 (NoDup_nth_error _) (proj2 Hm p u Hu)).
          - rewrite map_length. apply nth_error_Some. congruence.
          - rewrite !nth_error_map, D3, He. cbn. congruence. }
        subst i1. assert (e1 = e) by congruence. subst e1.
        pose proof (A4 i e b1 He D3' Hd) as Q. assert (b1 = b) by congruence. subst b1.
        exists u', n2, i', e'. do 5 (split; [assumption|]). exact D8.
  Qed.
End Run.

(** ** The serial scheme *)
Lemma serial_ok : forall u, 3 * sumN (u_int u) + 3 * sumN (u_bnd u) < 2 ^ 32 ->
  exists n, number_serial u 0 = (n, 3 * sumN (u_int u) + 3 * sumN (u_bnd u)) /\
    concat (n_int n ++ n_bnd n) = upto (3 * sumN (u_int u) + 3 * sumN (u_bnd u)) /\
    Forall2 (fun nd b => contiguous b (3 * nd)) (u_int u) (n_int n) /\ Forall2 (fun nd b => contiguous b (3 * nd)) (u_bnd u) (n_bnd n).
Proof.
  intros u H. rewrite number_serial_eq by lia. eexists. split; [reflexivity|]. cbn [n_int n_bnd].
  assert (B : forall l a, Forall2 (fun nd b => contiguous b (3 * nd)) l (blocks_from a l)).
  { clear. induction l as [|x l IH]; intros a; cbn [blocks_from]; constructor; [exists a; reflexivity | apply IH]. }
  split; [|split; apply B]. rewrite concat_app, !concat_blocks, <- range_app, range_0. reflexivity.
Qed.

(** ** Local solution vector *)
Lemma slice_app : forall l o b t, slice l o b -> slice (l ++ t) o b.
Proof. intros l o b t (p & s & -> & L). exists p, (s ++ t). split; [rewrite <- !app_assoc; reflexivity | exact L]. Qed.

Lemma collect_unit : forall bs acc l, 
  exists os, fold_left (fun (a : list N * list N) b => (fst a ++ [N.of_nat (length (snd a))], snd a ++ b)) bs (acc, l) = (acc ++ os, l ++ concat bs) /\
    Forall2 (fun o b => slice (l ++ concat bs) o b) os bs.
Proof.
  induction bs as [|b bs IH]; intros acc l; cbn [fold_left concat fst snd].
  - exists []. rewrite !app_nil_r. split; [reflexivity | constructor].
  - destruct (IH (acc ++ [N.of_nat (length l)]) (l ++ b)) as (os & E & F). exists (N.of_nat (length l) :: os). rewrite E, <- !app_assoc. split; [reflexivity|].
    constructor.
    + exists l, (concat bs). auto.
    + rewrite <- app_assoc in F. exact F.
Qed.

Lemma collect_ok : forall ns, snd (collect ns) = concat (map (fun n => concat (all_edges n)) ns) /\
  Forall2 (fun os n => Forall2 (fun o b => slice (snd (collect ns)) o b) os (all_edges n)) (fst (collect ns)) ns.
Proof.
  unfold collect. induction ns as [|n ns IH] using rev_ind; [split; [reflexivity | constructor]|].
  rewrite fold_left_app. cbn [fold_left]. set (c := fold_left _ ns ([], [])) in *. destruct IH as (I1 & I2).
  destruct (collect_unit (all_edges n) [] (snd c)) as (os & E & F). rewrite E. cbn [fst snd app]. split.
  - rewrite map_app, concat_app, I1. cbn [map concat]. rewrite app_nil_r. reflexivity.
  - apply Forall2_app; [|constructor; [exact F | constructor]].
    eapply Forall2_mono; [|exact I2]. intros os' n' H. eapply Forall2_mono; [|exact H]. intros o b Hs. apply slice_app. exact Hs.
Qed.

(** Counting and shifting: the numbers given by all localities are consecutive. *)
From Coq Require Import NArith List Bool Arith Lia.
From Verif Require Import Outcome ModelDist ModelComm ModelDofs SpecDofs LemmasDofs ModelGNum SpecGNum.
Import ListNotations.
Open Scope N_scope.

Section Num.
  Context (wet : nat -> bool).
  Notation numbers := (numbers wet). Notation holds := (holds wet).
  Definition globs (u : gunit) : list N := map (fun e => i_glob (snd e)) (filter (fun e => numbers (fst e)) u).
  Definition tot (u : gunit) : N := N.of_nat (length (filter numbers (map fst u))).
  Definition coherent (u : gunit) : Prop := forall e, In e u -> numbers (fst e) = true -> i_slot (snd e) = i_glob (snd e).

  Lemma tot_app : forall u v, tot (u ++ v) = tot u + tot v.
  Proof. intros u v. unfold tot. rewrite map_app, filter_app, app_length, Nat2N.inj_add. reflexivity. Qed.
  Lemma globs_app : forall u v, globs (u ++ v) = globs u ++ globs v.
  Proof. intros u v. unfold globs. rewrite filter_app, map_app. reflexivity. Qed.
  Lemma coherent_app : forall u v, coherent u -> coherent v -> coherent (u ++ v).
  Proof. intros u v A B e H. apply in_app_or in H. destruct H as [H|H]; [apply A|apply B]; exact H. Qed.
  Lemma tot_le : forall u, tot u <= N.of_nat (length u).
  Proof.
    unfold tot. induction u as [|e u IH]; cbn; [lia|]. destruct (numbers (fst e)); cbn [length]; lia.
  Qed.

  Lemma range_cons : forall a n, range a (1 + n) = a :: range (a + 1) n.
  Proof. intros a n. rewrite range_app. reflexivity. Qed.

  Lemma count_edges_ok : forall u off, off + tot u < 2 ^ 32 ->
    map fst (fst (count_edges wet u off)) = map fst u /\ globs (fst (count_edges wet u off)) = range off (tot u) /\
    snd (count_edges wet u off) = off + tot u /\ coherent (fst (count_edges wet u off)).
  Proof.
    induction u as [|[it m] u IH]; intros off H.
    - cbn. split; [reflexivity|]. split; [reflexivity|]. split; [lia|]. intros e [].
    - cbn [count_edges]. assert (T : tot (@cons entry (it, m) u) = (if numbers it then 1 else 0) + tot u).
      { unfold tot. cbn [map fst filter]. destruct (numbers it); cbn [length]; lia. }
      rewrite T in H |- *. destruct (numbers it) eqn:E.
      + rewrite w32_small by lia. specialize (IH (off + 1)). destruct (count_edges wet u (off + 1)) as [r o]. cbn [fst snd] in *.
        destruct IH as (A & B & C & D); [lia|]. split; [cbn [map fst]; rewrite A; reflexivity|].
        split; [unfold globs; cbn [filter fst]; rewrite E; cbn [map snd i_glob set_glob]; rewrite range_cons; f_equal; exact B|].
        split; [lia|]. intros e [<-|He] N0; [reflexivity|exact (D e He N0)].
      + specialize (IH off). destruct (count_edges wet u off) as [r o]. cbn [fst snd] in *.
        destruct IH as (A & B & C & D); [lia|]. split; [cbn [map fst]; rewrite A; reflexivity|].
        split; [unfold globs; cbn [filter fst]; rewrite E; exact B|].
        split; [lia|]. intros e [<-|He] N0; [cbn [fst] in N0; congruence|exact (D e He N0)].
  Qed.

  Lemma count_units_ok : forall us off, off + tot (concat us) < 2 ^ 32 ->
    map (map fst) (fst (count_units wet us off)) = map (map fst) us /\ globs (concat (fst (count_units wet us off))) = range off (tot (concat us)) /\
    snd (count_units wet us off) = off + tot (concat us) /\ coherent (concat (fst (count_units wet us off))).
  Proof.
    induction us as [|u us IH]; intros off H.
    - cbn. split; [reflexivity|]. split; [reflexivity|]. split; [lia|]. intros e [].
    - cbn [count_units concat] in *. rewrite tot_app in H |- *. destruct (count_edges_ok u off) as (A & B & C & D); [lia|].
      destruct (count_edges wet u off) as [u' o]. cbn [fst snd] in *. subst o.
      destruct (IH (off + tot u)) as (A' & B' & C' & D'); [lia|]. destruct (count_units wet us (off + tot u)) as [r o]. cbn [fst snd] in *.
      split; [cbn [map]; rewrite A, A'; reflexivity|]. cbn [concat]. split; [rewrite globs_app, B, B', range_app; reflexivity|].
      split; [lia|]. apply coherent_app; assumption.
  Qed.

  (** ** Shifts *)
  Lemma shift_fst : forall o e, fst (shift_entry wet o e) = fst e.
  Proof. intros o e. unfold shift_entry. destruct (numbers (fst e)); reflexivity. Qed.
  Lemma shift_items : forall o u, map fst (map (shift_entry wet o) u) = map fst u.
  Proof. intros o u. rewrite map_map. apply map_ext. apply shift_fst. Qed.
  Lemma shift_globs : forall o u, globs (map (shift_entry wet o) u) = shift o (globs u).
  Proof.
    intros o u. unfold globs, shift. induction u as [|e u IH]; [reflexivity|]. cbn [map filter]. rewrite shift_fst.
    destruct (numbers (fst e)) eqn:E; [|exact IH]. cbn [map]. rewrite IH. f_equal. unfold shift_entry. rewrite E. reflexivity.
  Qed.
  Lemma shift_coherent : forall o u, coherent (map (shift_entry wet o) u).
  Proof.
    intros o u e H N0. apply in_map_iff in H. destruct H as (e0 & <- & _). rewrite shift_fst in N0. unfold shift_entry. rewrite N0. reflexivity.
  Qed.

  (** All localities after the shift. *)
  Definition shifted (rs : list (list gunit)) : list (list gunit) :=
    let one := map (fun us => count_units wet us 0) rs in
    map (fun x => shift_units wet (snd x) (fst (fst x))) (combine one (exclusive_scan (map snd one))).

  Lemma totals_eq : forall rs, tot (entries_of rs) < 2 ^ 32 ->
    map snd (map (fun us => count_units wet us 0) rs) = map (fun us => tot (concat us)) rs /\
    sumN (map (fun us => tot (concat us)) rs) = tot (entries_of rs).
  Proof.
    unfold entries_of. induction rs as [|us rs IH]; intros H; [split; reflexivity|].
    cbn [concat map sumN] in *. rewrite concat_app, tot_app in H. rewrite !concat_app, tot_app. destruct (IH ltac:(lia)) as [A B].
    destruct (count_units_ok us 0) as (_ & _ & C & _); [lia|]. split; [f_equal; [lia|exact A]|lia].
  Qed.

  Lemma shifted_ok : forall rs, tot (entries_of rs) < 2 ^ 32 ->
    map (map (map fst)) (shifted rs) = map (map (map fst)) rs /\
    globs (entries_of (shifted rs)) = range 0 (tot (entries_of rs)) /\ coherent (entries_of (shifted rs)).
  Proof.
    intros rs H. unfold shifted. destruct (totals_eq rs H) as [A B]. rewrite A, exclusive_scan_eq by (rewrite B; exact H). clear A B.
    assert (G : forall rs a, a + tot (entries_of rs) < 2 ^ 32 ->
      let two := map (fun x => shift_units wet (snd x) (fst (fst x))) (combine (map (fun us => count_units wet us 0) rs) (offsets_from a (map (fun us => tot (concat us)) rs))) in
      map (map (map fst)) two = map (map (map fst)) rs /\ globs (entries_of two) = range a (tot (entries_of rs)) /\ coherent (entries_of two)).
    { clear. unfold entries_of. induction rs as [|us rs IH]; intros a H; [cbn; split; [reflexivity|]; split; [reflexivity|intros e []]|].
      cbv zeta in *. cbn [map offsets_from combine concat] in *. cbn [fst snd] in *. rewrite concat_app, tot_app in H. rewrite !concat_app, tot_app.
      destruct (count_units_ok us 0) as (A & B & _ & _); [lia|]. destruct (IH (a + tot (concat us))) as (A' & B' & C'); [lia|].
      split; [|split].
      - f_equal; [|exact A']. rewrite <- A. unfold shift_units. rewrite map_map. apply map_ext. apply shift_items.
      - rewrite globs_app, B', range_app. f_equal. unfold shift_units. rewrite <- concat_map, shift_globs, B, shift_range by lia. f_equal.
      - apply coherent_app; [|exact C']. unfold shift_units. rewrite <- concat_map. apply shift_coherent. }
    apply (G rs 0). lia.
  Qed.
End Num.

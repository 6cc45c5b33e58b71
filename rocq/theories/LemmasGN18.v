(** Proofs: numbers left over from earlier numberings; solvers that overwrite; a basin. *)
From Coq Require Import Reals List Arith Bool Lia Lra FunctionalExtensionality.
From Verif Require Import Num Outcome ModelSWE LemmasSWE LemmasPart ModelShape ModelBasis ModelJac ModelStepper ModelStep ModelIHDG ModelCond SpecShape SpecBasis SpecStepper SpecStep SpecStage SpecCond
  LemmasRK LemmasStep LemmasStage3 LemmasStage4 LemmasCond ModelGN SpecGN LemmasGN1 LemmasGN2 LemmasGN3 LemmasGN4 LemmasGN5 LemmasGN6 LemmasGN7 LemmasGN8 LemmasGN10 LemmasGN11 LemmasGN12
  LemmasBasis4 ModelInit SpecRest LemmasRest1 LemmasRest2 LemmasRest3 LemmasRest5 LemmasGN9 LemmasGN13 LemmasGN14 LemmasGN15 LemmasGN16 LemmasRK2 LemmasGN17 LemmasRest6 SpecStage.
Import ListNotations.
Open Scope R_scope.

(** ** Numbers *)
Lemma not_thrown_fold : forall (A S : Type) (f : S -> A -> outcome S) l s, (forall s a, f s a <> Throw) -> ofold f l s <> Throw.
Proof. induction l as [|a l IH]; intros s H; [discriminate|]. cbn [ofold]. pose proof (H s a) as E. destruct (f s a); cbn [bind]; [apply IH; exact H|congruence|discriminate]. Qed.
Lemma fold_not_ok : forall (A S : Type) (f : S -> A -> outcome S) l s x, In x l -> (forall s, f s x = UB) -> (forall s a, f s a <> Throw) -> ofold f l s = UB.
Proof.
  induction l as [|a l IH]; intros s x H E T; [destruct H|]. cbn [ofold]. destruct H as [->|H]; [rewrite E; reflexivity|]. pose proof (T s a) as Ta.
  destruct (f s a); cbn [bind]; [apply (IH _ x); assumption|congruence|reflexivity].
Qed.
Section Stale.
  Context (m : mesh) (c : config) (disp : nat -> bool) (troubled : nat -> bool).
  Context (inverse : nat -> (nat -> nat -> R) -> nat -> nat -> R) (solve_dense : nat -> (nat -> nat -> R) -> (nat -> R) -> nat -> R)
          (solve_sparse : nat -> (nat -> nat -> R) -> (nat -> R) -> nat -> R).
  Lemma set_sub_thrown : forall n (w : nat -> R) l v, set_sub n w l v <> Throw.
  Proof. intros n w l v. unfold set_sub. destruct l; [discriminate|]. destruct (Nat.leb _ _); discriminate. Qed.
  Lemma back_thrown : forall wet nb d sol r x, back_edge m inverse solve_dense wet nb d sol r x <> Throw.
  Proof. intros. unfold back_edge. destruct (Nat.leb _ _); discriminate. Qed.
  Lemma assemble_thrown : forall wet nb d a x, assemble_edge m inverse solve_dense wet nb d a x <> Throw.
  Proof.
    intros wet nb d a x. unfold assemble_edge. pose proof (not_thrown_fold _ _ (add_side m inverse solve_dense nb d x) (wet_sides wet (snd x)) (fst a)) as H.
    assert (T : forall s y, add_side m inverse solve_dense nb d x s y <> Throw) by (intros s y; unfold add_side, sub_at; destruct (ge_kind (snd x)); apply set_sub_thrown).
    specialize (H T). destruct (ofold _ _ _); cbn [bind]; [discriminate|congruence|discriminate].
  Qed.
  Lemma stale_solve : forall wet nb d x, In x (numbered_edges m) -> (n_count nb <= n_edge nb (fst x))%nat -> solve_dc m inverse solve_dense solve_sparse wet nb d = UB.
  Proof.
    intros wet nb d x Hx H. unfold solve_dc. pose proof (not_thrown_fold _ _ (assemble_edge m inverse solve_dense wet nb d) (numbered_edges m) (fun _ => 0, []) (assemble_thrown wet nb d)) as T.
    destruct (ofold _ (numbered_edges m) (fun _ => 0, [])) as [[rhs ts]| |]; cbn [bind]; [|congruence|reflexivity].
    destruct (in_range _ ts); [|reflexivity]. rewrite (fold_not_ok _ _ _ (numbered_edges m) _ x Hx); [reflexivity| |intros; apply back_thrown].
    intros s. unfold back_edge. destruct (Nat.leb_spec (n_edge nb (fst x) * nhat m + nhat m) (nhat m * n_count nb)) as [L|]; [|reflexivity]. exfalso. unfold nhat in L. nia.
  Qed.
  Lemma number_other : forall wet l nb k, (forall x, In x l -> fst x = k -> wet_edge wet (snd x) = false) -> n_edge (fold_left (number_edge wet) l nb) k = n_edge nb k.
  Proof.
    intros wet. induction l as [|x l IH]; intros nb k H; [reflexivity|]. cbn [fold_left]. rewrite IH by (intros y Hy; apply H; right; exact Hy).
    destruct x as [j ed]. cbn [number_edge]. destruct (wet_edge wet ed) eqn:W; [|reflexivity]. cbn [n_edge]. unfold upd. destruct (Nat.eqb_spec k j) as [->|D]; [|reflexivity].
    pose proof (H (j, ed) (or_introl eq_refl) eq_refl) as F. cbn [snd] in F. congruence.
  Qed.
  Lemma number_count : forall wet l nb, n_count (fold_left (number_edge wet) l nb) = (n_count nb + length (filter (fun x => wet_edge wet (snd x)) l))%nat.
  Proof.
    intros wet. induction l as [|[j ed] l IH]; intros nb; [cbn; lia|]. cbn [fold_left filter snd]. rewrite IH. cbn [number_edge]. destruct (wet_edge wet ed); cbn [n_count length]; lia.
  Qed.
  Lemma blocks_thrown : forall g q wet, dc_blocks m g q wet <> Throw.
  Proof.
    intros g q wet. unfold dc_blocks. apply not_thrown_fold. intros s x. unfold global_edge. destruct (wet_edge _ _); [|discriminate].
    
    assert (E : edge_kernels wet (snd x) <> Throw) by (unfold edge_kernels; destruct (ge_kind _); [destruct (forallb _ _)| | |]; discriminate).
    destruct (edge_kernels wet (snd x)) as [[[Kh K1] K2]| |]; cbn [bind]; [discriminate|congruence|discriminate].
  Qed.
  (** A dry edge whose old number is past the number of wet edges. *)
  Theorem stale_stage : forall st nb stp x, c_wd c = true -> In x (numbered_edges m) -> wet_edge (ms_wet st) (snd x) = false ->
    (length (filter (fun x => wet_edge (ms_wet st) (snd x)) (numbered_edges m)) <= n_edge nb (fst x))%nat ->
    correction_stage m c disp inverse solve_dense solve_sparse troubled ((st, nb), stp) = UB.
  Proof.
    intros st nb stp x W Hx Dx H. unfold correction_stage. pose proof (blocks_thrown (c_g c) (fun e => ms_q st e (st_stage stp)) (ms_wet st)) as T.
    destruct (dc_blocks m (c_g c) (fun e => ms_q st e (st_stage stp)) (ms_wet st)) as [d| |]; cbn [bind]; [|congruence|reflexivity].
    rewrite W. cbn [renumber]. rewrite (stale_solve (ms_wet st) _ d x Hx); [reflexivity|]. rewrite number_count, number_other; [exact H|].
    intros y Hy E. assert (y = x) as ->; [|exact Dx]. apply numbered_nth in Hx. apply numbered_nth in Hy. destruct x as [j ed], y as [j' ed']. cbn [fst snd] in *. subst j'. congruence.
  Qed.
End Stale.
(** Numbers as first given. *)
Lemma first_number : forall m x, faces_once m -> In x (numbered_edges m) -> n_edge (first_numbering m) (fst x) = fst x.
Proof.
  intros m x HM Hx. destruct (first_num_ok m HM) as [_ H].
  assert (F : filter (fun x => wet_edge (fun _ => true) (snd x)) (numbered_edges m) = numbered_edges m).
  { pose proof (wet_edge_all m) as A. revert A. clear. induction (numbered_edges m) as [|y l IH]; [reflexivity|]. intros A. cbn [filter]. rewrite (A y (or_introl eq_refl)). f_equal. apply IH. intros z Hz. apply A. right. exact Hz. }
  rewrite F in H. pose proof (numbered_fst m) as N. apply numbered_nth in Hx.
  assert (L : length (gedges m) = n_count (first_numbering m)).
  { apply (f_equal (@length nat)) in H. rewrite map_length, seq_length in H. apply (f_equal (@length nat)) in N. rewrite map_length, seq_length in N. congruence. }
  assert (Hk : (fst x < length (gedges m))%nat) by (apply nth_error_Some; rewrite Hx; discriminate).
  assert (E : nth_error (numbered_edges m) (fst x) = Some x).
  { unfold numbered_edges. clear - Hx Hk. destruct x as [k ed]. cbn [fst snd] in *.
    assert (G : forall l o j, nth_error l j = Some ed -> nth_error (combine (seq o (length l)) l) j = Some (o + j, ed)%nat).
    { induction l as [|y l IH]; intros o j E; [destruct j; discriminate|]. destruct j as [|j]; cbn in *; [injection E as <-; rewrite Nat.add_0_r; reflexivity|]. rewrite (IH (S o) j E). replace (o + S j)%nat with (S o + j)%nat by lia. reflexivity. }
    exact (G (gedges m) 0%nat k Hx). }
  pose proof (map_nth_error (fun x => n_edge (first_numbering m) (fst x)) (fst x) (numbered_edges m) E) as Q. rewrite H in Q.
  assert (Q2 : nth_error (seq 0 (n_count (first_numbering m))) (fst x) = Some (fst x)).
  { rewrite (nth_error_nth' _ 0%nat) by (rewrite seq_length; lia). rewrite seq_nth by lia. reflexivity. }
  rewrite Q2 in Q. injection Q as Q. congruence.
Qed.
Theorem stale_last : forall m c disp troubled inverse solve_dense solve_sparse st stp ed, faces_once m -> c_wd c = true ->
  nth_error (gedges m) (n_edges m - 1) = Some ed -> wet_edge (ms_wet st) ed = false ->
  correction_stage m c disp inverse solve_dense solve_sparse troubled ((st, first_numbering m), stp) = UB.
Proof.
  intros m c disp troubled inverse solve_dense solve_sparse st stp ed HM W E D.
  assert (IN : In ((n_edges m - 1)%nat, ed) (numbered_edges m)) by (apply numbered_nth; exact E).
  apply (stale_stage m c disp troubled inverse solve_dense solve_sparse st _ stp ((n_edges m - 1)%nat, ed) W IN D). rewrite first_number by assumption. cbn [fst].
  assert (L : length (numbered_edges m) = n_edges m) by (rewrite <- gedges_length, <- (numbered_snd m), map_length; reflexivity).
  assert (G : forall l (f : nat * gedge -> bool) x, In x l -> f x = false -> (length (filter f l) <= length l - 1)%nat).
  { induction l as [|y l IH]; intros f x Hx Fx; [destruct Hx|]. cbn [filter length]. destruct Hx as [->|Hx].
    - rewrite Fx. clear. induction l as [|z l IH]; cbn; [lia|]. destruct (f z); cbn; lia.
    - specialize (IH f x Hx Fx). destruct l as [|z l]; [destruct Hx|]. destruct (f y); cbn [length] in *; lia. }
  rewrite <- L. exact (G _ _ _ IN D).
Qed.

(** ** The basin: the two triangles of [lake] over a level bed. *)
Definition basin (c : R) : input := Input 2 1 lake_nodes (fun _ _ => 2) rule2_2 rule1_3 (fun _ => SourceIn true 1 true 1) None
  [Intf 0 0 1 0 Internal] [Bnd 0 1 Land; Bnd 0 2 Land; Bnd 1 1 (Exterior (fun _ _ _ q => q)); Bnd 1 2 Land]
  None (V3 c 0 0) 10 0 1.
Lemma basin_ok : forall c, conforming (basin c) /\ unforced (basin c) c /\ good_weights (in_rule1 (basin c)).
Proof.
  intros c. split; [|split]; [constructor|constructor|]; cbn.
  - lia.
  - exact rule2_2_exact.
  - exact rule1_3_exact.
  - exact rule2_2_off.
  - exact rule1_3_sym.
  - intros e He. destruct e as [|[|e]]; [| |lia]; unfold orient, lake_nodes; cbn; lra.
  - change [(0, 0); (1, 0); (0, 1); (0, 2); (1, 1); (1, 2)]%nat with ([(0, 0)] ++ (1, 0) :: [(0, 1); (0, 2); (1, 1); (1, 2)])%nat.
    change [(0, 0); (0, 1); (0, 2); (1, 0); (1, 1); (1, 2)]%nat with ([(0, 0)] ++ [(0, 1); (0, 2)] ++ (1, 0) :: [(1, 1); (1, 2)])%nat.
    apply Permutation.Permutation_app_head. exact (Permutation.Permutation_middle [(0, 1); (0, 2)]%nat [(1, 1); (1, 2)]%nat (1, 0)%nat).
  - intros f [<-|[]]. cbn. unfold vsub. cbn. f_equal; ring.
  - intros f [<-|[]] _. cbn. split; reflexivity.
  - intros b [<-|[<-|[<-|[<-|[]]]]]; cbn; try exact I. reflexivity.
  - reflexivity.
  - reflexivity.
  - intros gp Hg. unfold rule1_3 in *. cbn [length] in *. destruct gp as [|[|gp]]; [| |lia]; cbn; lra.
Qed.

(** ** Level water over a level bed: the whole stage, whatever the momentum. *)
Section LevelStage.
  Context (i : input) (C : conforming i) (P : in_sph i = None) (x zb : R) (HZ : forall e v, (e < in_n i)%nat -> (v < 3)%nat -> in_z i e v = zb) (HD : 0 < x + zb) (GW : good_weights (in_rule1 i)).
  Context (c : config) (disp : nat -> bool) (troubled : nat -> bool).
  Context (inverse : nat -> (nat -> nat -> R) -> nat -> nat -> R) (solve_dense : nat -> (nat -> nat -> R) -> (nat -> R) -> nat -> R)
          (solve_sparse : nat -> (nat -> nat -> R) -> (nat -> R) -> nat -> R).
  Context (OI : inverse_ok inverse) (OD : solver_ok solve_dense) (OS : solver_ok solve_sparse).
  Context (NL : forall f, In f (in_intfaces i) -> i_kind f = Internal).
  Notation m := (init_mesh i).
  Notation B := (fun e gp => bath (m_aux m e gp)).
  Notation Bf := (fun e b gp => bath (m_faux m e b gp)).
  Theorem level_stage : forall st nb stp, let k := st_stage stp in let q := fun e => ms_q st e k in
    (k < st_nstages stp)%nat -> nb_ok i c nb -> (forall e, (e < m_n m)%nat -> ms_wet st e = true) ->
    (forall e d, (e < m_n m)%nat -> (d < ndof m)%nat -> q e 0%nat d = if Nat.eqb d 0 then x else 0) ->
    exists D st' nb' w1 w2 wh, slopes_of m q B Bf D /\
      correction_stage m c disp inverse solve_dense solve_sparse troubled ((st, nb), stp) = Ok ((st', nb'), stepper_incr stp) /\
      gn_system m alpha tau (ms_wet st) (depth m q B) (bed m D) (mean m (fdepth m q Bf)) (fbed m D) (gn_source m q B (c_g c) alpha D) w1 w2 wh /\
      gn_advance m c (st_dt stp) (st_nstages stp) k (gn_load m (c_g c) alpha (fun e => disp e && negb (troubled e)) q D w1) st st'.
  Proof.
    intros st nb stp k q Hk HN AW HQ. set (nb' := renumber m (c_wd c) (ms_wet st) nb).
    assert (HW : c_wd c = false -> nb = first_numbering m /\ forall e, (e < m_n m)%nat -> ms_wet st e = true) by (intros W; split; [exact (HN W)|exact AW]).
    assert (HO : num_ok m (ms_wet st) nb').
    { apply renumber_ok; [exact (once i C)|]. intros W. destruct (HW W) as [-> A]. split; [apply first_num_ok; exact (once i C)|exact A]. }
    destruct (gn_stage m c disp troubled (once i C) (good_tri i C) (order_298 i C) inverse solve_dense solve_sparse OI OD OS st nb stp Hk) as (D & SD & G).
    - intros f Hf K. exfalso. exact (K (NL f Hf)).
    - exact HW.
    - intros y Hy. rewrite <- gedges_length in Hy. destruct (nth_error (gedges m) y) as [ed|] eqn:E; [|apply nth_error_None in E; lia].
      assert (IN : In (y, ed) (numbered_edges m)) by (apply numbered_nth; exact E).
      apply (num_bound m (ms_wet st) nb' (y, ed) HO IN). apply (all_wet_edge m (ms_wet st) (y, ed) (once i C)); assumption.
    - destruct (G (level_water_solvable i C P x zb HZ HD GW _ (ms_wet st) D HQ SD)) as (st' & w1 & w2 & wh & E & S1 & S2 & _).
      exists D, st', nb', w1, w2, wh. split; [exact SD|]. split; [exact E|]. split; [exact S1|]. destruct S2 as [Wt S2]. split; [exact Wt|]. intros e He. destruct (S2 e He) as (M1 & M2).
      split; [|exact M2]. unfold gn_load in M1 |- *. rewrite (AW e He) in M1. exact M1.
  Qed.
End LevelStage.

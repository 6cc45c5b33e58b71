From Coq Require Import Reals Lra Lia Arith List Bool.
From Verif Require Import Num ModelSWE Outcome ModelShape ModelBasis ModelWetDry SpecWetDry LemmasSWE LemmasBasis4.
Import ListNotations.
Open Scope R_scope.

Lemma vv : forall u v, (v < 3)%nat -> vertex_value u v = TB v u.
Proof.
  intros u v H. unfold vertex_value.
  destruct (first_three (-1, -1)) as [A0 [A1 A2]]; [left; cbn; lra|].
  destruct (first_three (1, -1)) as [B0 [B1 B2]]; [left; cbn; lra|].
  destruct (first_three (-1, 1)) as [C0 [C1 C2]]; [right; reflexivity|]. cbn [fst snd] in *.
  destruct v as [|[|[|v]]]; [| | |lia]; cbn [master_vertex TB]; rewrite ?A0, ?A1, ?A2, ?B0, ?B1, ?B2, ?C0, ?C1, ?C2; field.
Qed.

Lemma to_linear_ok : forall p q, (1 <= p)%nat -> exists w, to_linear p q = Ok w /\
  forall var v, (var < 3)%nat -> w var v = TB v (q var).
Proof.
  intros p q H. unfold to_linear.
  destruct (b2l p (q 0%nat) H) as [w0 [-> W0]]. destruct (b2l p (q 1%nat) H) as [w1 [-> W1]].
  destruct (b2l p (q 2%nat) H) as [w2 [-> W2]]. cbn [bind]. eexists. split; [reflexivity|].
  intros var v L. destruct var as [|[|[|var]]]; [apply W0|apply W1|apply W2|lia].
Qed.

(** Modal state of given vertex values. *)
Definition modes_of (w : nat -> R) (u : nat -> R) : Prop :=
  u 0%nat = (w 0%nat + w 1%nat + w 2%nat) / 3 /\ u 1%nat = (2 * w 2%nat - w 0%nat - w 1%nat) / 6 /\
  u 2%nat = (w 1%nat - w 0%nat) / 2 /\ (forall i, (3 <= i)%nat -> u i = 0).

Lemma to_basis_ok : forall p q, (1 <= p)%nat -> exists u, to_basis p q = Ok u /\
  forall var, (var < 3)%nat -> modes_of (q var) (u var).
Proof.
  intros p q H. unfold to_basis.
  destruct (l2b p (q 0%nat) H) as [w0 [-> W0]]. destruct (l2b p (q 1%nat) H) as [w1 [-> W1]].
  destruct (l2b p (q 2%nat) H) as [w2 [-> W2]]. cbn [bind]. eexists. split; [reflexivity|].
  intros var L. destruct var as [|[|[|var]]]; [apply W0|apply W1|apply W2|lia].
Qed.

Lemma modes_vertex : forall w u v, (v < 3)%nat -> modes_of w u -> TB v u = w v.
Proof.
  intros w u v H [U0 [U1 [U2 _]]]. destruct v as [|[|[|v]]]; [| | |lia]; cbn [TB]; rewrite ?U0, ?U1, ?U2; field.
Qed.
Lemma modes_zero : forall w u i, modes_of w u -> (forall v, (v < 3)%nat -> w v = 0) -> u i = 0.
Proof.
  intros w u i [U0 [U1 [U2 U]]] Z. destruct i as [|[|[|i]]]; [rewrite U0|rewrite U1|rewrite U2|apply U; lia];
  rewrite ?(Z 0%nat), ?(Z 1%nat), ?(Z 2%nat) by lia; field.
Qed.
Lemma TB_mean : forall u, TB 0 u + TB 1 u + TB 2 u = 3 * u 0%nat.
Proof. intros u. cbn [TB]. ring. Qed.

Ltac nocmp t := lazymatch t with context [Rltb _ _] => fail | context [Rleb _ _] => fail | _ => idtac end.
Ltac rcase :=
  match goal with
  | |- context [Rltb ?a ?b] => nocmp a; nocmp b; destruct (Rltb_spec a b); cbv iota
  | |- context [Rleb ?a ?b] => nocmp a; nocmp b; destruct (Rleb_spec a b); cbv iota
  end.

(** ** Extrema *)
Lemma argmax3_spec : forall h, (argmax3 h < 3)%nat /\ forall v, (v < 3)%nat -> h v <= h (argmax3 h).
Proof.
  intros h. unfold argmax3.
  repeat rcase; (split; [lia|intros v Hv; destruct v as [|[|[|v]]]; [| | |lia]; lra]).
Qed.
Lemma argmin3_spec : forall h, (argmin3 h < 3)%nat /\ forall v, (v < 3)%nat -> h (argmin3 h) <= h v.
Proof.
  intros h. unfold argmin3.
  repeat rcase; (split; [lia|intros v Hv; destruct v as [|[|[|v]]]; [| | |lia]; lra]).
Qed.

Lemma count_dry_spec : forall lim h,
  (count_dry lim h = 0%nat <-> forall v, (v < 3)%nat -> lim < h v) /\
  (count_dry lim h = 3%nat <-> forall v, (v < 3)%nat -> h v <= lim) /\ (count_dry lim h <= 3)%nat.
Proof.
  intros lim h. unfold count_dry. cbn [seq fold_left].
  repeat rcase; (split; [|split]);
    (lia || (split; [intros E; try discriminate E; intros v Hv; destruct v as [|[|[|v]]]; (lia || lra)
                    |intros A; pose proof (A 0%nat ltac:(lia)); pose proof (A 1%nat ltac:(lia)); pose proof (A 2%nat ltac:(lia));
                     solve [reflexivity|exfalso; lra]])).
Qed.

(** ** Redistribution *)
Lemma redistribute_ok : forall H thr h, 0 <= thr ->
  (exists v, (v < 3)%nat /\ h v <= H + thr) ->
  H + thr < (h 0%nat + h 1%nat + h 2%nat) / 3 ->
  exists h', redistribute H h = Ok h' /\
    h' 0%nat + h' 1%nat + h' 2%nat = h 0%nat + h 1%nat + h 2%nat /\
    (forall v, (v < 3)%nat -> H <= h' v) /\ (exists v, (v < 3)%nat /\ H + thr < h' v).
Proof.
  intros H thr h T [v [Hv D]] A. unfold redistribute.
  assert (Dm : h (argmin3 h) <= H + thr) by (destruct (argmin3_spec h) as [_ M]; specialize (M v Hv); lra).
  clear v Hv D.
  unfold argmin3, argmax3 in *. revert Dm.
  repeat rcase; intros Dm; cbn in *;
    try (exfalso; lra);
    (eexists; split; [reflexivity|]); unfold upd; cbn;
    unfold Rmax; destruct (Rle_dec _ _);
    (split; [field; fail|split; [intros v Hv; destruct v as [|[|[|v]]]; (lia || (cbn; lra))|]]) || idtac.
  all: try (split; [lra|split; [intros v Hv; destruct v as [|[|[|v]]]; (lia || (cbn; lra))|]]).
  all: first [exists 0%nat; split; [lia|cbn; lra] | exists 1%nat; split; [lia|cbn; lra] | exists 2%nat; split; [lia|cbn; lra]].
Qed.

Lemma move_ok : forall lim h bath q, (exists v, (v < 3)%nat /\ lim < h v) ->
  exists q', move_discharge lim h bath q = Ok q' /\
    (forall v, (v < 3)%nat -> q' 0%nat v = h v - bath v) /\
    (forall var, (1 <= var < 3)%nat -> q' var 0%nat + q' var 1%nat + q' var 2%nat = q var 0%nat + q var 1%nat + q var 2%nat) /\
    (forall var v, (1 <= var < 3)%nat -> (v < 3)%nat -> h v <= lim -> q' var v = 0).
Proof.
  intros lim h bath q [v [Hv W]]. unfold move_discharge.
  destruct (count_dry_spec lim h) as [_ [C3 Cle]].
  destruct (Nat.ltb_spec (count_dry lim h) 3) as [L|L].
  - eexists. split; [reflexivity|]. split; [reflexivity|]. split.
    + intros var Hvar. destruct var as [|var]; [lia|].
      revert L. unfold count_dry. cbn [seq fold_left]. repeat rcase; cbn; intros L; try lia; field.
    + intros var u Hvar Hu Hd. destruct var as [|var]; [lia|]. rewrite (Rleb_true _ _ Hd). reflexivity.
  - exfalso. assert (E : count_dry lim h = 3%nat) by lia. pose proof (proj1 C3 E v Hv). lra.
Qed.

(** ** The whole kernel *)
Section Kernel.
Variables (p : nat) (H thr : R) (bath : nat -> R) (bath_min : R).
Hypothesis (Hp : (1 <= p)%nat) (Ht : 0 <= thr) (HH : 0 <= H).
Hypothesis Hb : forall v, (v < 3)%nat -> bath_min <= bath v.

(** What a result must satisfy, relative to the mean depth. *)
Definition good (s s' : elt_wd) : Prop :=
  cell_mean (e_q s' 0%nat) = cell_mean (e_q s 0%nat) + Rmax 0 (thr - mean_depth bath s) /\
  (forall v, (v < 3)%nat -> Rmin H (Rmax thr (mean_depth bath s)) <= vertex_depth bath s' v) /\
  (e_wet s' = false -> (forall var dof, (1 <= var < 3)%nat -> e_q s' var dof = 0) /\ (forall var dof, e_rhs s' var dof = 0)) /\
  (e_wet s' = true -> (exists v, (v < 3)%nat /\ H < vertex_depth bath s' v) /\
     (forall var dof, e_rhs s' var dof = e_rhs s var dof)) /\
  (e_completely_dry s' = true <-> mean_depth bath s <= thr) /\
  (forall var, (1 <= var < 3)%nat -> cell_mean (e_q s' var) = cell_mean (e_q s var) \/ cell_mean (e_q s' var) = 0).

Lemma final_ok : forall s h q state rhs cd,
  (forall v, (v < 3)%nat -> TB v (state 0%nat) = q 0%nat v) ->
  cell_mean (state 0%nat) = cell_mean (e_q s 0%nat) + Rmax 0 (thr - mean_depth bath s) ->
  (forall v, (v < 3)%nat -> Rmin H (Rmax thr (mean_depth bath s)) <= q 0%nat v + bath v) ->
  (forall var dof, rhs var dof = e_rhs s var dof) ->
  (cd = true <-> mean_depth bath s <= thr) ->
  (forall var, (1 <= var < 3)%nat -> cell_mean (state var) = cell_mean (e_q s var) \/ cell_mean (state var) = 0) ->
  exists s', final_check p H bath_min h q state rhs cd = Ok s' /\ good s s'.
Proof.
  intros s h q state rhs cd V M D Rh Cd Mo. unfold final_check.
  destruct (argmax3_spec h) as [Lm _]. set (m := argmax3 h) in *.
  destruct (Rltb_spec (H - bath_min) (q 0%nat m)) as [W|W].
  - eexists. split; [reflexivity|]. unfold good. cbn [e_q e_rhs e_wet e_completely_dry].
    split; [exact M|]. split; [intros v Hv; unfold vertex_depth; cbn; rewrite vv, V by exact Hv; apply D; exact Hv|].
    split; [discriminate|]. split; [|split; [exact Cd|exact Mo]]. intros _. split; [|exact Rh].
    exists m. split; [exact Lm|]. unfold vertex_depth. cbn. rewrite vv, V by exact Lm. specialize (Hb m Lm). lra.
  - destruct (to_basis_ok p (no_discharge q) Hp) as [u [-> U]]. cbn [bind]. eexists. split; [reflexivity|].
    pose proof (U 0%nat ltac:(lia)) as U0.
    unfold good. cbn [e_q e_rhs e_wet e_completely_dry].
    assert (VU : forall v, (v < 3)%nat -> TB v (u 0%nat) = q 0%nat v).
    { intros v Hv. rewrite (modes_vertex _ _ v Hv U0). reflexivity. }
    split.
    { unfold cell_mean in *. destruct U0 as [-> _]. cbn [no_discharge].
      pose proof (TB_mean (state 0%nat)) as T. rewrite !V in T by lia. lra. }
    split; [intros v Hv; unfold vertex_depth; cbn; rewrite vv, VU by exact Hv; apply D; exact Hv|].
    assert (Z : forall var dof, (1 <= var < 3)%nat -> u var dof = 0).
    { intros var dof Hv. apply (modes_zero (no_discharge q var)); [apply U; lia|].
      intros v _. destruct var; [lia|reflexivity]. }
    split; [intros _; split; [exact Z|reflexivity]|]. split; [discriminate|]. split; [exact Cd|].
    intros var Hv. right. unfold cell_mean. apply Z. exact Hv.
Qed.

Lemma kernel_ok : forall s, exists s', wetting_drying_kernel p H thr bath bath_min s = Ok s' /\ good s s'.
Proof.
  intros s. unfold wetting_drying_kernel.
  destruct (to_linear_ok p (e_q s) Hp) as [q [-> Q]]. cbn [bind].
  set (h := fun v => q 0%nat v + bath v).
  assert (Eavg : (0 + h 0%nat + h 1%nat + h 2%nat) / 3 = mean_depth bath s).
  { unfold h, mean_depth, cell_mean. rewrite !Q by lia. pose proof (TB_mean (e_q s 0%nat)). lra. }
  change (q 0%nat 0%nat + bath 0%nat) with (h 0%nat). change (q 0%nat 1%nat + bath 1%nat) with (h 1%nat).
  change (q 0%nat 2%nat + bath 2%nat) with (h 2%nat).
  rewrite Eavg. set (a := mean_depth bath s) in *.
  destruct (count_dry_spec (H + thr) h) as [C0 [C3 Cle]].
  assert (Cd : Rleb a thr = true <-> a <= thr) by (destruct (Rleb_spec a thr); split; intros; (assumption || discriminate || reflexivity || lra)).
  set (a' := if Rleb a thr then thr else a).
  assert (Ea' : a' = Rmax thr a).
  { unfold a'. destruct (Rleb_spec a thr); unfold Rmax; destruct (Rle_dec thr a); lra. }
  assert (Em : a' = a + Rmax 0 (thr - a)).
  { rewrite Ea'. unfold Rmax. destruct (Rle_dec thr a), (Rle_dec 0 (thr - a)); lra. }
  assert (Vs : forall v, (v < 3)%nat -> vertex_value (e_q s 0%nat) v = q 0%nat v) by (intros v Hv; rewrite vv by exact Hv; rewrite Q by lia; reflexivity).
  assert (M3 : h 0%nat + h 1%nat + h 2%nat = 3 * a) by lra.
  assert (Flat : forall u, modes_of (flat a' bath 0%nat) u -> cell_mean u = cell_mean (e_q s 0%nat) + Rmax 0 (thr - a)).
  { intros u [U0 _]. unfold cell_mean at 1. rewrite U0. cbn [flat]. rewrite Em. unfold a at 1 3 5, mean_depth. field. }
  destruct (Nat.eqb_spec (count_dry (H + thr) h) 0) as [N0|N0].
  - pose proof (proj1 C0 N0) as All.
    assert (Ha : H + thr < a) by (pose proof (All 0%nat ltac:(lia)); pose proof (All 1%nat ltac:(lia)); pose proof (All 2%nat ltac:(lia)); lra).
    assert (Z : Rmax 0 (thr - a) = 0) by (unfold Rmax; destruct (Rle_dec 0 (thr - a)); lra).
    assert (B : Rmin H (Rmax thr a) <= H) by apply Rmin_l.
    destruct (e_wet s) eqn:Ew.
    + eexists. split; [reflexivity|]. unfold good. cbn [e_q e_rhs e_wet e_completely_dry]. fold a.
      split; [rewrite Z; ring|]. split; [intros v Hv; unfold vertex_depth; cbn; rewrite Vs by exact Hv; specialize (All v Hv); unfold h in All; lra|].
      split; [discriminate|]. split; [|split; [exact Cd|intros; left; reflexivity]].
      intros _. split; [|reflexivity]. exists 0%nat. split; [lia|]. unfold vertex_depth; cbn. rewrite Vs by lia.
      specialize (All 0%nat ltac:(lia)). unfold h in All. lra.
    + apply final_ok; fold a.
      * intros v Hv. rewrite Q by lia. reflexivity.
      * rewrite Z. ring.
      * intros v Hv. specialize (All v Hv). unfold h in All. lra.
      * reflexivity.
      * exact Cd.
      * intros; left; reflexivity.
  - destruct (Nat.eqb_spec (count_dry (H + thr) h) 3) as [N3|N3].
    + destruct (to_basis_ok p (flat a' bath) Hp) as [u [-> U]]. cbn [bind]. eexists. split; [reflexivity|].
      pose proof (U 0%nat ltac:(lia)) as U0.
      unfold good. cbn [e_q e_rhs e_wet e_completely_dry]. fold a.
      split; [apply Flat; exact U0|].
      split. { intros v Hv. unfold vertex_depth. cbn. rewrite vv, (modes_vertex _ _ v Hv U0) by exact Hv. cbn [flat].
               pose proof (Rmin_r H (Rmax thr a)). lra. }
      assert (Zq : forall var dof, (1 <= var < 3)%nat -> u var dof = 0).
      { intros var dof Hv. apply (modes_zero (flat a' bath var)); [apply U; lia|]. intros v _. destruct var; [lia|reflexivity]. }
      split; [intros _; split; [exact Zq|reflexivity]|]. split; [discriminate|]. split; [exact Cd|].
      intros var Hv. right. apply Zq. exact Hv.
    + destruct (Rleb_spec a' (H + thr)) as [Fl|Fl].
      * destruct (to_basis_ok p (flat a' bath) Hp) as [u [-> U]]. cbn [bind].
        pose proof (U 0%nat ltac:(lia)) as U0.
        apply final_ok; fold a.
        -- intros v Hv. apply (modes_vertex _ _ v Hv U0).
        -- apply Flat. exact U0.
        -- intros v Hv. cbn [flat]. pose proof (Rmin_r H (Rmax thr a)). lra.
        -- reflexivity.
        -- exact Cd.
        -- intros var Hv. right. unfold cell_mean. apply (modes_zero (flat a' bath var)); [apply U; lia|].
           intros v _. destruct var; [lia|reflexivity].
      * assert (Na : thr < a) by (unfold Rmax in Ea'; destruct (Rle_dec thr a); lra).
        assert (E : a' = a) by (unfold a'; rewrite (Rleb_false _ _ Na); reflexivity). rewrite E in Fl.
        assert (Dry : exists v, (v < 3)%nat /\ h v <= H + thr).
        { destruct (Rle_dec (h 0%nat) (H + thr)); [exists 0%nat; split; [lia|assumption]|].
          destruct (Rle_dec (h 1%nat) (H + thr)); [exists 1%nat; split; [lia|assumption]|].
          destruct (Rle_dec (h 2%nat) (H + thr)); [exists 2%nat; split; [lia|assumption]|].
          exfalso. apply N0. apply C0. intros v Hv. destruct v as [|[|[|v]]]; (lia || lra). }
        destruct (redistribute_ok H thr h Ht Dry ltac:(lra)) as [h' [-> [S' [P' W']]]]. cbn [bind].
        destruct (move_ok (H + thr) h' bath q W') as [qv [-> [V' [Mom _]]]]. cbn [bind].
        destruct (to_basis_ok p qv Hp) as [u [-> U]]. cbn [bind].
        pose proof (U 0%nat ltac:(lia)) as U0.
        assert (Z : Rmax 0 (thr - a) = 0) by (unfold Rmax; destruct (Rle_dec 0 (thr - a)); lra).
        apply final_ok; fold a.
        -- intros v Hv. apply (modes_vertex _ _ v Hv U0).
        -- rewrite Z. unfold cell_mean at 1. destruct U0 as [-> _]. rewrite !V' by lia. unfold a, mean_depth in M3. lra.
        -- intros v Hv. rewrite V' by exact Hv. specialize (P' v Hv). pose proof (Rmin_l H (Rmax thr a)). lra.
        -- reflexivity.
        -- exact Cd.
        -- intros var Hv. left. unfold cell_mean. destruct (U var ltac:(lia)) as [-> _]. rewrite Mom by exact Hv.
           rewrite !Q by lia. pose proof (TB_mean (e_q s var)). lra.
Qed.
End Kernel.

(** ** Initial data *)
Lemma init_ok : forall p H thr bath s, (1 <= p)%nat -> 0 <= thr ->
  exists s', init_wet_dry p H thr bath s = Ok s' /\
  (forall v, (v < 3)%nat -> H <= vertex_depth bath s' v) /\
  (e_wet s' = true <-> forall v, (v < 3)%nat -> H + thr < vertex_depth bath s v) /\
  (e_wet s' = true -> forall var dof, e_q s' var dof = e_q s var dof) /\
  (e_wet s' = false -> (forall var dof, (1 <= var < 3)%nat -> e_q s' var dof = 0) /\ (forall var dof, e_rhs s' var dof = 0) /\
     forall v, (v < 3)%nat -> vertex_depth bath s' v = if Rle_dec (vertex_depth bath s v) (H + thr) then H else vertex_depth bath s v).
Proof.
  intros p H thr bath s Hp Ht. unfold init_wet_dry.
  destruct (to_linear_ok p (e_q s) Hp) as [q [-> Q]]. cbn [bind].
  assert (V : forall v, (v < 3)%nat -> vertex_depth bath s v = q 0%nat v + bath v).
  { intros v Hv. unfold vertex_depth. rewrite vv by exact Hv. rewrite Q by lia. reflexivity. }
  set (h := fun v => q 0%nat v + bath v).
  change (q 0%nat 0%nat + bath 0%nat) with (h 0%nat). change (q 0%nat 1%nat + bath 1%nat) with (h 1%nat).
  change (q 0%nat 2%nat + bath 2%nat) with (h 2%nat).
  destruct (Rleb (h 0%nat) (H + thr) || Rleb (h 1%nat) (H + thr) || Rleb (h 2%nat) (H + thr))%bool eqn:E.
  - match goal with |- context [to_basis p ?w] => destruct (to_basis_ok p w Hp) as [u [-> U]] end. cbn [bind].
    eexists. split; [reflexivity|]. pose proof (U 0%nat ltac:(lia)) as U0.
    assert (D : forall v, (v < 3)%nat -> vertex_depth bath {| e_q := u; e_rhs := fun _ _ : nat => 0; e_wet := false; e_completely_dry := e_completely_dry s |} v
       = if Rle_dec (vertex_depth bath s v) (H + thr) then H else vertex_depth bath s v).
    { intros v Hv. unfold vertex_depth at 1. cbn. rewrite vv, (modes_vertex _ _ v Hv U0) by exact Hv. cbn beta.
      rewrite (V v Hv). fold (h v). unfold Rleb. destruct (Rle_dec (h v) (H + thr)); unfold h; ring. }
    split; [intros v Hv; rewrite D by exact Hv; destruct (Rle_dec _ _); lra|].
    split; [cbn; split; [discriminate|]|].
    { intros A. exfalso. pose proof (A 0%nat ltac:(lia)) as A0. pose proof (A 1%nat ltac:(lia)) as A1. pose proof (A 2%nat ltac:(lia)) as A2.
      rewrite V in A0, A1, A2 by lia. rewrite !Rleb_false in E by assumption. discriminate E. }
    split; [discriminate|]. intros _. split; [|split; [reflexivity|exact D]].
    intros var dof Hv. cbn. eapply modes_zero; [apply U; lia|]. intros v _. destruct var; [lia|reflexivity].
  - apply orb_false_elim in E. destruct E as [E E2]. apply orb_false_elim in E. destruct E as [E0 E1].
    assert (A : forall v, (v < 3)%nat -> H + thr < vertex_depth bath s v).
    { intros v Hv. rewrite V by exact Hv. fold (h v).
      destruct v as [|[|[|v]]]; [revert E0|revert E1|revert E2|lia]; rcase; intros; (discriminate || lra). }
    eexists. split; [reflexivity|]. cbn.
    split; [intros v Hv; specialize (A v Hv); unfold vertex_depth in *; cbn; lra|].
    split; [split; [intros _; exact A|reflexivity]|]. split; [reflexivity|discriminate].
Qed.

Lemma init_bath_min_ok : forall bath, (exists v, (v < 3)%nat /\ init_bath_min bath = bath v) /\
  forall v, (v < 3)%nat -> init_bath_min bath <= bath v.
Proof.
  intros bath. unfold init_bath_min. destruct (argmin3_spec bath) as [L M]. split; [|exact M]. exists (argmin3 bath). split; [exact L|reflexivity].
Qed.

(** ** The four cases of the kernel *)
Section Cases.
Variables (p : nat) (H thr : R) (bath : nat -> R) (bath_min : R).
Hypothesis (Hp : (1 <= p)%nat).

Lemma kernel_wet : forall s, (forall v, (v < 3)%nat -> H + thr < vertex_depth bath s v) -> e_wet s = true ->
  exists s', wetting_drying_kernel p H thr bath bath_min s = Ok s' /\
  e_q s' = e_q s /\ e_rhs s' = e_rhs s /\ e_wet s' = true.
Proof.
  intros s A W. unfold wetting_drying_kernel.
  destruct (to_linear_ok p (e_q s) Hp) as [q [-> Q]]. cbn [bind].
  set (h := fun v => q 0%nat v + bath v).
  destruct (count_dry_spec (H + thr) h) as [C0 _].
  rewrite (proj2 C0), W. 2: { intros v Hv. unfold h. rewrite Q by lia. specialize (A v Hv). unfold vertex_depth in A. rewrite vv in A by exact Hv. exact A. }
  cbn [Nat.eqb]. eexists. split; [reflexivity|]. repeat split.
Qed.

Lemma kernel_all_dry : forall s, (forall v, (v < 3)%nat -> vertex_depth bath s v <= H + thr) ->
  exists s', wetting_drying_kernel p H thr bath bath_min s = Ok s' /\ e_wet s' = false /\
  (forall v, (v < 3)%nat -> vertex_depth bath s' v = Rmax thr (mean_depth bath s)) /\
  (forall var dof, (var < 3)%nat -> (3 <= dof)%nat -> e_q s' var dof = 0).
Proof.
  intros s A. unfold wetting_drying_kernel.
  destruct (to_linear_ok p (e_q s) Hp) as [q [-> Q]]. cbn [bind].
  set (h := fun v => q 0%nat v + bath v).
  assert (Eavg : (0 + h 0%nat + h 1%nat + h 2%nat) / 3 = mean_depth bath s).
  { unfold h, mean_depth, cell_mean. rewrite !Q by lia. pose proof (TB_mean (e_q s 0%nat)). lra. }
  change (q 0%nat 0%nat + bath 0%nat) with (h 0%nat). change (q 0%nat 1%nat + bath 1%nat) with (h 1%nat).
  change (q 0%nat 2%nat + bath 2%nat) with (h 2%nat).
  rewrite Eavg. destruct (count_dry_spec (H + thr) h) as [_ [C3 _]].
  rewrite (proj2 C3). 2: { intros v Hv. unfold h. rewrite Q by lia. specialize (A v Hv). unfold vertex_depth in A. rewrite vv in A by exact Hv. exact A. }
  cbn [Nat.eqb].
  match goal with |- context [to_basis p ?w] => destruct (to_basis_ok p w Hp) as [u [-> U]] end. cbn [bind].
  eexists. split; [reflexivity|]. pose proof (U 0%nat ltac:(lia)) as U0. cbn [e_wet e_q]. split; [reflexivity|]. split.
  - intros v Hv. unfold vertex_depth. cbn [e_q]. rewrite vv, (modes_vertex _ _ v Hv U0) by exact Hv. cbn [flat].
    unfold Rmax. destruct (Rleb_spec (mean_depth bath s) thr), (Rle_dec thr (mean_depth bath s)); lra.
  - intros var dof Hv Hd. apply (U var Hv). exact Hd.
Qed.

(** A treated element keeps no mode above the linear ones. *)
Lemma kernel_linear : forall s s', (exists v, (v < 3)%nat /\ vertex_depth bath s v <= H + thr) ->
  wetting_drying_kernel p H thr bath bath_min s = Ok s' ->
  forall var dof, (var < 3)%nat -> (3 <= dof)%nat -> e_q s' var dof = 0.
Proof.
  intros s s' [v0 [Hv0 D]]. unfold wetting_drying_kernel.
  destruct (to_linear_ok p (e_q s) Hp) as [q [-> Q]]. cbn [bind].
  set (h := fun v => q 0%nat v + bath v).
  destruct (count_dry_spec (H + thr) h) as [C0 _].
  destruct (Nat.eqb_spec (count_dry (H + thr) h) 0) as [N0|N0].
  { exfalso. pose proof (proj1 C0 N0 v0 Hv0) as X. unfold h in X. rewrite Q in X by lia. unfold vertex_depth in D. rewrite vv in D by exact Hv0. lra. }
  assert (Fin : forall h1 qv u rhs cd s', (forall var, (var < 3)%nat -> modes_of (qv var) (u var)) ->
    final_check p H bath_min h1 qv u rhs cd = Ok s' -> forall var dof, (var < 3)%nat -> (3 <= dof)%nat -> e_q s' var dof = 0).
  { intros h1 qv u rhs cd s1 U. unfold final_check. destruct (Rltb _ _).
    - intros E. injection E as <-. intros var dof Hv Hd. cbn. apply (U var Hv). exact Hd.
    - destruct (to_basis_ok p (no_discharge qv) Hp) as [w [-> W]]. cbn [bind]. intros E. injection E as <-.
      intros var dof Hv Hd. cbn. apply (W var Hv). exact Hd. }
  destruct (Nat.eqb (count_dry (H + thr) h) 3).
  { match goal with |- context [to_basis p ?w] => destruct (to_basis_ok p w Hp) as [u [-> U]] end. cbn [bind].
    intros E. injection E as <-. intros var dof Hv Hd. cbn. apply (U var Hv). exact Hd. }
  destruct (Rleb _ (H + thr)).
  - match goal with |- context [to_basis p ?w] => destruct (to_basis_ok p w Hp) as [u [-> U]] end. cbn [bind].
    apply Fin. exact U.
  - destruct (redistribute H h) as [h'| |]; cbn [bind]; try discriminate.
    destruct (move_discharge (H + thr) h' bath q) as [qv| |]; cbn [bind]; try discriminate.
    destruct (to_basis_ok p qv Hp) as [u [-> U]]. cbn [bind]. apply Fin. exact U.
Qed.
End Cases.

(** ** A partly dry element whose mean is above the limit *)
Lemma redistribute_min : forall H thr h, 0 <= thr -> (exists v, (v < 3)%nat /\ h v <= H + thr) ->
  H + thr < (h 0%nat + h 1%nat + h 2%nat) / 3 ->
  forall h', redistribute H h = Ok h' -> exists v, (v < 3)%nat /\ h' v = H /\ forall w, (w < 3)%nat -> h v <= h w.
Proof.
  intros H thr h T [v [Hv D]] A h'. unfold redistribute.
  assert (Dm : h (argmin3 h) <= H + thr) by (destruct (argmin3_spec h) as [_ M]; specialize (M v Hv); lra).
  clear v Hv D. unfold argmin3, argmax3 in *. revert Dm.
  repeat rcase; intros Dm; cbn in *; try (exfalso; lra); intros E; injection E as <-; unfold upd; cbn.
  all: first [exists 0%nat; split; [lia|split; [reflexivity|intros w Hw; destruct w as [|[|[|w]]]; (lia || lra)]]
            | exists 1%nat; split; [lia|split; [reflexivity|intros w Hw; destruct w as [|[|[|w]]]; (lia || lra)]]
            | exists 2%nat; split; [lia|split; [reflexivity|intros w Hw; destruct w as [|[|[|w]]]; (lia || lra)]]].
Qed.

Lemma kernel_partly_dry : forall p H thr bath bath_min s, (1 <= p)%nat -> 0 <= thr ->
  (exists v, (v < 3)%nat /\ vertex_depth bath s v <= H + thr) -> H + thr < mean_depth bath s ->
  exists s', wetting_drying_kernel p H thr bath bath_min s = Ok s' /\
  (exists v, (v < 3)%nat /\ vertex_depth bath s' v = H /\ forall w, (w < 3)%nat -> vertex_depth bath s v <= vertex_depth bath s w) /\
  (e_wet s' = true -> forall var, (1 <= var < 3)%nat -> cell_mean (e_q s' var) = cell_mean (e_q s var)) /\
  (forall var v, (1 <= var < 3)%nat -> (v < 3)%nat -> vertex_depth bath s' v <= H + thr -> vertex_value (e_q s' var) v = 0).
Proof.
  intros p H thr bath bath_min s Hp Ht [v0 [Hv0 D]] A. unfold wetting_drying_kernel.
  destruct (to_linear_ok p (e_q s) Hp) as [q [-> Q]]. cbn [bind].
  set (h := fun v => q 0%nat v + bath v).
  assert (Vh : forall v, (v < 3)%nat -> vertex_depth bath s v = h v) by (intros v Hv; unfold vertex_depth, h; rewrite vv, Q by lia; reflexivity).
  assert (Eavg : (0 + h 0%nat + h 1%nat + h 2%nat) / 3 = mean_depth bath s).
  { unfold h, mean_depth, cell_mean. rewrite !Q by lia. pose proof (TB_mean (e_q s 0%nat)). lra. }
  change (q 0%nat 0%nat + bath 0%nat) with (h 0%nat). change (q 0%nat 1%nat + bath 1%nat) with (h 1%nat).
  change (q 0%nat 2%nat + bath 2%nat) with (h 2%nat).
  rewrite Eavg. destruct (count_dry_spec (H + thr) h) as [C0 [C3 _]].
  destruct (Nat.eqb_spec (count_dry (H + thr) h) 0) as [N0|N0].
  { exfalso. pose proof (proj1 C0 N0 v0 Hv0) as X. rewrite Vh in D by exact Hv0. lra. }
  destruct (Nat.eqb_spec (count_dry (H + thr) h) 3) as [N3|N3].
  { exfalso. pose proof (proj1 C3 N3) as X. pose proof (X 0%nat ltac:(lia)). pose proof (X 1%nat ltac:(lia)). pose proof (X 2%nat ltac:(lia)). lra. }
  assert (M : H + thr < (h 0%nat + h 1%nat + h 2%nat) / 3) by lra.
  assert (Dry : exists v, (v < 3)%nat /\ h v <= H + thr) by (exists v0; split; [exact Hv0|rewrite <- Vh; assumption]).
  assert (Ea : (if Rleb (mean_depth bath s) thr then thr else mean_depth bath s) = Rmax thr (mean_depth bath s)).
  { unfold Rmax. destruct (Rleb_spec (mean_depth bath s) thr), (Rle_dec thr (mean_depth bath s)); lra. }
  rewrite Ea. rewrite (Rleb_false (Rmax thr (mean_depth bath s))) by (pose proof (Rmax_r thr (mean_depth bath s)); lra).
  destruct (redistribute_ok H thr h Ht Dry M) as [h' [E' [S' [P' W']]]].
  destruct (redistribute_min H thr h Ht Dry M h' E') as [m [Hm [Hm' Mm]]].
  rewrite E'. cbn [bind].
  destruct (move_ok (H + thr) h' bath q W') as [qv [-> [V' [Mom Z']]]]. cbn [bind].
  destruct (to_basis_ok p qv Hp) as [u [-> U]]. cbn [bind].
  assert (VU : forall var v, (var < 3)%nat -> (v < 3)%nat -> vertex_value (u var) v = qv var v).
  { intros var v Hvar Hv. rewrite vv by exact Hv. apply (modes_vertex _ _ v Hv (U var Hvar)). }
  unfold final_check. destruct (Rltb _ _).
  - eexists. split; [reflexivity|]. cbn [e_q e_wet].
    assert (VD : forall v, (v < 3)%nat -> vertex_depth bath {| e_q := u; e_rhs := e_rhs s; e_wet := true; e_completely_dry := Rleb (mean_depth bath s) thr |} v = h' v).
    { intros v Hv. unfold vertex_depth. cbn [e_q]. rewrite VU, V' by lia. ring. }
    split; [exists m; split; [exact Hm|]; rewrite VD by exact Hm; split; [exact Hm'|]; intros w Hw; rewrite !Vh by assumption; apply Mm; exact Hw|].
    split.
    + intros _ var Hv. unfold cell_mean. destruct (U var ltac:(lia)) as [-> _]. rewrite Mom by exact Hv.
      rewrite !Q by lia. pose proof (TB_mean (e_q s var)). lra.
    + intros var v Hvar Hv Hd. rewrite VD in Hd by exact Hv. rewrite VU by lia. apply Z'; assumption.
  - destruct (to_basis_ok p (no_discharge qv) Hp) as [w [-> W]]. cbn [bind]. eexists. split; [reflexivity|]. cbn [e_q e_wet].
    assert (VW : forall var v, (var < 3)%nat -> (v < 3)%nat -> vertex_value (w var) v = no_discharge qv var v).
    { intros var v Hvar Hv. rewrite vv by exact Hv. apply (modes_vertex _ _ v Hv (W var Hvar)). }
    split; [exists m; split; [exact Hm|]; unfold vertex_depth; cbn [e_q]; rewrite VW by lia; cbn [no_discharge]; rewrite V' by exact Hm; split; [lra|];
      intros x Hx; fold (vertex_depth bath s m) (vertex_depth bath s x); rewrite !Vh by assumption; apply Mm; exact Hx|].
    split; [discriminate|]. intros var v Hvar Hv _. rewrite VW by lia. destruct var; [lia|reflexivity].
Qed.

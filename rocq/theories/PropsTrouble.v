(** Property theorems: troubled cell indicator (C57). *)
From Coq Require Import Reals List Bool Arith Lra Lia.
From Verif Require Import Num ModelSWE Outcome ModelShape SpecShape ModelBasis SpecStepper ModelStep PropsStep ModelTrouble SpecTrouble LemmasTrouble LemmasTrouble2.
Import ListNotations.
Open Scope R_scope.

(** An element is flagged when it is wet, has an inflow face and the depth jumps over
    its inflow faces exceed R^((p+1)/2) times their length times its largest depth.
    Inflow is decided with the rows elevation and x discharge. *)
Theorem C57_flagged : forall m dbs k st e H, (forall f, In f (m_intfaces m) -> (i_bin f < 3)%nat /\ (i_bex f < 3)%nat) -> (forall d, In d dbs -> (d_id d < 3)%nat) ->
  top_depth m k st e H ->
  (flagged m dbs k st 0 1 e = true <->
   ms_wet st e = true /\ 0 < inflow_length m dbs k st first_rows e /\
   Rpower (GetRadius (m_nodes m e)) ((INR (m_p m) + 1) / 2) * inflow_length m dbs k st first_rows e * H < jumps m dbs k st first_rows e).
Proof. exact (fun m dbs k st e H Hf Hd => flagged_iff m dbs k st Hf Hd 0 1 e H). Qed.
Print Assumptions C57_flagged.

(** A wet element none of whose vertices is under water: any jump over its inflow faces flags it. *)
Theorem C57_flagged_no_depth : forall m dbs k st e, (forall f, In f (m_intfaces m) -> (i_bin f < 3)%nat /\ (i_bex f < 3)%nat) -> (forall d, In d dbs -> (d_id d < 3)%nat) ->
  (forall v, (v < 3)%nat -> ze_vrtx m k st e v + m_bath m e v <= 0) ->
  (flagged m dbs k st 0 1 e = true <->
   ms_wet st e = true /\ 0 < inflow_length m dbs k st first_rows e /\ 0 < jumps m dbs k st first_rows e).
Proof. exact (fun m dbs k st e Hf Hd => flagged_no_depth m dbs k st Hf Hd 0 1 e). Qed.
Print Assumptions C57_flagged_no_depth.

(** The troubled elements are those within five steps of a flagged one. *)
Theorem C57_troubled : forall m neigh dbs k st i, check_trouble m neigh dbs k st i = true <->
  exists j e, (j <= 5)%nat /\ flagged m dbs k st 0 1 e = true /\ path m neigh j e i.
Proof. exact (fun m neigh dbs k st i => troubled_iff m neigh dbs k st 0 1 i). Qed.
Print Assumptions C57_troubled.

(** Where the depth is continuous nothing is troubled. *)
Theorem C57_smooth : forall m neigh dbs k st, (forall f, In f (m_intfaces m) -> (i_bin f < 3)%nat /\ (i_bex f < 3)%nat) -> (forall d, In d dbs -> (d_id d < 3)%nat) ->
  (forall s gp, In s (face_sides m dbs k st) -> (gp < length (m_rule1 m))%nat -> s_h s gp = s_out s gp) ->
  forall i, check_trouble m neigh dbs k st i = false.
Proof.
  intros m neigh dbs k st Hf Hd S i. apply not_true_is_false. intros T. apply C57_troubled in T. destruct T as (j & e & _ & F & _).
  rewrite (smooth_calm m dbs k st Hf Hd 0 1 S e) in F. discriminate.
Qed.
Print Assumptions C57_smooth.

(** With the discharge rows (qx, qy) water without discharge is never troubled, and
    the level from which elevation is measured does not matter. *)
Theorem C57_discharge_still : forall m neigh dbs k st, (forall f, In f (m_intfaces m) -> (i_bin f < 3)%nat /\ (i_bex f < 3)%nat) -> (forall d, In d dbs -> (d_id d < 3)%nat) ->
  (forall e b gp, (gp < length (m_rule1 m))%nat -> discharge (q_face m st k e b gp) = (0, 0)) ->
  forall i, check_trouble_rows m neigh dbs k st 1 2 i = false.
Proof.
  intros m neigh dbs k st Hf Hd S i. apply not_true_is_false. intros T. apply troubled_iff in T. destruct T as (j & e & _ & F & _).
  rewrite (still_calm m dbs k st Hf Hd S e) in F. discriminate.
Qed.
Print Assumptions C57_discharge_still.
Theorem C57_discharge_datum : forall m m' neigh k st st' dbs, same_water m m' k st st' ->
  (forall f, In f (m_intfaces m) -> (i_bin f < 3)%nat /\ (i_bex f < 3)%nat) -> (forall d, In d dbs -> (d_id d < 3)%nat) ->
  forall i, check_trouble_rows m neigh dbs k st 1 2 i = check_trouble_rows m' neigh dbs k st' 1 2 i.
Proof.
  intros m m' neigh k st st' dbs S Hf Hd i. pose proof (same_flagged m m' k st st' dbs S Hf Hd) as F.
  assert (P : forall j e, path m neigh j e i <-> path m' neigh j e i).
  { destruct S as (N & _). intros j e. split; intros P; induction P; econstructor; try eassumption; congruence. }
  apply eq_true_iff_eq. rewrite !troubled_iff. split; intros (j & e & Hj & G & Q); exists j, e; (split; [exact Hj|]); rewrite F in *; (split; [exact G|apply P; exact Q]).
Qed.
Print Assumptions C57_discharge_datum.

(** The code takes the rows elevation and qx instead: a step of one metre in still
    water is left alone, and the same water with the datum one metre higher is
    troubled. *)
Definition pair_of (e : nat) : list nat := match e with 0%nat => [1%nat] | _ => [0%nat] end.
Theorem C57_datum_refuted : exists m m' st st', same_water m m' 0 st st' /\
  (forall e b gp, discharge (q_face m st 0 e b gp) = (0, 0)) /\
  (forall i, check_trouble m pair_of [] 0 st i = false) /\ check_trouble m' pair_of [] 0 st' 0 = true.
Proof.
  exists (two 1), (two 2), (at_rest 0 1 true), (at_rest (-1) 0 true). destruct sqrt2 as [P Q].
  split; [|split; [|split]].
  - unfold same_water. do 6 (split; [reflexivity|]). split.
    + intros e b gp _. unfold two. rewrite !pool_face. cbn [m_faux pool bath]. split; [|reflexivity]. destruct (Nat.eqb e 0); cbn [ze]; ring.
    + intros e v Hv. unfold two. rewrite !pool_vertex by assumption. cbn [m_bath pool]. destruct (Nat.eqb e 0); ring.
  - intros e b gp. unfold two. rewrite pool_face. reflexivity.
  - intros i. apply not_true_is_false. intros T. apply C57_troubled in T. destruct T as (j & e & _ & F & Pa).
    assert (He : (e < 2)%nat) by (exact (path_start _ _ _ _ _ Pa)). destruct e as [|[|e]]; [| |lia].
    + apply (two_flagged0 1 0 1) in F; [lra|lra].
    + apply (two_flagged1 1 0 1) in F; [|lra]. destruct F as [_ F]. rewrite Rabs_pos_eq in F by lra. nra.
  - apply C57_troubled. exists 0%nat, 0%nat. split; [lia|]. split; [|constructor; cbn; lia].
    apply (two_flagged0 2 (-1) 0); [lra|]. split; [lra|]. rewrite Rabs_left by lra. nra.
Qed.
Print Assumptions C57_datum_refuted.

(** Flags do not travel between submeshes: with each triangle on its own submesh the
    second one stays untroubled, whatever depth it receives. *)
Theorem C57_split_refuted : check_trouble (two 2) pair_of [] 0 (at_rest (-1) 0 true) 1 = true /\
  forall h, check_trouble (half 1 2) (fun _ => [1%nat]) [DFace 0 0 h] 0 (at_rest 0 0 true) 0 = false.
Proof.
  destruct sqrt2 as [P Q]. split.
  - apply C57_troubled. exists 1%nat, 0%nat. split; [lia|]. split.
    + apply (two_flagged0 2 (-1) 0); [lra|]. split; [lra|]. rewrite Rabs_left by lra. nra.
    + apply path_S with (f := 0%nat); [constructor; cbn; lia|left; reflexivity|cbn; lia].
  - intros h. apply not_true_is_false. intros T. apply C57_troubled in T. destruct T as (j & e & _ & F & Pa).
    assert (He : (e < 1)%nat) by (exact (path_start _ _ _ _ _ Pa)). destruct e as [|e]; [|lia].
    rewrite (half_flagged1 2 0 h) in F by lra. discriminate.
Qed.
Print Assumptions C57_split_refuted.

(** ** A strip of elements 0 - 1 - 2 - ... *)
Example strip_path : forall n j, (j < n)%nat -> path (pool n (fun _ => sq_nodes 0) 1 []) (fun e => [S e]) j 0 j.
Proof.
  intros n j. induction j as [|j IH]; intros H; [constructor; cbn; lia|]. apply path_S with (f := j); [apply IH; lia|left; reflexivity|exact H].
Qed.

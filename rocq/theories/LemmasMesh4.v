From Coq Require Import NArith List Bool Arith Lia Permutation.
From Verif Require Import Outcome ModelMesh SpecMesh LemmasMesh LemmasMesh2 LemmasMesh3.
Import ListNotations.
Local Open Scope N_scope.

Definition swap (k : N * N) : N * N := (snd k, fst k).
Lemma swap_swap : forall k, swap (swap k) = k.
Proof. intros [a b]; reflexivity. Qed.

Lemma key_eqb_spec : forall a b, reflect (a = b) (key_eqb a b).
Proof.
  intros [a b] [c d]. unfold key_eqb; cbn [fst snd].
  destruct (N.eqb_spec a c), (N.eqb_spec b d); constructor; congruence.
Qed.

Lemma rm_find_in : forall (V : Type) (m : rmap V) k v, NoDup (map fst m) -> (rm_find m k = Some v <-> In (k, v) m).
Proof.
  intros V. induction m as [|[k' v'] m IH]; intros k v H; cbn; [split; [discriminate | tauto]|].
  inversion H as [|? ? H1 H2]; subst. destruct (key_eqb_spec k k') as [->|Hk].
  - split; [intros E; injection E as ->; auto|]. intros [E|E]; [injection E as ->; reflexivity|].
    exfalso; apply H1. apply (in_map fst) in E; exact E.
  - rewrite IH by assumption. split; [auto | intros [E|E]; [congruence | assumption]].
Qed.
Lemma rm_find_none : forall (V : Type) (m : rmap V) k, rm_find m k = None <-> ~ In k (map fst m).
Proof.
  intros V. induction m as [|[k' v'] m IH]; intros k; cbn; [tauto|].
  destruct (key_eqb_spec k k') as [->|Hk]; [split; [discriminate | tauto]|]. rewrite IH. intuition congruence.
Qed.

Lemma pair_eq_dec : forall a b : N * N, {a = b} + {a <> b}.
Proof. decide equality; apply N.eq_dec. Qed.

Definition mem_key {V : Type} (m : rmap V) (k : N * N) : bool := match rm_find m k with Some _ => true | None => false end.
Lemma mem_key_spec : forall (V : Type) (m : rmap V) k, mem_key m k = true <-> In k (map fst m).
Proof.
  intros V m k. unfold mem_key. destruct (rm_find m k) eqn:E.
  - split; [intros _ | reflexivity]. destruct (in_dec pair_eq_dec k (map fst m)) as [I|I]; [exact I|].
    apply rm_find_none in I. congruence.
  - split; [discriminate|]. apply rm_find_none in E. tauto.
Qed.

Definition both {V : Type} (p : V * V) : list V := [fst p; snd p].

Lemma create_interfaces_pairs : forall (V : Type) (m : rmap V), NoDup (map fst m) ->
  forall v v', In (v, v') (create_interfaces m) -> exists k, In (k, v) m /\ In (swap k, v') m.
Proof.
  intros V. induction m as [|[k0 v0] m IH]; intros ND v v' I; [destruct I|].
  cbn [create_interfaces] in I. fold (swap k0) in I.
  inversion ND as [|? ? N1 N2]; subst.
  assert (R : In (v, v') (create_interfaces m) -> exists k, In (k, v) ((k0, v0) :: m) /\ In (swap k, v') ((k0, v0) :: m)).
  { intros J. destruct (IH N2 v v' J) as (k & A & B). exists k. cbn; auto. }
  destruct (rm_find ((k0, v0) :: m) (swap k0)) as [w|] eqn:F; [|apply R; exact I].
  destruct I as [I|I]; [|apply R; exact I].
  injection I as <- <-. exists k0. split; [left; reflexivity|]. apply rm_find_in; assumption.
Qed.

(** Faces used by the created interfaces: exactly those whose reversed key
    is present, each once. *)
Lemma create_interfaces_perm : forall (V : Type) (m : rmap V), NoDup (map fst m) ->
  (forall k, In k (map fst m) -> swap k <> k) ->
  Permutation (flat_map both (create_interfaces m)) (map snd (filter (fun kv => mem_key m (swap (fst kv))) m)).
Proof.
  intros V. induction m as [|[k0 v0] m IH]; intros ND NS; [constructor|].
  cbn [create_interfaces]. fold (swap k0). cbn in ND. inversion ND as [|? ? N1 N2]; subst.
  assert (S0 : swap k0 <> k0) by (apply NS; left; reflexivity).
  assert (NS' : forall k, In k (map fst m) -> swap k <> k) by (intros; apply NS; right; assumption).
  specialize (IH N2 NS').
  assert (MK : forall k, mem_key ((k0, v0) :: m) k = (if key_eqb k k0 then true else mem_key m k)).
  { intros k. unfold mem_key. cbn [rm_find]. destruct (key_eqb k k0); reflexivity. }
  cbn [rm_find filter fst]. rewrite MK.
  destruct (key_eqb_spec (swap k0) k0) as [C|_]; [congruence|].
  destruct (rm_find m (swap k0)) as [w|] eqn:F.
  - replace (mem_key m (swap k0)) with true by (unfold mem_key; rewrite F; reflexivity).
    cbn [flat_map both fst snd map app]. constructor.
    (* the partner entry *)
    assert (Iw : In (swap k0, w) m) by (apply rm_find_in; assumption).
    apply in_split in Iw as (m1 & m2 & Em).
    assert (P : Permutation (map snd (filter (fun kv => mem_key ((k0, v0) :: m) (swap (fst kv))) m))
                            (w :: map snd (filter (fun kv => mem_key m (swap (fst kv))) m))).
    { assert (NK : forall kv, In kv (m1 ++ m2) -> fst kv <> swap k0).
      { intros kv I C. rewrite Em in N2. rewrite map_app in N2. cbn [map fst] in N2.
        apply NoDup_remove_2 in N2. apply N2. rewrite <- map_app, <- C. apply in_map; assumption. }
      assert (FE : forall l, (forall kv, In kv l -> fst kv <> swap k0) ->
         filter (fun kv : (N * N) * V => mem_key ((k0, v0) :: m) (swap (fst kv))) l = filter (fun kv => mem_key m (swap (fst kv))) l).
      { intros l H. apply filter_ext_in. intros kv I. rewrite MK.
        destruct (key_eqb_spec (swap (fst kv)) k0) as [C|_]; [|reflexivity].
        exfalso. apply (H kv I). rewrite <- C, swap_swap. reflexivity. }
      assert (E1 : mem_key ((k0, v0) :: m) (swap (swap k0)) = true).
      { rewrite swap_swap, MK. destruct (key_eqb_spec k0 k0); [reflexivity | congruence]. }
      assert (E2 : mem_key m (swap (swap k0)) = false).
      { rewrite swap_swap. destruct (mem_key m k0) eqn:E; [|reflexivity]. apply mem_key_spec in E. contradiction. }
      replace (filter (fun kv => mem_key ((k0, v0) :: m) (swap (fst kv))) m)
        with (filter (fun kv => mem_key m (swap (fst kv))) m1 ++ (swap k0, w) :: filter (fun kv => mem_key m (swap (fst kv))) m2).
      2:{ pattern m at 4. rewrite Em at 1. rewrite filter_app. cbn [filter fst]. rewrite E1.
          rewrite (FE m1) by (intros; apply NK; apply in_or_app; auto).
          rewrite (FE m2) by (intros; apply NK; apply in_or_app; auto). reflexivity. }
      replace (filter (fun kv => mem_key m (swap (fst kv))) m)
        with (filter (fun kv => mem_key m (swap (fst kv))) m1 ++ filter (fun kv => mem_key m (swap (fst kv))) m2).
      2:{ pattern m at 4. rewrite Em at 1. rewrite filter_app. cbn [filter fst]. rewrite E2. reflexivity. }
      rewrite !map_app. cbn [map snd]. apply Permutation_sym, Permutation_middle. }
    rewrite P. constructor. exact IH.
  - replace (mem_key m (swap k0)) with false by (unfold mem_key; rewrite F; reflexivity).
    rewrite IH. apply Permutation_map.
    erewrite filter_ext_in; [apply Permutation_refl|]. intros kv I. cbn beta. rewrite MK.
    destruct (key_eqb_spec (swap (fst kv)) k0) as [C|_]; [|reflexivity].
    exfalso. apply rm_find_none in F. apply F. rewrite <- C, swap_swap. apply in_map; assumption.
Qed.

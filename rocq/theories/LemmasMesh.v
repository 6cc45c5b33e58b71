From Coq Require Import NArith List Bool Arith Lia Permutation.
From Verif Require Import Outcome ModelMesh SpecMesh.
Import ListNotations.
Local Open Scope N_scope.

(** ** has_edge *)
Lemma followed_cons : forall z l x y,
  followed (z :: l) x y <-> (z = x /\ hd_error l = Some y) \/ followed l x y.
Proof.
  intros z l x y; split.
  - intros (a & b & E). destruct a as [|a0 a]; cbn in E; injection E as -> ->.
    + left; split; reflexivity.
    + right; exists a, b; reflexivity.
  - intros [[-> H]|(a & b & ->)].
    + destruct l as [|y' l]; [discriminate|]. injection H as ->. exists [], l; reflexivity.
    + exists (z :: a), b; reflexivity.
Qed.
Lemma followed_nil : forall x y, ~ followed [] x y.
Proof. intros x y (a & b & E). destruct a; discriminate. Qed.

Definition prev_is (prev : option N) (y : N) : bool := match prev with Some q => q =? y | None => false end.

Lemma has_edge_from_spec : forall l prev p0 p1,
  has_edge_from prev l p0 p1 = true <->
  neighbours l p0 p1 \/ (prev = Some p1 /\ hd_error l = Some p0).
Proof.
  induction l as [|x r IH]; intros prev p0 p1.
  - cbn. split; [discriminate|]. intros [[H|H]|[_ H]]; [apply followed_nil in H; tauto | apply followed_nil in H; tauto| discriminate].
  - cbn [has_edge_from]. destruct (N.eqb_spec x p0) as [->|Hx].
    + assert (G : (if prev_is prev p1 then true else has_edge_from None r p0 p1) = true <->
                  neighbours r p0 p1 \/ prev = Some p1).
      { unfold prev_is. destruct prev as [q|].
        - destruct (N.eqb_spec q p1) as [->|Hq].
          + split; [intros _; right; reflexivity | reflexivity].
          + rewrite IH. split; [intros [H|[H _]]; [left; exact H | discriminate] | intros [H|H]; [left; exact H | congruence]].
        - rewrite IH. split; [intros [H|[H _]]; [left; exact H | discriminate] | intros [H|H]; [left; exact H | discriminate]]. }
      unfold neighbours in *. destruct r as [|y r'].
      * fold (prev_is prev p1). rewrite G. rewrite !followed_cons. cbn [hd_error].
        split; [intros [[H|H]|H]; auto | intros [[[[_ H]|H]|[[_ H]|H]]|[H _]]; auto; discriminate].
      * destruct (N.eqb_spec y p1) as [->|Hy].
        -- split; [intros _ | reflexivity]. left; left. apply followed_cons. left; split; reflexivity.
        -- fold (prev_is prev p1). rewrite G. rewrite (followed_cons p0 (y :: r')), (followed_cons p0 (y :: r') p1).
           cbn [hd_error].
           split.
           ++ intros [[H|H]|H]; auto.
           ++ intros [[[[_ H]|H]|[[H1 H2]|H]]|[H _]]; auto; try congruence.
    + rewrite IH. unfold neighbours. rewrite !followed_cons. cbn [hd_error].
      split.
      * intros [[H|H]|[H1 H2]]; auto. injection H1 as ->. auto.
      * intros [[[[H _]|H]|[[H1 H2]|H]]|[H1 H2]]; auto; try congruence.
        right. split; [congruence | assumption].
Qed.

Lemma has_edge_spec : forall l p0 p1, has_edge l p0 p1 = true <-> neighbours l p0 p1.
Proof.
  intros. unfold has_edge. rewrite has_edge_from_spec. split; [intros [H|[H _]]; [exact H | discriminate] | auto].
Qed.

Lemma neighbours_sym : forall l x y, neighbours l x y <-> neighbours l y x.
Proof. intros; unfold neighbours; tauto. Qed.

Lemma has_edge_sym : forall l x y, has_edge l x y = has_edge l y x.
Proof.
  intros. destruct (has_edge l x y) eqn:E, (has_edge l y x) eqn:F; try reflexivity;
  [apply has_edge_spec, neighbours_sym, has_edge_spec in E | apply has_edge_spec, neighbours_sym, has_edge_spec in F]; congruence.
Qed.

Lemma followed_nth : forall l x y, followed l x y <->
  exists i, nth_error l i = Some x /\ nth_error l (i + 1) = Some y.
Proof.
  intros l x y; split.
  - intros (a & b & ->). exists (length a). split.
    + rewrite nth_error_app2 by lia. rewrite Nat.sub_diag. reflexivity.
    + rewrite nth_error_app2 by lia. replace (length a + 1 - length a)%nat with 1%nat by lia. reflexivity.
  - intros (i & H1 & H2). apply nth_error_split in H1 as (a & b & -> & L).
    exists a. rewrite nth_error_app2 in H2 by lia. replace (i + 1 - length a)%nat with 1%nat in H2 by lia.
    cbn in H2. destruct b as [|y' b]; [discriminate|]. cbn in H2. injection H2 as ->. exists b; reflexivity.
Qed.

(** ** side_lookup *)
Lemma nth_ok : forall (A : Type) (l : list A) i, (i < length l)%nat -> exists x, nth_error l i = Some x.
Proof.
  intros A l i H. destruct (nth_error l i) eqn:E; [eauto|]. apply nth_error_None in E. lia.
Qed.

Lemma NoDup_nth_inj : forall (A : Type) (l : list A) i j x, NoDup l ->
  nth_error l i = Some x -> nth_error l j = Some x -> i = j.
Proof.
  intros A l i j x H Hi Hj. rewrite NoDup_nth_error in H. apply H; [|congruence].
  apply nth_error_Some; congruence.
Qed.

(** Result of searching one side: either the pair sits at a position of the
    side, or the search comes back empty-handed. *)
Lemma side_lookup_spec : forall l m p0 p1, length l = length m -> (2 <= length l)%nat ->
  (exists i j, nth_error l i = Some p0 /\ nth_error l j = Some p1 /\ (j = i + 1 \/ i = j + 1)%nat /\
     exists a b, nth_error m j = Some a /\ nth_error m i = Some b /\ side_lookup l m p0 p1 = Ok (Some (a, b)))
  \/ (side_lookup l m p0 p1 = Ok None /\ ~ neighbours l p0 p1).
Proof.
  intros l m p0 p1 Hlen H2. unfold side_lookup. cbv zeta.
  set (n := length l) in *.
  destruct (nth_ok _ l 0 ltac:(lia)) as (l0 & E0). rewrite E0. cbn [of_index bind].
  destruct (nth_ok _ l 1 ltac:(lia)) as (l1 & E1).
  destruct ((l0 =? p0) && (l1 =? p1)) eqn:F.
  { apply andb_true_iff in F as [F0 F1]. apply N.eqb_eq in F0, F1. subst l0 l1.
    left. exists 0%nat, 1%nat. repeat split; auto.
    destruct (nth_ok _ m 0 ltac:(lia)) as (b & Eb). destruct (nth_ok _ m 1 ltac:(lia)) as (a & Ea).
    exists a, b. repeat split; auto. rewrite N.eqb_refl, E1. cbn [of_index bind]. rewrite N.eqb_refl.
    cbn [bind]. rewrite Ea, Eb. reflexivity. }
  assert (FF : (if l0 =? p0 then bind (of_index (nth_error l 1)) (fun l1 => Ok (l1 =? p1)) else Ok false) = Ok false).
  { rewrite E1. cbn [of_index bind]. destruct (l0 =? p0); [|reflexivity]. cbn in F. rewrite F. reflexivity. }
  rewrite FF. cbn [bind]. clear FF.
  (* interior loop *)
  set (go := fix go (nodes : list nat) : outcome (option (N * N)) :=
       match nodes with
       | [] => Ok None
       | i :: r =>
           bind (of_index (nth_error l i)) (fun x =>
           if x =? p0 then
             bind (of_index (nth_error l (i + 1))) (fun y =>
             if y =? p1 then bind (of_index (nth_error m (i + 1))) (fun a => bind (of_index (nth_error m i)) (fun b => Ok (Some (a, b))))
             else bind (of_index (nth_error l (i - 1))) (fun z =>
                  if z =? p1 then bind (of_index (nth_error m (i - 1))) (fun a => bind (of_index (nth_error m i)) (fun b => Ok (Some (a, b))))
                  else go r))
           else go r)
       end).
  assert (G : forall c s, (s + c <= n - 1)%nat -> (1 <= s)%nat ->
    (exists i j, nth_error l i = Some p0 /\ nth_error l j = Some p1 /\ (j = i + 1 \/ i = j + 1)%nat /\
       exists a b, nth_error m j = Some a /\ nth_error m i = Some b /\ go (seq s c) = Ok (Some (a, b)))
    \/ (go (seq s c) = Ok None /\
        forall i j, (s <= i < s + c)%nat -> nth_error l i = Some p0 -> nth_error l j = Some p1 -> (j = i + 1 \/ i = j + 1)%nat -> False)).
  { induction c as [|c IH]; intros s Hs H1.
    - right. split; [reflexivity|]. intros; lia.
    - cbn [seq]. destruct (nth_ok _ l s ltac:(lia)) as (x & Ex).
      destruct (nth_ok _ l (s + 1) ltac:(lia)) as (y & Ey). destruct (nth_ok _ l (s - 1) ltac:(lia)) as (z & Ez).
      destruct (nth_ok _ m s ltac:(lia)) as (xm & Exm).
      destruct (nth_ok _ m (s + 1) ltac:(lia)) as (ym & Eym). destruct (nth_ok _ m (s - 1) ltac:(lia)) as (zm & Ezm).
      cbn [go]. fold go. rewrite Ex. cbn [of_index bind].
      destruct (N.eqb_spec x p0) as [->|Nx].
      + rewrite Ey. cbn [of_index bind]. destruct (N.eqb_spec y p1) as [->|Ny].
        * left. exists s, (s + 1)%nat. repeat split; auto. exists ym, xm. rewrite Eym, Exm. repeat split; auto.
        * rewrite Ez. cbn [of_index bind]. destruct (N.eqb_spec z p1) as [->|Nz].
          -- left. exists s, (s - 1)%nat. split; [exact Ex|]. split; [exact Ez|]. split; [lia|].
             exists zm, xm. rewrite Ezm, Exm. repeat split; auto.
          -- destruct (IH (S s) ltac:(lia) ltac:(lia)) as [L|[L1 L2]]; [left; exact L|].
             right. split; [exact L1|]. intros i j Hi Hpi Hpj Hij.
             destruct (Nat.eq_dec i s) as [->|Ns]; [|apply (L2 i j); auto; lia].
             destruct Hij as [->|Hij]; [congruence|]. replace j with (s - 1)%nat in * by lia. congruence.
      + destruct (IH (S s) ltac:(lia) ltac:(lia)) as [L|[L1 L2]]; [left; exact L|].
        right. split; [exact L1|]. intros i j Hi Hpi Hpj Hij.
        destruct (Nat.eq_dec i s) as [->|Ns]; [congruence | apply (L2 i j); auto; lia]. }
  destruct (G (n - 2)%nat 1%nat ltac:(lia) ltac:(lia)) as [L|[L1 L2]].
  { left. destruct L as (i & j & A1 & A2 & A3 & a & b & A4 & A5 & A6). exists i, j. repeat split; auto.
    exists a, b. repeat split; auto. rewrite A6. reflexivity. }
  rewrite L1. cbn [bind].
  destruct (nth_ok _ l (n - 1) ltac:(lia)) as (ln & En). destruct (nth_ok _ l (n - 2) ltac:(lia)) as (lp & Ep).
  rewrite En. cbn [of_index bind]. replace (Nat.ltb n 2) with false by (symmetry; apply Nat.ltb_ge; lia).
  assert (NB : (ln =? p0) && (lp =? p1) = false -> ~ neighbours l p0 p1).
  { intros HB [H|H]; apply followed_nth in H as (i & Hi & Hj).
    - destruct (Nat.eq_dec i 0) as [->|N0]; [change (0 + 1)%nat with 1%nat in Hj; rewrite E0 in Hi; rewrite E1 in Hj; injection Hi as ->; injection Hj as ->;
        rewrite !N.eqb_refl in F; discriminate|].
      assert (i + 1 < n)%nat by (apply nth_error_Some; congruence).
      apply (L2 i (i + 1)%nat); auto; lia.
    - assert (i + 1 < n)%nat by (apply nth_error_Some; congruence).
      destruct (Nat.eq_dec (i + 1) (n - 1)) as [E|NE].
      + rewrite E in Hj. replace i with (n - 2)%nat in Hi by lia. rewrite En in Hj. rewrite Ep in Hi.
        injection Hi as ->. injection Hj as ->. rewrite !N.eqb_refl in HB. discriminate.
      + apply (L2 (i + 1)%nat i); auto; lia. }
  rewrite Ep. cbn [of_index bind].
  destruct (N.eqb_spec ln p0) as [->|Nn].
  - cbn [bind]. destruct (N.eqb_spec lp p1) as [->|Np].
    + left. exists (n - 1)%nat, (n - 2)%nat. split; [exact En|]. split; [exact Ep|]. split; [lia|].
      destruct (nth_ok _ m (n - 1) ltac:(lia)) as (b & Eb). destruct (nth_ok _ m (n - 2) ltac:(lia)) as (a & Ea).
      exists a, b. rewrite Ea, Eb. repeat split; reflexivity.
    + right. split; [reflexivity|]. apply NB. reflexivity.
  - cbn [bind]. right. split; [reflexivity|]. apply NB. reflexivity.
Qed.

(** ** keys *)
Lemma edge_key_inj : forall a b c d, a < 4294967296 -> b < 4294967296 -> c < 4294967296 -> d < 4294967296 ->
  edge_key a b = edge_key c d -> same_edge (a, b) (c, d).
Proof.
  intros a b c d Ha Hb Hc Hd E. unfold edge_key in E.
  assert (K : forall x y, x < 4294967296 -> y < 4294967296 ->
     N.lor (N.shiftl x 32) y = x * 4294967296 + y).
  { intros x y Hx Hy. rewrite N.shiftl_mul_pow2. change (2 ^ 32) with 4294967296.
    rewrite <- N.lxor_lor, <- N.add_nocarry_lxor; [reflexivity | |];
    apply N.bits_inj; intros i; rewrite N.land_spec, N.bits_0; change 4294967296 with (2 ^ 32);
    (destruct (N.lt_ge_cases i 32) as [L|L];
      [rewrite N.mul_pow2_bits_low by assumption; reflexivity
      |replace (N.testbit y i) with false; [apply andb_false_r|]]);
    symmetry; (destruct (N.eq_dec y 0) as [->|Ny]; [apply N.bits_0|]);
    apply N.bits_above_log2; change 4294967296 with (2 ^ 32) in Hy; apply N.log2_lt_pow2 in Hy; lia. }
  rewrite !K in E by lia.
  assert (Q : N.min a b = N.min c d /\ N.max a b = N.max c d) by lia.
  unfold same_edge; cbn [fst snd].
  assert ((a = c /\ b = d) \/ (a = d /\ b = c)) by lia.
  destruct H as [[-> ->]|[-> ->]]; auto.
Qed.
Lemma edge_key_same : forall p q, same_edge p q -> edge_key (fst p) (snd p) = edge_key (fst q) (snd q).
Proof.
  intros p q [->| ->]; [reflexivity|]. cbn [fst snd]. unfold edge_key. rewrite N.min_comm, N.max_comm. reflexivity.
Qed.

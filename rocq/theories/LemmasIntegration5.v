(** Statements about the rules. *)
From Coq Require Import ZArith QArith Reals Qreals List Arith Lia Lra Bool.
From Coquelicot Require Import Coquelicot.
From Verif Require Import ModelIntegration SpecBasis SpecIntegration LemmasBasis LemmasBasis2 LemmasIntegration LemmasIntegration2 LemmasIntegration3 LemmasIntegration4.
Import ListNotations.
Open Scope R_scope.

Lemma gl_num_range : forall p, (p <= 65)%nat -> (1 <= gl_num p <= 33)%nat.
Proof. intros p H. unfold gl_num. split; [apply Nat.div_le_lower_bound; lia|]. assert ((p + 2) / 2 < 34)%nat by (apply Nat.div_lt_upper_bound; lia). lia. Qed.
Lemma gl_facts : forall n, (1 <= n <= 33)%nat -> length (gl_data n) = n
  /\ (forall wx, In wx (gl_data n) -> q_lt 0 (fst wx) = true /\ q_lt (-1) (snd wx) = true /\ q_lt (snd wx) 1 = true)
  /\ q_increasing (map snd (gl_data n)) = true.
Proof.
  intros n Hn. pose proof (proj1 (forallb_forall _ _) gl_shaped n ltac:(apply in_seq; lia)) as H. unfold gl_shape in H.
  apply andb_true_iff in H. destruct H as [H H3]. apply andb_true_iff in H. destruct H as [H1 H2].
  refine (conj (proj1 (Nat.eqb_eq _ _) H1) (conj _ H3)).
  intros wx I. pose proof (proj1 (forallb_forall _ _) H2 wx I) as X. apply andb_true_iff in X. destruct X as [X C]. apply andb_true_iff in X. tauto.
Qed.
Lemma Q2R_m1 : Q2R (-1) = -1.
Proof. unfold Q2R. cbn. lra. Qed.
Lemma edge_rule : forall p, (p <= 65)%nat ->
  exists rule, gl_rule p = Some rule /\ length rule = ((p + 2) / 2)%nat
    /\ List.Forall (fun wx => 0 < fst wx /\ -1 < snd wx < 1) rule /\ increasing (map snd rule)
    /\ (p < 2 * length rule)%nat
    /\ forall c, exists v, is_RInt (poly1 (2 * length rule) c) (-1) 1 v
         /\ Rabs (quad1 rule (poly1 (2 * length rule) c) - v) <= / 10 ^ 26 * size1 (2 * length rule) c.
Proof.
  intros p Hp. pose proof (gl_num_range p Hp) as Hn. set (n := gl_num p) in *.
  destruct (gl_facts n Hn) as (L & F & I).
  assert (LR : length (map to_R (gl_data n)) = n) by (rewrite map_length; exact L).
  exists (map to_R (gl_data n)). rewrite LR.
  refine (conj _ (conj eq_refl (conj _ (conj _ (conj _ _))))).
  - unfold gl_rule. rewrite (proj2 (Nat.ltb_ge 65 p) Hp). reflexivity.
  - apply List.Forall_forall. intros wx W. apply in_map_iff in W. destruct W as (q & <- & W). destruct (F q W) as (A & B & D).
    apply q_lt_true in A. apply q_lt_true in B. apply q_lt_true in D. rewrite RMicromega.Q2R_0 in A. rewrite Q2R_m1 in B. rewrite RMicromega.Q2R_1 in D.
    unfold to_R. cbn [fst snd]. lra.
  - rewrite map_map. change (fun x => snd (to_R x)) with (fun x : Q * Q => Q2R (snd x)). rewrite <- (map_map snd Q2R). apply q_increasing_true, I.
  - unfold n, gl_num. pose proof (Nat.div_mod (p + 2) 2 ltac:(lia)). pose proof (Nat.mod_upper_bound (p + 2) 2 ltac:(lia)). lia.
  - intros c. eexists. apply poly1_close. intros k Hk. apply gl_moment; assumption.
Qed.
Lemma edge_example : is_RInt (poly1 (2 * 2) (fun k => match k with O => 3 | S (S O) => 1 | _ => 0 end)) (-1) 1 (20 / 3).
Proof.
  pose proof (proj1 (poly1_close [] (2 * 2) (fun k => match k with O => 3 | S (S O) => 1 | _ => 0 end) 2 ltac:(
    intros k Hk; cbn [quad1 fold_right]; assert (K : (k = 0 \/ k = 1 \/ k = 2 \/ k = 3)%nat) by lia;
    destruct K as [-> | [-> | [-> | ->]]]; unfold mom; cbn; apply Rabs_le; lra))) as H.
  eapply is_RInt_eq; [exact H|reflexivity|]. unfold mom. cbn. field.
Qed.

Lemma same_rounding_eq : forall a b, same_rounding a b = true -> a = b.
Proof.
  intros [a [b c]] [a' [b' c']] H. unfold same_rounding in H. cbn in H. apply andb_true_iff in H. destruct H as [H H3].
  apply andb_true_iff in H. destruct H as [H1 H2]. apply Z.eqb_eq in H1. apply N.eqb_eq in H2. apply Z.eqb_eq in H3. subst. reflexivity.
Qed.
Lemma edge_symmetric : forall p rule, gl_doubles p = Some rule -> forall gp, (gp < length rule)%nat ->
  snd (nth (length rule - gp - 1) rule (0, 0)) = - snd (nth gp rule (0, 0))
  /\ fst (nth (length rule - gp - 1) rule (0, 0)) = fst (nth gp rule (0, 0)).
Proof.
  intros p rule H gp G. unfold gl_doubles in H. destruct (65 <? p)%nat eqn:E; [discriminate|]. apply Nat.ltb_ge in E.
  apply (f_equal (fun o => match o with Some r => r | None => rule end)) in H. cbv beta iota in H. subst rule.
  pose proof (gl_num_range p E) as Hn. set (n := gl_num p) in *. destruct (gl_facts n Hn) as (L & _ & _).
  rewrite map_length in *. rewrite L in *.
  pose proof (proj1 (forallb_forall _ _) gl_symmetric n ltac:(apply in_seq; lia)) as S. unfold gl_sym in S.
  pose proof (proj1 (forallb_forall _ _) S gp ltac:(apply in_seq; lia)) as T. cbv beta in T. apply andb_true_iff in T. destruct T as [T1 T2].
  apply same_rounding_eq in T1. apply same_rounding_eq in T2.
  set (f := fun wx : Q * Q => (literal (fst wx), literal (snd wx))).
  assert (Z0 : (0, 0) = f (0, 0)%Q) by (unfold f, literal, rounded; cbn; rewrite !Rmult_0_l; reflexivity).
  rewrite Z0, !(map_nth f). unfold f at 1 2 3 4. cbn [fst snd]. unfold literal. rewrite T1, T2.
  destruct (rounded (snd (nth gp (gl_data n) (0%Q, 0%Q)))) as [sg [m e]]. cbn [negated fst snd]. rewrite opp_IZR. split; [ring|reflexivity].
Qed.
Lemma literals_asymmetric : exists p rule gp, gl_rule p = Some rule /\ (gp < length rule)%nat
  /\ snd (nth (length rule - gp - 1) rule (0, 0)) <> - snd (nth gp rule (0, 0)).
Proof.
  exists 25%nat, (map to_R gl_13). assert (X : exists gp, (gp < 13)%nat /\ q_eq (snd (nth (13 - gp - 1) gl_13 (0, 0)%Q)) (- snd (nth gp gl_13 (0, 0)%Q)) = false).
  { assert (B : existsb (fun gp => negb (q_eq (snd (nth (13 - gp - 1) gl_13 (0, 0)%Q)) (- snd (nth gp gl_13 (0, 0)%Q)))) (seq 0 13) = true) by (vm_compute; reflexivity).
    apply existsb_exists in B. destruct B as (gp & I & B). exists gp. apply in_seq in I. apply negb_true_iff in B. split; [lia|exact B]. }
  destruct X as (gp & G & X). exists gp. rewrite map_length. change (length gl_13) with 13%nat. refine (conj eq_refl (conj G _)).
  intros Y. assert (Z0 : (0, 0) = to_R (0, 0)%Q) by (unfold to_R; cbn [fst snd]; rewrite RMicromega.Q2R_0; reflexivity).
  rewrite Z0, !(map_nth to_R) in Y. unfold to_R in Y. cbn [fst snd] in Y. rewrite <- Q2R_opp in Y. apply q_eq_spec in Y. congruence.
Qed.

Lemma area_rule_ok : forall p, (p <= 20)%nat ->
  exists rule, dun_rule p = Some rule /\ length rule = dun_num p
    /\ forall c, exists v, is_triangle_int (poly2 p c) v /\ Rabs (quad2 rule (poly2 p c) - v) <= 2 / 10 ^ 14 * size2 p c.
Proof.
  intros p Hp. destruct (dun_rule_q p Hp) as [R L]. exists (map rpoint (dun_q p)). refine (conj R (conj _ _)); [rewrite map_length; exact L|].
  intros c. eexists. apply poly2_close. intros i j Hij. apply dun_moment; assumption.
Qed.
Lemma area_example : exists rule, area_rule 3 = Some rule /\ length rule = 12%nat /\ Rabs (quad2 rule (fun _ _ => 1) - 2) <= 2 / 10 ^ 14.
Proof.
  destruct (dun_rule_q 6 ltac:(lia)) as [R L]. exists (map rpoint (dun_q 6)). refine (conj R (conj _ _)); [rewrite map_length; exact L|].
  pose proof (dun_moment 6 0 0 ltac:(lia) ltac:(lia)) as M. unfold tol2 in M. replace (mom2 0 0) with 2 in M by (unfold mom2, mom; cbn; field).
  replace (quad2 (map rpoint (dun_q 6)) (fun _ _ => 1)) with (quad2 (map rpoint (dun_q 6)) (fun x y => x ^ 0 * y ^ 0)); [exact M|].
  f_equal. apply FunctionalExtensionality.functional_extensionality. intros x. apply FunctionalExtensionality.functional_extensionality. intros y. cbn. ring.
Qed.
Lemma beyond : (forall p, area_rule p = None <-> (10 < p)%nat) /\ (forall p, face_rule p = None <-> (32 < p)%nat).
Proof.
  split; intros p.
  - unfold area_rule. destruct (le_lt_dec (2 * p) 20) as [H|H].
    + rewrite (proj1 (dun_rule_q _ H)). split; [discriminate|lia].
    + unfold dun_rule. rewrite (proj2 (Nat.ltb_lt 20 (2 * p)) H). split; [lia|reflexivity].
  - unfold face_rule, gl_rule. destruct (65 <? 2 * p + 1)%nat eqn:E; [apply Nat.ltb_lt in E|apply Nat.ltb_ge in E]; (split; [|]); try lia; try discriminate; reflexivity.
Qed.
Lemma rule_signs : forall p rule, dun_rule p = Some rule ->
  (List.Forall (fun q => 0 < fst q) rule <-> ~ In p [3; 7; 18; 20]%nat)
  /\ (List.Forall (fun q => in_master (fst (snd q)) (snd (snd q))) rule <-> ~ In p [11; 15; 16; 18; 20]%nat).
Proof.
  intros p rule H. destruct (le_lt_dec p 20) as [Hp|Hp].
  - rewrite (proj1 (dun_rule_q p Hp)) in H. assert (E : rule = map rpoint (dun_q p)) by congruence. rewrite E. apply dun_signs, Hp.
  - unfold dun_rule in H. rewrite (proj2 (Nat.ltb_lt 20 p) Hp) in H. discriminate.
Qed.
Definition neg_point (p : nat) : qp :=
  match filter (fun q => negb (pos_w q)) (dun_q p) with q :: _ => q | [] => (0, (0, 0))%Q end.
Definition neg_value (p : nat) : bool := q_lt (at_point (fst (snd (neg_point p))) (snd (snd (neg_point p))) (dun_q p)) 0.
Lemma neg_values : neg_value 18 = true /\ neg_value 20 = true.
Proof. split; vm_compute; reflexivity. Qed.
Lemma spike_square : forall a b x y, spike a b x y ^ 2 = spike a b x y.
Proof. intros a b x y. unfold spike. destruct (Req_EM_T x a); [destruct (Req_EM_T y b)|]; ring. Qed.
Lemma square_negative : forall p, In p [9; 10]%nat -> exists rule (g : R -> R -> R),
  area_rule p = Some rule /\ quad2 rule (fun x y => g x y ^ 2) < 0.
Proof.
  assert (K : forall p, (p <= 20)%nat -> neg_value p = true -> exists rule (g : R -> R -> R), dun_rule p = Some rule /\ quad2 rule (fun x y => g x y ^ 2) < 0).
  { intros p Hp V. set (a := fst (snd (neg_point p))). set (b := snd (snd (neg_point p))).
    exists (map rpoint (dun_q p)), (spike (2 * Q2R a - 1) (2 * Q2R b - 1)). split; [apply dun_rule_q, Hp|].
    replace (fun x y => spike (2 * Q2R a - 1) (2 * Q2R b - 1) x y ^ 2) with (spike (2 * Q2R a - 1) (2 * Q2R b - 1)).
    - rewrite spike_quad. apply q_lt_true in V. rewrite RMicromega.Q2R_0 in V. fold a b in V. lra.
    - apply FunctionalExtensionality.functional_extensionality. intros x. apply FunctionalExtensionality.functional_extensionality. intros y. symmetry. apply spike_square. }
  intros p [<-|[<-|[]]]; (apply K; [lia|apply neg_values]).
Qed.
Lemma inexact : exists rule v, dun_rule 1 = Some rule /\ is_triangle_int (fun x y => x) v /\ quad2 rule (fun x y => x) <> v.
Proof.
  destruct (dun_rule_q 1 ltac:(lia)) as [R _]. exists (map rpoint (dun_q 1)), (mom2 1 0). refine (conj R (conj _ _)).
  - exists (inner2 1 0). split; [|apply int_outer2]. intros y _.
    apply is_RInt_eq with (f := fun x => x ^ 1 * y ^ 0) (v1 := inner2 1 0 y); [apply int_inner2|intros x; cbn [pow]; ring|reflexivity].
  - unfold quad2, mom2, mom, rpoint, Q2R. cbn. lra.
Qed.

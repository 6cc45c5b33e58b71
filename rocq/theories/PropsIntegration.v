(** C55: the quadrature tables. *)
From Coq Require Import ZArith QArith Reals Qreals List Arith Lia Lra Bool.
From Coquelicot Require Import Coquelicot.
From Verif Require Import ModelIntegration Num ModelShape SpecShape LemmasShape SpecBasis SpecIntegration LemmasIntegration LemmasIntegration2 LemmasIntegration3
  LemmasIntegration4 LemmasIntegration5 PropsShape.
Import ListNotations.
Open Scope R_scope.

(** Edges: for every degree asked for up to 65 there is a rule; its weights are positive,
    its points increase strictly inside (-1, 1), and it integrates every polynomial of
    degree up to 2 n - 1 >= p within 10^-26 times the sum of the sizes of the coefficients. *)
Theorem C55_edge_rule : forall p, (p <= 65)%nat ->
  exists rule, gl_rule p = Some rule /\ length rule = ((p + 2) / 2)%nat
    /\ List.Forall (fun wx => 0 < fst wx /\ -1 < snd wx < 1) rule /\ increasing (map snd rule)
    /\ (p < 2 * length rule)%nat
    /\ forall c, exists v, is_RInt (poly1 (2 * length rule) c) (-1) 1 v
         /\ Rabs (quad1 rule (poly1 (2 * length rule) c) - v) <= / 10 ^ 26 * size1 (2 * length rule) c.
Proof. exact edge_rule. Qed.
Print Assumptions C55_edge_rule.

(** 3 + x^2 with the rule of degree 3. *)
Example edge_rule_3 : exists rule, gl_rule 3 = Some rule /\ length rule = 2%nat
  /\ Rabs (quad1 rule (fun x => 3 + x ^ 2) - 20 / 3) <= / 10 ^ 25.
Proof.
  destruct (C55_edge_rule 3 ltac:(lia)) as (rule & R1 & R2 & _ & _ & _ & R3). exists rule. refine (conj R1 (conj R2 _)).
  change ((3 + 2) / 2)%nat with 2%nat in R2. rewrite R2 in R3.
  destruct (R3 (fun k => match k with O => 3 | S (S O) => 1 | _ => 0 end)) as (v & V1 & V2).
  assert (E : v = 20 / 3).
  { refine (eq_trans (eq_sym (is_RInt_unique _ _ _ _ V1)) (is_RInt_unique _ _ _ _ _)).
    exact (edge_example). }
  rewrite E in V2.
  replace (quad1 rule (fun x => 3 + x ^ 2)) with (quad1 rule (poly1 (2 * 2) (fun k => match k with O => 3 | S (S O) => 1 | _ => 0 end))).
  - eapply Rle_trans; [exact V2|]. unfold size1. cbn [bsum Nat.mul Nat.add]. rewrite Rabs_R0, !Rabs_right by lra. lra.
  - apply quad1_ext. intros x. unfold poly1. cbn [bsum Nat.mul Nat.add]. ring.
Qed.

(** The doubles made of the literals: the points lie opposite each other exactly and
    opposite points carry the same weight. *)
Theorem C55_edge_symmetric : forall p rule, gl_doubles p = Some rule -> forall gp, (gp < length rule)%nat ->
  snd (nth (length rule - gp - 1) rule (0, 0)) = - snd (nth gp rule (0, 0))
  /\ fst (nth (length rule - gp - 1) rule (0, 0)) = fst (nth gp rule (0, 0)).
Proof. exact edge_symmetric. Qed.
Print Assumptions C55_edge_symmetric.

(** The literals themselves do not: those with 13 points differ in the 27th digit. *)
Theorem C55_literals_symmetric_refuted : exists p rule gp, gl_rule p = Some rule /\ (gp < length rule)%nat
  /\ snd (nth (length rule - gp - 1) rule (0, 0)) <> - snd (nth gp rule (0, 0)).
Proof. exact literals_asymmetric. Qed.
Print Assumptions C55_literals_symmetric_refuted.

(** Hence the two sides of an interface, whatever the order of the elements, evaluate at the
    same points of the plane (C43 for the rule of the program). *)
Theorem C55_interface_points : forall p rule nin nex k l,
  gl_doubles (2 * p + 1) = Some rule ->
  (k < 3)%nat -> (l < 3)%nat -> nondegenerate nin -> nondegenerate nex ->
  0 < orient (nin 0%nat) (nin 1%nat) (nin 2%nat) -> 0 < orient (nex 0%nat) (nex 1%nat) (nex 2%nat) ->
  nin ((k + 1) mod 3)%nat = nex ((l + 2) mod 3)%nat -> nin ((k + 2) mod 3)%nat = nex ((l + 1) mod 3)%nat ->
  forall gp, (gp < length rule)%nat ->
    boundary_point nin k (nth gp (map snd rule) 0) = boundary_point nex l (nth (length rule - gp - 1) (map snd rule) 0)
    /\ boundary_weight nin k (nth gp (map fst rule) 0) = boundary_weight nex l (nth (length rule - gp - 1) (map fst rule) 0).
Proof.
  intros p rule nin nex k l R Hk Hl N1 N2 O1 O2 E1 E2 gp G.
  assert (L : length (map snd rule) = length rule) by apply map_length.
  assert (P : forall g, (g < length rule)%nat -> nth g (map snd rule) 0 = snd (nth g rule (0, 0)) /\ nth g (map fst rule) 0 = fst (nth g rule (0, 0))).
  { intros g _. split; [exact (map_nth snd rule (0, 0) g)|exact (map_nth fst rule (0, 0) g)]. }
  destruct (C43_interface_points nin nex k l (map snd rule) Hk Hl N1 N2 O1 O2 E1 E2) with (gp := gp) as (A & B & _); rewrite ?L; try assumption.
  - intros g Hg. rewrite (proj1 (P _ Hg)), (proj1 (P (length rule - g - 1)%nat ltac:(lia))). apply (C55_edge_symmetric _ _ R g Hg).
  - rewrite L in A. split; [exact A|]. rewrite (proj2 (P _ G)), (proj2 (P (length rule - gp - 1)%nat ltac:(lia))), (proj2 (C55_edge_symmetric _ _ R gp G)). apply B.
Qed.
Print Assumptions C55_interface_points.

(** Triangles: for every degree up to 20 there is a rule with the announced number of points
    that integrates every polynomial of that total degree over the master triangle within
    2 10^-14 times the sum of the sizes of the coefficients. *)
Theorem C55_area_rule : forall p, (p <= 20)%nat ->
  exists rule, dun_rule p = Some rule /\ length rule = dun_num p
    /\ forall c, exists v, is_triangle_int (poly2 p c) v /\ Rabs (quad2 rule (poly2 p c) - v) <= 2 / 10 ^ 14 * size2 p c.
Proof. exact area_rule_ok. Qed.
Print Assumptions C55_area_rule.

(** The area of the master triangle, with the rule of an element of order 3. *)
Example area_rule_3 : exists rule, area_rule 3 = Some rule /\ length rule = 12%nat /\ Rabs (quad2 rule (fun _ _ => 1) - 2) <= 2 / 10 ^ 14.
Proof. exact area_example. Qed.

(** Beyond: no rule, so elements of order above 10 cannot be built; edges allow order 32. *)
Theorem C55_beyond : (forall p, area_rule p = None <-> (10 < p)%nat) /\ (forall p, face_rule p = None <-> (32 < p)%nat).
Proof. exact beyond. Qed.
Print Assumptions C55_beyond.

(** Where the weights are positive and where the points lie in the triangle. *)
Theorem C55_signs : forall p rule, dun_rule p = Some rule ->
  (List.Forall (fun q => 0 < fst q) rule <-> ~ In p [3; 7; 18; 20]%nat)
  /\ (List.Forall (fun q => in_master (fst (snd q)) (snd (snd q))) rule <-> ~ In p [11; 15; 16; 18; 20]%nat).
Proof. exact rule_signs. Qed.
Print Assumptions C55_signs.
(** Elements of order 1 to 7 therefore have positive weights at points inside. *)
Corollary C55_low_order : forall p rule, (p <= 7)%nat -> area_rule p = Some rule ->
  List.Forall (fun q => 0 < fst q /\ in_master (fst (snd q)) (snd (snd q))) rule.
Proof.
  intros p rule Hp H. destruct (C55_signs _ _ H) as [A B]. apply Forall_and; [apply A|apply B]; cbn [In]; lia.
Qed.
Print Assumptions C55_low_order.

(** Not so at order 9 and 10, nor for the L2 error (geometry/element.hpp line 551, which asks
    for degree 20): there is a square whose quadrature is negative, under a square root. *)
Theorem C55_square_refuted : forall p, In p [9; 10]%nat -> exists rule (g : R -> R -> R),
  area_rule p = Some rule /\ quad2 rule (fun x y => g x y ^ 2) < 0.
Proof. exact square_negative. Qed.
Print Assumptions C55_square_refuted.

(** The tables are decimals: no exact equality, already for x. *)
Theorem C55_exact_refuted : exists rule v, dun_rule 1 = Some rule /\ is_triangle_int (fun x y => x) v /\ quad2 rule (fun x y => x) <> v.
Proof. exact inexact. Qed.
Print Assumptions C55_exact_refuted.

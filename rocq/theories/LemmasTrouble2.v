(** Two triangles with a step of the water level between them. *)
From Coq Require Import Reals List Bool Arith Lra Lia FunctionalExtensionality.
From Verif Require Import Num ModelSWE Outcome ModelShape SpecShape LemmasShape LemmasSWE ModelBasis LemmasBasis4 SpecStepper LemmasRK LemmasStep ModelJac ModelSlope ModelStep PropsStep
  ModelTrouble SpecTrouble LemmasTrouble.
Import ListNotations.
Open Scope R_scope.

Definition pool (n : nat) (nd : nat -> nodes) (B : R) (fs : list intface) : mesh := Mesh n 1 nd
  [(2 / 3, (-2 / 3, 1 / 3)); (2 / 3, (1 / 3, -2 / 3)); (2 / 3, (-2 / 3, -2 / 3))] [(1, - sqrt (1 / 3)); (1, sqrt (1 / 3))]
  (fun _ _ => Aux B 1 1) (fun _ _ => V2 0 0) (fun _ _ _ => Aux B 1 1) (fun _ => SourceIn false 0 false 0) None fs []
  (fun _ _ => B) (fun _ => B) (fun _ => no_sl).
Definition two (B : R) : mesh := pool 2 sq_nodes B [Intf 0 0 1 0 Internal].
Definition half (e : nat) (B : R) : mesh := pool 1 (fun _ => sq_nodes e) B [].

Lemma pool_face : forall n nd B fs z0 z1 w e b gp, q_face (pool n nd B fs) (at_rest z0 z1 w) 0 e b gp = V3 (if Nat.eqb e 0 then z0 else z1) 0 0.
Proof.
  intros. unfold q_face, expand. change (ndof (pool n nd B fs)) with 3%nat. f_equal; rewrite vmsum_rsum; cbn [rsum]; unfold at_rest; cbn [ms_q]; try rewrite phi0; ring.
Qed.
Lemma pool_vertex : forall n nd B fs z0 z1 w e v, (v < 3)%nat -> ze_vrtx (pool n nd B fs) 0 (at_rest z0 z1 w) e v = if Nat.eqb e 0 then z0 else z1.
Proof.
  intros n nd B fs z0 z1 w e v Hv. unfold ze_vrtx. cbn [m_p pool]. destruct (b2l 1 (ms_q (at_rest z0 z1 w) e 0%nat 0%nat) ltac:(lia)) as (l & -> & E). rewrite E.
  destruct v as [|[|[|v]]]; [| | |lia]; cbn; ring.
Qed.
Lemma pool_top : forall n nd B fs z0 z1 w e, 0 < (if Nat.eqb e 0 then z0 else z1) + B ->
  top_depth (pool n nd B fs) 0 (at_rest z0 z1 w) e ((if Nat.eqb e 0 then z0 else z1) + B).
Proof.
  intros n nd B fs z0 z1 w e H. split; [exact H|]. split; [intros v Hv; rewrite (pool_vertex _ _ _ _ _ _ _ _ _ Hv); cbn; lra|].
  exists 0%nat. split; [lia|]. rewrite pool_vertex by lia. reflexivity.
Qed.
Lemma sqrt2 : 0 < sqrt 2 /\ sqrt 2 * sqrt 2 = 2.
Proof. split; [apply sqrt_lt_R0; lra|apply sqrt_sqrt; lra]. Qed.
Lemma sq_J : forall e, (e < 2)%nat -> GetSurfaceJ (sq_nodes e) 0 = sqrt 2 / 2.
Proof. intros e He. destruct e as [|[|e]]; [| |lia]; unfold GetSurfaceJ; cbn; f_equal; f_equal; ring. Qed.
Lemma sq_len : forall e, (e < 2)%nat -> dist (sq_nodes e 1%nat) (sq_nodes e 2%nat) = sqrt 2.
Proof. intros e He. destruct e as [|[|e]]; [| |lia]; unfold dist, vdot, SpecShape.vsub; cbn; f_equal; ring. Qed.
Lemma sq_nrm : forall nn nd B fs e', nd e' = sq_nodes 0 -> normal (pool nn nd B fs) e' 0 = V2 (1 / sqrt 2) (1 / sqrt 2).
Proof.
  intros nn nd B fs e' E. destruct sqrt2 as [P _]. unfold normal. cbn [m_nodes pool]. rewrite E. unfold GetSurfaceNormal, determinant, deformation, hypot. cbn [fst snd nx ny]. cbn. unfold ModelShape.hypot.
  rewrite Rabs_pos_eq by lra. replace ((0 - 1) * (0 - 1) + (1 - 0) * (1 - 0)) with 2 by ring. f_equal; field; lra.
Qed.
Lemma sq_nrm1 : forall nn nd B fs e', nd e' = sq_nodes 1 -> normal (pool nn nd B fs) e' 0 = V2 (- (1 / sqrt 2)) (- (1 / sqrt 2)).
Proof.
  intros nn nd B fs e' E. destruct sqrt2 as [P _]. unfold normal. cbn [m_nodes pool]. rewrite E. unfold GetSurfaceNormal, determinant, deformation, hypot. cbn [fst snd nx ny]. cbn. unfold ModelShape.hypot.
  rewrite Rabs_pos_eq by lra. replace ((1 - 0) * (1 - 0) + (0 - 1) * (0 - 1)) with 2 by ring. f_equal; field; lra.
Qed.
Lemma sq_radius : forall e, (e < 2)%nat -> Rpower (GetRadius (sq_nodes e)) ((INR 1 + 1) / 2) = sqrt 2 / 2.
Proof.
  intros e He. destruct sqrt2 as [P Q]. assert (E : GetRadius (sq_nodes e) = sqrt 2 / 2).
  { assert (H1 : forall x y, x * x + y * y = 1 -> ModelShape.hypot x y = 1) by (intros x y H; unfold ModelShape.hypot; rewrite H; apply sqrt_1).
    assert (H2 : forall x y, x * x + y * y = 2 -> ModelShape.hypot x y = sqrt 2) by (intros x y H; unfold ModelShape.hypot; rewrite H; reflexivity).
    destruct e as [|[|e]]; [| |lia]; unfold GetRadius, GetArea, side_length; cbn.
    - rewrite (H1 (0 - 1) (0 - 0)), (H2 (1 - 0) (0 - 1)), (H1 (0 - 0) (1 - 0)) by ring. field.
    - rewrite (H1 (1 - 0) (1 - 1)), (H2 (0 - 1) (1 - 0)), (H1 (1 - 1) (0 - 1)) by ring. field. }
  rewrite E. replace ((INR 1 + 1) / 2) with 1 by (cbn; field). apply Rpower_1. lra.
Qed.


Section Two.
  Context (B z0 z1 : R).
  Let m := two B. Let st := at_rest z0 z1 true.
  Let S0 := FSide 0 0 true (sqrt 2 / 2) (V2 (1 / sqrt 2) (1 / sqrt 2)) (fun _ => V3 z0 0 0) (fun _ => z0 + B) (fun _ => z1 + B).
  Let S1 := FSide 1 0 true (sqrt 2 / 2) (V2 (- (1 / sqrt 2)) (- (1 / sqrt 2))) (fun _ => V3 z1 0 0) (fun _ => z1 + B) (fun _ => z0 + B).
  Lemma two_faces : forall f, In f (m_intfaces m) -> (i_bin f < 3)%nat /\ (i_bex f < 3)%nat.
  Proof. intros f [<-|[]]. cbn. lia. Qed.
  Lemma two_sides : face_sides m [] 0 st = [S0; S1].
  Proof.
    unfold face_sides. change (m_intfaces m) with [Intf 0 0 1 0 Internal]. cbn [flat_map map app i_in i_ex i_bin i_bex].
    change (ms_wet st 0%nat) with true. change (m_nodes m 0) with (sq_nodes 0). unfold m, two. rewrite (sq_nrm 2 sq_nodes B _ 0%nat eq_refl), (sq_J 0) by lia. cbn [orb nx ny].
    unfold S0, S1, st. f_equal; [|f_equal]; f_equal; apply functional_extensionality; intros gp; rewrite ?pool_face; reflexivity.
  Qed.
  Lemma over_two : forall J n q h o x, over_face m (FSide 0 0 true J n q h o) (fun _ => x) = J * (2 * x).
  Proof. intros. unfold over_face. change (length (m_rule1 m)) with 2%nat. cbn [rsum s_J m_rule1 m two pool nth fst]. ring. Qed.
  (** Rows 0 and 1 as the code takes them. *)
  Lemma two_flagged0 : 0 < z0 + B -> (flagged m [] 0 st 0 1 0 = true <-> z0 < 0 /\ z0 + B < sqrt 2 * Rabs (z0 - z1)).
  Proof.
    intros H. destruct sqrt2 as [P Q]. pose proof (pool_top 2 sq_nodes B [Intf 0 0 1 0 Internal] z0 z1 true 0 H) as T. cbn [Nat.eqb] in T.
    rewrite (flagged_iff m [] 0 st two_faces (fun d F => match F with end) 0 1 0 _ T). unfold jumps, inflow_length. rewrite !two_sides. unfold total, counts. cbn [fold_right].
    change (over_face m ?s) with (over_face m (FSide 0 0 true (s_J s) (V2 0 0) (fun _ => V3 0 0 0) (fun _ => 0) (fun _ => 0))).
    cbn [s_elt s_live s_n s_q s_h s_out s_id s_J S0 S1 Nat.eqb andb disc_of fst snd vget ze qx nx ny]. rewrite !over_two.
    change (GetRadius (m_nodes m 0)) with (GetRadius (sq_nodes 0)). change (m_p m) with 1%nat. rewrite (sq_radius 0) by lia.
    change (dist (m_nodes m 0 ((0 + 1) mod 3)%nat) (m_nodes m 0 ((0 + 2) mod 3)%nat)) with (dist (sq_nodes 0 1%nat) (sq_nodes 0 2%nat)). rewrite (sq_len 0) by lia.
    replace (sqrt 2 / 2 * (2 * (1 / sqrt 2 * z0 + 1 / sqrt 2 * 0))) with z0 by (field; lra).
    replace (sqrt 2 / 2 * (2 * (z0 + B - (z1 + B)))) with (sqrt 2 * (z0 - z1)) by field.
    destruct (Rlt_dec z0 0) as [L|L]; rewrite ?Rplus_0_r.
    - rewrite Rabs_mult, (Rabs_pos_eq (sqrt 2)) by lra. change (ms_wet st 0%nat) with true. replace (sqrt 2 / 2 * sqrt 2 * (z0 + B)) with (z0 + B) by nra. split.
      + intros (_ & _ & G). split; assumption.
      + intros (_ & G). split; [reflexivity|]. split; assumption.
    - split; [intros (_ & G & _); lra|intros [G _]; lra].
  Qed.
  Lemma two_flagged1 : 0 < z1 + B -> (flagged m [] 0 st 0 1 1 = true <-> 0 < z1 /\ z1 + B < sqrt 2 * Rabs (z1 - z0)).
  Proof.
    intros H. destruct sqrt2 as [P Q]. pose proof (pool_top 2 sq_nodes B [Intf 0 0 1 0 Internal] z0 z1 true 1 H) as T. cbn [Nat.eqb] in T.
    rewrite (flagged_iff m [] 0 st two_faces (fun d F => match F with end) 0 1 1 _ T). unfold jumps, inflow_length. rewrite !two_sides. unfold total, counts. cbn [fold_right].
    change (over_face m ?s) with (over_face m (FSide 0 0 true (s_J s) (V2 0 0) (fun _ => V3 0 0 0) (fun _ => 0) (fun _ => 0))).
    cbn [s_elt s_live s_n s_q s_h s_out s_id s_J S0 S1 Nat.eqb andb disc_of fst snd vget ze qx nx ny]. rewrite !over_two.
    change (GetRadius (m_nodes m 1)) with (GetRadius (sq_nodes 1)). change (m_p m) with 1%nat. rewrite (sq_radius 1) by lia.
    change (dist (m_nodes m 1 ((0 + 1) mod 3)%nat) (m_nodes m 1 ((0 + 2) mod 3)%nat)) with (dist (sq_nodes 1 1%nat) (sq_nodes 1 2%nat)). rewrite (sq_len 1) by lia.
    replace (sqrt 2 / 2 * (2 * (- (1 / sqrt 2) * z1 + - (1 / sqrt 2) * 0))) with (- z1) by (field; lra).
    replace (sqrt 2 / 2 * (2 * (z1 + B - (z0 + B)))) with (sqrt 2 * (z1 - z0)) by field.
    destruct (Rlt_dec (- z1) 0) as [L|L]; rewrite ?Rplus_0_r, ?Rplus_0_l.
    - rewrite Rabs_mult, (Rabs_pos_eq (sqrt 2)) by lra. change (ms_wet st 1%nat) with true. replace (sqrt 2 / 2 * sqrt 2 * (z1 + B)) with (z1 + B) by nra. split.
      + intros (_ & _ & G). split; [lra|assumption].
      + intros (_ & G). split; [reflexivity|]. split; assumption.
    - split; [intros (_ & G & _); lra|intros [G _]; lra].
  Qed.
End Two.

(** One side of the cut on its own. *)
Lemma half_flagged1 : forall B z h, 0 < z + B -> z <= 0 -> flagged (half 1 B) [DFace 0 0 h] 0 (at_rest z 0 true) 0 1 0 = false.
Proof.
  intros B z h H Hz. destruct sqrt2 as [P Q]. apply not_true_is_false. intros F.
  pose proof (pool_top 1 (fun _ => sq_nodes 1) B [] z 0 true 0 H) as T. cbn [Nat.eqb] in T.
  apply (flagged_iff (half 1 B) [DFace 0 0 h] 0 (at_rest z 0 true) (fun f F => match F with end)) with (2 := T) in F; [|intros d [<-|[]]; cbn; lia].
  destruct F as (_ & F & _). revert F. unfold inflow_length.
  assert (E : exists o, face_sides (half 1 B) [DFace 0 0 h] 0 (at_rest z 0 true) =
    [FSide 0 0 true (sqrt 2 / 2) (V2 (- (1 / sqrt 2)) (- (1 / sqrt 2))) (fun _ => V3 z 0 0) (fun _ => z + B) o]).
  { eexists. unfold face_sides. change (m_intfaces (half 1 B)) with (@nil intface). cbn [flat_map map app d_elt d_id d_h].
    change (ms_wet (at_rest z 0 true) 0%nat) with true. change (m_nodes (half 1 B) 0) with (sq_nodes 1). unfold half. rewrite (sq_nrm1 1 (fun _ => sq_nodes 1) B [] 0%nat eq_refl), (sq_J 1) by lia.
    f_equal; f_equal; [| |reflexivity]; apply functional_extensionality; intros gp; rewrite ?pool_face; reflexivity. }
  destruct E as [o ->]. unfold total, counts. cbn [fold_right s_elt s_live s_n s_q Nat.eqb andb disc_of fst snd vget ze qx nx ny].
  unfold over_face. change (length (m_rule1 (half 1 B))) with 2%nat. cbn [rsum s_J m_rule1 half pool nth fst].
  replace (sqrt 2 / 2 * _) with (- z) by (field; lra). destruct (Rlt_dec (- z) 0); lra.
Qed.

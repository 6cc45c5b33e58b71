(** Proofs: on a triangulation the least squares system is solvable everywhere. *)
From Coq Require Import Reals List Bool Arith Lra Lia Psatz.
From Verif Require Import Num Outcome ModelSWE ModelShape ModelBasis ModelJac ModelSlope ModelStep ModelGN SpecShape SpecStage ModelGrad SpecGrad LemmasGrad1 LemmasGrad2.
Import ListNotations.
Open Scope R_scope.

Lemma orient_rot : forall a b c, orient b c a = orient a b c.
Proof. intros. unfold orient. ring. Qed.
Lemma orient_aab : forall a b, orient a a b = 0.
Proof. intros. unfold orient. ring. Qed.
Lemma orient_abb : forall a b, orient a b b = 0.
Proof. intros. unfold orient. ring. Qed.
Lemma orient_aba : forall a b, orient a b a = 0.
Proof. intros. unfold orient. ring. Qed.
Lemma orient_flip : forall a b c, orient b a c = - orient a b c.
Proof. intros. unfold orient. ring. Qed.

(** Two faces of a triangle are not both on one other triangle. *)
Lemma two_sides : forall w0 w1 w2 (n' : nodes) b b', 0 < orient w0 w1 w2 -> 0 < orient (n' 0%nat) (n' 1%nat) (n' 2%nat) -> (b < 3)%nat -> (b' < 3)%nat ->
  n' ((b + 1) mod 3)%nat = w0 -> n' ((b + 2) mod 3)%nat = w2 -> n' ((b' + 1) mod 3)%nat = w1 -> n' ((b' + 2) mod 3)%nat = w0 -> False.
Proof.
  intros w0 w1 w2 n' b b' O O' Hb Hb' E1 E2 E3 E4.
  destruct b as [|[|[|b]]], b' as [|[|[|b']]]; try lia; cbn in E1, E2, E3, E4; subst w0 w1 w2; try rewrite E4 in *;
    repeat match goal with H : n' _ = n' _ |- _ => rewrite H in * end;
    unfold orient in *; lra.
Qed.

Section Mesh.
  Context (m : mesh) (T : triangulation m).
  Lemma apex : forall e b e', beyond m e b (Some e') -> exists b', beyond m e' b' (Some e) /\
    m_nodes m e' ((b' + 1) mod 3)%nat = m_nodes m e ((b + 2) mod 3)%nat /\ m_nodes m e' ((b' + 2) mod 3)%nat = m_nodes m e ((b + 1) mod 3)%nat.
  Proof.
    intros e b e' B. inversion B as [f I E1 E2 E3|f I E1 E2 E3|]; subst; destruct (tr_joined m T f I) as [J1 J2].
    - exists (i_bex f). split; [eapply beyond_ex; try exact I; reflexivity|]. split; symmetry; assumption.
    - exists (i_bin f). split; [eapply beyond_in; try exact I; reflexivity|]. split; assumption.
  Qed.
  Lemma beyond_lt : forall e b o, beyond m e b o -> (e < m_n m)%nat /\ (b < 3)%nat.
  Proof. intros e b o B. apply (proj2 (tr_faces m T)). apply (beyond_side m e b o B). Qed.
  Lemma orient_at : forall e b, (e < m_n m)%nat -> (b < 3)%nat -> 0 < orient (m_nodes m e b) (m_nodes m e ((b + 1) mod 3)%nat) (m_nodes m e ((b + 2) mod 3)%nat).
  Proof.
    intros e b He Hb. pose proof (tr_orient m T e He) as O. destruct b as [|[|[|b]]]; [exact O| | |lia]; cbn.
    - rewrite orient_rot. exact O.
    - rewrite <- orient_rot. exact O.
  Qed.
  Lemma towards : forall e b o, beyond m e b o -> exists oz d,
    toward (m_nodes m e b) (m_nodes m e ((b + 1) mod 3)%nat) (m_nodes m e ((b + 2) mod 3)%nat) oz d /\
    (exists k, 0 < k /\ vsub (site m e b o) (bary (m_nodes m e)) = (k * fst d, k * snd d)) /\
    (forall z, oz = Some z -> exists e', o = Some e' /\
      forall x, inner (m_nodes m e ((b + 1) mod 3)%nat) (m_nodes m e ((b + 2) mod 3)%nat) z x -> inner (m_nodes m e' 0%nat) (m_nodes m e' 1%nat) (m_nodes m e' 2%nat) x).
  Proof.
    intros e b o B. destruct (beyond_lt e b o B) as [He Hb]. destruct o as [e'|].
    - destruct (apex e b e' B) as (b' & B' & J1 & J2). destruct (beyond_lt e' b' _ B') as [He' Hb'].
      pose proof (orient_at e' b' He' Hb') as O'. rewrite J1, J2 in O'. exists (Some (m_nodes m e' b')), (vsub (m_nodes m e' b') (m_nodes m e b)). split; [|split].
      + constructor. rewrite orient_rot. exact O'.
      + exists (/ 3). split; [lra|]. unfold site, bary, vsub. cbn [fst snd].
        assert (S : forall k (f : nat -> R), (k < 3)%nat -> f 0%nat + f 1%nat + f 2%nat = f k + f ((k + 1) mod 3)%nat + f ((k + 2) mod 3)%nat) by (intros k f Hk; destruct k as [|[|[|k]]]; [| | |lia]; cbn; ring).
        rewrite !(S b' (fun v => fst (m_nodes m e' v)) Hb'), !(S b' (fun v => snd (m_nodes m e' v)) Hb'), !(S b (fun v => fst (m_nodes m e v)) Hb), !(S b (fun v => snd (m_nodes m e v)) Hb), J1, J2. f_equal; field.
      + intros z E. injection E as <-. exists e'. split; [reflexivity|]. intros x X. rewrite <- J1, <- J2 in X. apply inner_rot, inner_swap in X.
        destruct b' as [|[|[|b']]]; [| | |lia]; cbn in X.
        * apply inner_rot, inner_rot. exact X.
        * apply inner_rot. exact X.
        * exact X.
    - exists None, (fst (m_nodes m e ((b + 1) mod 3)%nat) + fst (m_nodes m e ((b + 2) mod 3)%nat) - 2 * fst (m_nodes m e b), snd (m_nodes m e ((b + 1) mod 3)%nat) + snd (m_nodes m e ((b + 2) mod 3)%nat) - 2 * snd (m_nodes m e b)). split; [constructor|]. split; [|discriminate].
      exists (/ 6). split; [lra|]. unfold site, bary, mid_face, vsub. cbn [fst snd]. destruct b as [|[|[|b]]]; [| | |lia]; cbn; f_equal; field.
  Qed.
  Lemma cross_vsub : forall c x y k l d d', vsub x c = (k * fst d, k * snd d) -> vsub y c = (l * fst d', l * snd d') -> orient c x y = k * l * cross d d'.
  Proof.
    intros c x y k l d d' E E'. injection E as E1 E2. injection E' as E3 E4. unfold orient, cross. rewrite E1, E2, E3, E4. ring.
  Qed.
  Lemma other_faces : forall e b e', (b < 3)%nat -> beyond m e b (Some e') -> beyond m e ((b + 1) mod 3)%nat (Some e') -> False.
  Proof.
    intros e b e' Hb B1 B2. destruct (apex e b e' B1) as (b1 & C1 & J1 & J2). destruct (apex e _ e' B2) as (b2 & C2 & J3 & J4).
    destruct (beyond_lt _ _ _ B1) as [He _]. destruct (beyond_lt _ _ _ C1) as [He' Hb1]. destruct (beyond_lt _ _ _ C2) as [_ Hb2].
    pose proof (orient_at e b He Hb) as O. apply (two_sides (m_nodes m e ((b + 2) mod 3)%nat) (m_nodes m e b) (m_nodes m e ((b + 1) mod 3)%nat) (m_nodes m e') b1 b2); try assumption.
    - rewrite <- orient_rot. exact O.
    - exact (tr_orient m T e' He').
    - rewrite J3. destruct b as [|[|[|b]]]; [reflexivity..|lia].
    - rewrite J4. destruct b as [|[|[|b]]]; [reflexivity..|lia].
  Qed.
  Lemma site_spread : forall e (o : nat -> option nat), (e < m_n m)%nat -> (forall b, (b < 3)%nat -> beyond m e b (o b)) ->
    spread (bary (m_nodes m e)) (fun b => site m e b (o b)).
  Proof.
    intros e o He B.
    destruct (towards e 0 _ (B 0%nat ltac:(lia))) as (z0 & d0 & T0 & (k0 & K0 & S0) & N0).
    destruct (towards e 1 _ (B 1%nat ltac:(lia))) as (z1 & d1 & T1 & (k1 & K1 & S1) & N1).
    destruct (towards e 2 _ (B 2%nat ltac:(lia))) as (z2 & d2 & T2 & (k2 & K2 & S2) & N2).
    cbn in T0, T1, T2, N0, N1, N2.
    destruct (Req_dec (cross d0 d1) 0) as [C01|C01]; [|exists 0%nat, 1%nat; split; [lia|split; [lia|]]; cbv beta; rewrite (cross_vsub _ _ _ _ _ _ _ S0 S1); repeat apply Rmult_integral_contrapositive_currified; try lra; exact C01].
    destruct (Req_dec (cross d0 d2) 0) as [C02|C02]; [|exists 0%nat, 2%nat; split; [lia|split; [lia|]]; cbv beta; rewrite (cross_vsub _ _ _ _ _ _ _ S0 S2); repeat apply Rmult_integral_contrapositive_currified; try lra; exact C02].
    exfalso.
    assert (D : forall b b' e1 e2 x, o b = Some e1 -> o b' = Some e2 -> (b < 3)%nat -> b' = ((b + 1) mod 3)%nat -> 
      inner (m_nodes m e1 0%nat) (m_nodes m e1 1%nat) (m_nodes m e1 2%nat) x -> inner (m_nodes m e2 0%nat) (m_nodes m e2 1%nat) (m_nodes m e2 2%nat) x -> False).
    { intros b b' e1 e2 x E1 E2 Hb Hb' X1 X2. assert (Lb : (b' < 3)%nat) by (subst b'; apply Nat.mod_upper_bound; lia).
      pose proof (B b Hb) as B1. rewrite E1 in B1. pose proof (B b' Lb) as B2. rewrite E2 in B2.
      apply (tr_apart m T e1 e2 x); try assumption; try (eapply beyond_range; [exact (tr_faces m T)|eassumption]).
      intros ->. subst b'. exact (other_faces e b e2 Hb B1 B2). }
    destruct (three_ways _ _ _ _ _ _ _ _ _ (tr_orient m T e He) T0 T1 T2 C01 C02) as [(y1 & y2 & x & E1 & E2 & X1 & X2)|[(y1 & y2 & x & E1 & E2 & X1 & X2)|(y1 & y2 & x & E1 & E2 & X1 & X2)]].
    - destruct (N1 _ E1) as (e1 & O1 & I1). destruct (N2 _ E2) as (e2 & O2 & I2). exact (D 1%nat 2%nat e1 e2 x O1 O2 ltac:(lia) eq_refl (I1 x X1) (I2 x X2)).
    - destruct (N0 _ E1) as (e1 & O1 & I1). destruct (N2 _ E2) as (e2 & O2 & I2). exact (D 2%nat 0%nat e2 e1 x O2 O1 ltac:(lia) eq_refl (I2 x X2) (I1 x X1)).
    - destruct (N0 _ E1) as (e1 & O1 & I1). destruct (N1 _ E2) as (e2 & O2 & I2). exact (D 0%nat 1%nat e1 e2 x O1 O2 ltac:(lia) eq_refl (I1 x X1) (I2 x X2)).
  Qed.
  Lemma pick_beyond : forall e, (e < m_n m)%nat -> exists o, forall b, (b < 3)%nat -> beyond m e b (o b).
  Proof.
    intros e He. destruct (beyond_ex_o m e 0 (tr_faces m T) He ltac:(lia)) as [o0 B0]. destruct (beyond_ex_o m e 1 (tr_faces m T) He ltac:(lia)) as [o1 B1]. destruct (beyond_ex_o m e 2 (tr_faces m T) He ltac:(lia)) as [o2 B2].
    exists (fun b => match b with 0%nat => o0 | 1%nat => o1 | _ => o2 end). intros b Hb. destruct b as [|[|[|b]]]; [assumption..|lia].
  Qed.
  Lemma spread_ext : forall c x y, (forall b, (b < 3)%nat -> x b = y b) -> spread c x -> spread c y.
  Proof. intros c x y E (b & b' & Hb & Hb' & N). exists b, b'. rewrite <- !E by assumption. repeat split; assumption. Qed.
  Lemma mesh_spread : forall e, (e < m_n m)%nat -> spread (centre m e) (nb_coord m e).
  Proof.
    intros e He. destruct (pick_beyond e He) as [o B]. apply (spread_ext _ (fun b => site m e b (o b))).
    - intros b Hb. symmetry. apply nb_site; [exact (tr_faces m T)|exact Hb|exact (B b Hb)].
    - apply site_spread; assumption.
  Qed.
End Mesh.

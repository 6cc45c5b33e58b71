(** Proofs: values across faces, and when the least squares system is solvable. *)
From Coq Require Import Reals List Bool Arith Lra Lia Psatz.
From Verif Require Import Num Outcome ModelSWE ModelShape ModelBasis ModelJac ModelSlope ModelStep ModelGN SpecShape SpecStage ModelGrad SpecGrad LemmasGrad1.
Import ListNotations.
Open Scope R_scope.

Section Writes.
  Context (A : Type).
  Definition write (F : nat -> nat -> A) (w : nat * nat * A) : nat -> nat -> A := set2 F (fst (fst w)) (snd (fst w)) (snd w).
  Lemma set2_same : forall (F : nat -> nat -> A) e b x, set2 F e b x e b = x.
  Proof. intros. unfold set2, upd. rewrite !Nat.eqb_refl. reflexivity. Qed.
  Lemma set2_other : forall (F : nat -> nat -> A) e b x e' b', (e', b') <> (e, b) -> set2 F e b x e' b' = F e' b'.
  Proof.
    intros F e b x e' b' N. unfold set2, upd. destruct (Nat.eqb_spec e' e) as [->|]; [|reflexivity].
    destruct (Nat.eqb_spec b' b) as [->|]; [congruence|reflexivity].
  Qed.
  Lemma writes_other : forall l F e b, ~ In (e, b) (map fst l) -> fold_left write l F e b = F e b.
  Proof.
    induction l as [|w l IH]; intros F e b N; [reflexivity|]. cbn [fold_left map] in *. rewrite IH by (intros H; apply N; right; exact H).
    apply set2_other. intros E. apply N. left. symmetry. destruct w as [[? ?] ?]. exact E.
  Qed.
  Lemma writes_in : forall l F e b x, NoDup (map fst l) -> In ((e, b), x) l -> fold_left write l F e b = x.
  Proof.
    induction l as [|w l IH]; intros F e b x N I; [destruct I|]. cbn [fold_left map] in *. inversion N as [|? ? Na Nl]; subst. destruct I as [->|I].
    - rewrite writes_other by exact Na. apply set2_same.
    - apply IH; assumption.
  Qed.
End Writes.

Section Mesh.
  Context (m : mesh).
  Definition face_writes {A : Type} (own : nat -> A) (bd : nat -> nat -> A) : list (nat * nat * A) :=
    flat_map (fun f => [((i_in f, i_bin f), own (i_ex f)); ((i_ex f, i_bex f), own (i_in f))]) (m_intfaces m) ++
    map (fun d => ((b_elt d, b_id d), bd (b_elt d) (b_id d))) (m_bounds m).
  Lemma exchange_writes : forall (A : Type) (own : nat -> A) bd old, exchange m own bd old = fold_left (write A) (face_writes own bd) old.
  Proof.
    intros A own bd old. unfold exchange, face_writes. rewrite fold_left_app. 
    assert (I : forall l F, fold_left (write A) (flat_map (fun f => [((i_in f, i_bin f), own (i_ex f)); ((i_ex f, i_bex f), own (i_in f))]) l) F =
      fold_left (fun F f => set2 (set2 F (i_in f) (i_bin f) (own (i_ex f))) (i_ex f) (i_bex f) (own (i_in f))) l F).
    { induction l as [|f l IH]; intros F; [reflexivity|]. cbn [flat_map app fold_left]. rewrite IH. reflexivity. }
    rewrite I. generalize (fold_left (fun F f => set2 (set2 F (i_in f) (i_bin f) (own (i_ex f))) (i_ex f) (i_bex f) (own (i_in f))) (m_intfaces m) old).
    induction (m_bounds m) as [|d l IH]; intros F; [reflexivity|]. cbn [map fold_left]. rewrite IH. reflexivity.
  Qed.
  Lemma writes_sides : forall (A : Type) (own : nat -> A) bd, map fst (face_writes own bd) = all_sides m.
  Proof.
    intros A own bd. unfold face_writes, all_sides. rewrite map_app, map_map. f_equal. induction (m_intfaces m) as [|f l IH]; [reflexivity|]. cbn [flat_map app map]. rewrite IH. reflexivity.
  Qed.
  Lemma exchange_ok : forall (A : Type) (own : nat -> A) bd old e b o, faces_once m -> beyond m e b o ->
    exchange m own bd old e b = match o with Some e' => own e' | None => bd e b end.
  Proof.
    intros A own bd old e b o [N _] B. rewrite exchange_writes. apply writes_in; [rewrite writes_sides; exact N|]. unfold face_writes. apply in_app_iff. destruct B as [f I <- <-|f I <- <-|d I <- <-].
    - left. apply in_flat_map. exists f. split; [exact I|left; reflexivity].
    - left. apply in_flat_map. exists f. split; [exact I|right; left; reflexivity].
    - right. apply in_map_iff. exists d. split; [reflexivity|exact I].
  Qed.
  Lemma beyond_side : forall e b o, beyond m e b o -> In (e, b) (all_sides m).
  Proof.
    intros e b o B. rewrite <- (writes_sides nat (fun e => e) (fun e _ => e)). apply in_map_iff.
    destruct B as [f I <- <-|f I <- <-|d I <- <-]; [exists (i_in f, i_bin f, i_ex f)|exists (i_ex f, i_bex f, i_in f)|exists (b_elt d, b_id d, b_elt d)];
      (split; [reflexivity|]); unfold face_writes; apply in_app_iff; [left|left|right].
    - apply in_flat_map. exists f. split; [exact I|left; reflexivity].
    - apply in_flat_map. exists f. split; [exact I|right; left; reflexivity].
    - apply in_map_iff. exists d. split; [reflexivity|exact I].
  Qed.
  Lemma side_beyond : forall e b, In (e, b) (all_sides m) -> exists o, beyond m e b o.
  Proof.
    intros e b I. unfold all_sides in I. apply in_app_iff in I. destruct I as [I|I].
    - apply in_flat_map in I. destruct I as (f & If & [E|[E|[]]]); injection E as <- <-; eexists; [eapply beyond_in|eapply beyond_ex]; try exact If; reflexivity.
    - apply in_map_iff in I. destruct I as (d & E & Id). injection E as <- <-. exists None. eapply beyond_bd; try exact Id; reflexivity.
  Qed.
  Lemma beyond_ex_o : forall e b, faces_once m -> (e < m_n m)%nat -> (b < 3)%nat -> exists o, beyond m e b o.
  Proof. intros e b [_ H] He Hb. apply side_beyond, H. split; assumption. Qed.
  Lemma beyond_range : forall e b e', faces_once m -> beyond m e b (Some e') -> (e' < m_n m)%nat.
  Proof.
    intros e b e' [N H] B. inversion B as [f I E1 E2 E3|f I E1 E2 E3|]; subst.
    - apply (H (i_ex f) (i_bex f)). apply (beyond_side _ _ (Some (i_in f))). eapply beyond_ex; try exact I; reflexivity.
    - apply (H (i_in f) (i_bin f)). apply (beyond_side _ _ (Some (i_ex f))). eapply beyond_in; try exact I; reflexivity.
  Qed.

  Lemma centre_bary : forall e, centre m e = bary (m_nodes m e).
  Proof. reflexivity. Qed.
  Lemma mid_mid : forall e b, (b < 3)%nat -> mid_of m e b = mid_face (m_nodes m e) b.
  Proof. intros e b Hb. destruct b as [|[|[|b]]]; [reflexivity..|lia]. Qed.
  Lemma nb_site : forall e b o, faces_once m -> (b < 3)%nat -> beyond m e b o -> nb_coord m e b = site m e b o.
  Proof. intros e b o F Hb B. unfold nb_coord. rewrite (exchange_ok _ _ _ _ e b o F B). destruct o; cbn [site]; [apply centre_bary|apply mid_mid; exact Hb]. Qed.
End Mesh.

(** ** The neighbours of a triangle are not all in one direction *)
Lemma shared_inner : forall p a b a' b' r s r' s', 0 < r -> 0 < s -> 0 < r' -> 0 < s' ->
  r * (fst a - fst p) + s * (fst b - fst p) = r' * (fst a' - fst p) + s' * (fst b' - fst p) ->
  r * (snd a - snd p) + s * (snd b - snd p) = r' * (snd a' - snd p) + s' * (snd b' - snd p) ->
  exists x, inner p a b x /\ inner p a' b' x.
Proof.
  intros p a b a' b' r s r' s' Hr Hs Hr' Hs' E1 E2. set (k := / (1 + r + s + r' + s')).
  assert (K : 0 < k) by (apply Rinv_0_lt_compat; lra). assert (K1 : k * (1 + r + s + r' + s') = 1) by (unfold k; apply Rinv_l; lra).
  exists (fst p + k * (r * (fst a - fst p) + s * (fst b - fst p)), snd p + k * (r * (snd a - snd p) + s * (snd b - snd p))). split.
  - exists (1 - k * (r + s)), (k * r), (k * s). repeat split; try (apply Rmult_lt_0_compat; assumption); [nra|ring|]. unfold comb. cbn [fst snd]. f_equal; ring.
  - exists (1 - k * (r' + s')), (k * r'), (k * s'). repeat split; try (apply Rmult_lt_0_compat; assumption); [nra|ring|]. rewrite E1, E2. unfold comb. cbn [fst snd]. f_equal; ring.
Qed.
Lemma inner_rot : forall a b c x, inner a b c x -> inner b c a x.
Proof. intros a b c x (u & v & w & Hu & Hv & Hw & E & ->). exists v, w, u. repeat split; try assumption; [lra|]. unfold comb. f_equal; ring. Qed.
Lemma inner_swap : forall a b c x, inner a b c x -> inner a c b x.
Proof. intros a b c x (u & v & w & Hu & Hv & Hw & E & ->). exists u, w, v. repeat split; try assumption; [lra|]. unfold comb. f_equal; ring. Qed.

(** Direction towards what lies across the face opposite to [v], with ends [p] and [q]:
    a triangle with apex [z] on the other side, or the middle of the face. *)
Inductive toward (v p q : pt) : option pt -> pt -> Prop :=
| toward_tri : forall z, orient q p z > 0 -> toward v p q (Some z) (vsub z v)
| toward_mid : toward v p q None (fst p + fst q - 2 * fst v, snd p + snd q - 2 * snd v).
Definition cross (a b : pt) : R := fst a * snd b - snd a * fst b.

Lemma par : forall a b c, cross a b = 0 -> cross a c * fst b = cross b c * fst a /\ cross a c * snd b = cross b c * snd a.
Proof.
  intros a b c H. split.
  - assert (E : cross a c * fst b - cross b c * fst a = cross a b * fst c) by (unfold cross; ring). rewrite H in E. lra.
  - assert (E : cross a c * snd b - cross b c * snd a = cross a b * snd c) by (unfold cross; ring). rewrite H in E. lra.
Qed.

Lemma meet2 : forall f0 f1 p q a0 b0 a1 o, o * f0 = a0 * p + b0 * q -> a0 * f1 = a1 * f0 ->
  - (a1 + o) * (a0 + b0) * (f0 - q) + - (a1 + o) * - a0 * (p - q) = (a0 + b0 - o) * - a0 * (f1 + p - q) + (a0 + b0 - o) * (a0 + b0) * (- q).
Proof.
  intros f0 f1 p q a0 b0 a1 o I A. transitivity (- (a1 + o) * ((a0 + b0) * f0 - (a0 * p + b0 * q))); [ring|].
  transitivity ((a0 + b0 - o) * (- (a0 * f1) - (a0 * p + b0 * q))); [rewrite A, <- I; ring|ring].
Qed.
Lemma meet1 : forall f0 f2 p q a0 b0 b2 o, o * f0 = a0 * p + b0 * q -> b0 * f2 = b2 * f0 ->
  - (b2 + o) * (a0 + b0) * (f0 - p) + - (b2 + o) * - b0 * (q - p) = (a0 + b0 - o) * - b0 * (f2 + q - p) + (a0 + b0 - o) * (a0 + b0) * (- p).
Proof. intros f0 f2 p q a0 b0 b2 o I A. rewrite (Rplus_comm a0 b0). apply meet2; [rewrite I; ring|exact A]. Qed.
Lemma meet0 : forall f0 f1 f2 p q a0 b0 a1 b2 o, o * f0 = a0 * p + b0 * q -> a0 * f1 = a1 * f0 -> b0 * f2 = b2 * f0 ->
  - (b2 + o) * a0 * (f1 + p) + - (b2 + o) * b0 * q = - (a1 + o) * b0 * (f2 + q) + - (a1 + o) * a0 * p.
Proof.
  intros f0 f1 f2 p q a0 b0 a1 b2 o I A B. transitivity (- (b2 + o) * (a0 * f1 + (a0 * p + b0 * q))); [ring|].
  transitivity (- (a1 + o) * (b0 * f2 + (a0 * p + b0 * q))); [rewrite A, B, <- I; ring|ring].
Qed.

Section Three.
  Context (v0 v1 v2 : pt).
  Let P := vsub v1 v0.
  Let Q := vsub v2 v0.
  Let o := orient v0 v1 v2.
  Let al (d : pt) := cross d Q.
  Let be (d : pt) := cross P d.
  Lemma o_cross : o = cross P Q.
  Proof. unfold o, orient, P, Q, cross, vsub. cbn [fst snd]. ring. Qed.
  Lemma in_basis : forall d, o * fst d = al d * fst P + be d * fst Q /\ o * snd d = al d * snd P + be d * snd Q.
  Proof. intros d. rewrite o_cross. unfold al, be, cross. split; ring. Qed.
  Lemma coord_par : forall d d', cross d d' = 0 -> al d * be d' = be d * al d'.
  Proof.
    intros d d' H. assert (E : al d * be d' - be d * al d' = cross d d' * cross P Q) by (unfold al, be, cross; ring). rewrite H in E. lra.
  Qed.
  Lemma toward0 : forall o0 d, 0 < o -> toward v0 v1 v2 o0 d -> match o0 with Some z => d = vsub z v0 /\ o < al d + be d | None => al d = o /\ be d = o end.
  Proof.
    intros o0 d O T. destruct T as [z H|].
    - split; [reflexivity|]. unfold o, al, be, P, Q, cross, orient, vsub in *. cbn [fst snd] in *. lra.
    - unfold o, al, be, P, Q, cross, orient, vsub. cbn [fst snd]. split; ring.
  Qed.
  Lemma toward1 : forall o0 d, 0 < o -> toward v1 v2 v0 o0 d -> match o0 with Some z => d = vsub z v1 /\ al d < - o | None => al d = - 2 * o /\ be d = o end.
  Proof.
    intros o0 d O T. destruct T as [z H|].
    - split; [reflexivity|]. unfold o, al, be, P, Q, cross, orient, vsub in *. cbn [fst snd] in *. lra.
    - unfold o, al, be, P, Q, cross, orient, vsub. cbn [fst snd]. split; ring.
  Qed.
  Lemma toward2 : forall o0 d, 0 < o -> toward v2 v0 v1 o0 d -> match o0 with Some z => d = vsub z v2 /\ be d < - o | None => al d = o /\ be d = - 2 * o end.
  Proof.
    intros o0 d O T. destruct T as [z H|].
    - split; [reflexivity|]. unfold o, al, be, P, Q, cross, orient, vsub in *. cbn [fst snd] in *. lra.
    - unfold o, al, be, P, Q, cross, orient, vsub. cbn [fst snd]. split; ring.
  Qed.

  Lemma three_ways : forall o0 o1 o2 d0 d1 d2, 0 < o ->
    toward v0 v1 v2 o0 d0 -> toward v1 v2 v0 o1 d1 -> toward v2 v0 v1 o2 d2 ->
    cross d0 d1 = 0 -> cross d0 d2 = 0 ->
    (exists z1 z2 x, o1 = Some z1 /\ o2 = Some z2 /\ inner v2 v0 z1 x /\ inner v0 v1 z2 x) \/
    (exists z0 z2 x, o0 = Some z0 /\ o2 = Some z2 /\ inner v1 v2 z0 x /\ inner v0 v1 z2 x) \/
    (exists z0 z1 x, o0 = Some z0 /\ o1 = Some z1 /\ inner v1 v2 z0 x /\ inner v2 v0 z1 x).
  Proof.
    intros o0 o1 o2 d0 d1 d2 O T0 T1 T2 C01 C02.
    pose proof (toward0 o0 d0 O T0) as H0. pose proof (toward1 o1 d1 O T1) as H1. pose proof (toward2 o2 d2 O T2) as H2.
    pose proof (coord_par d0 d1 C01) as E1. pose proof (coord_par d0 d2 C02) as E2.
    destruct (par d0 d1 Q C01) as [A1 A2]. destruct (in_basis d0) as [I1 I2].
    assert (F2 : be d0 * fst d2 = be d2 * fst d0 /\ be d0 * snd d2 = be d2 * snd d0).
    { destruct (par d0 d2 P C02) as [X Y]. unfold be, cross in *. split; lra. }
    destruct F2 as [F2 F2']. fold (al d0) (al d1) in A1, A2.
    assert (a1 : al d1 < - o) by (destruct o1; lra). assert (b2 : be d2 < - o) by (destruct o2; lra).
    assert (s0 : 0 < al d0 + be d0) by (destruct o0; lra).
    assert (U : forall x y, fst (vsub x y) = fst x - fst y /\ snd (vsub x y) = snd x - snd y) by (intros; split; reflexivity).
    revert H0 H1 H2 E1 E2 A1 A2 I1 I2 F2 F2' a1 b2 s0. generalize (al d0) (be d0) (al d1) (be d1) (al d2) (be d2). intros a0 b0 a1 b1 a2 b2.
    intros H0 H1 H2 E1 E2 A1 A2 I1 I2 F2 F2' La1 Lb2 s0.
    destruct (Rtotal_order a0 0) as [La|[Za|Ga]].
    - (* around v2 *)
      assert (Gb : 0 < b0) by lra. right. right.
      destruct o0 as [z0|]; [|lra]. destruct H0 as [D0 s1].
      destruct o1 as [z1|]; [|exfalso; destruct H1 as [G1 G2]; nra].
      destruct H1 as [D1 _].
      destruct (shared_inner v2 z0 v1 z1 v0 (- (a1 + o) * (a0 + b0)) (- (a1 + o) * - a0) ((a0 + b0 - o) * - a0) ((a0 + b0 - o) * (a0 + b0))) as (x & X1 & X2).
      1-4: apply Rmult_lt_0_compat; lra.
      { pose proof (meet2 _ _ _ _ _ _ _ _ I1 A1) as M. rewrite D0, D1 in M. unfold P, Q in M. rewrite !(fun x y => proj1 (U x y)) in M. lra. }
      { pose proof (meet2 _ _ _ _ _ _ _ _ I2 A2) as M. rewrite D0, D1 in M. unfold P, Q in M. rewrite !(fun x y => proj2 (U x y)) in M. lra. }
      exists z0, z1, x. repeat split; [apply inner_rot, inner_rot; exact X1|].
      apply inner_swap. exact X2.
    - exfalso. rewrite Za in E1. assert (b0 * a1 = 0) by lra. nra.
    - destruct (Rtotal_order b0 0) as [Lb|[Zb|Gb]].
      + (* around v1 *)
        right. left.
        destruct o0 as [z0|]; [|lra]. destruct H0 as [D0 s1].
        destruct o2 as [z2|]; [|exfalso; destruct H2 as [G1 G2]; nra].
        destruct H2 as [D2 _].
        destruct (shared_inner v1 z0 v2 z2 v0 (- (b2 + o) * (a0 + b0)) (- (b2 + o) * - b0) ((a0 + b0 - o) * - b0) ((a0 + b0 - o) * (a0 + b0))) as (x & X1 & X2).
        1-4: apply Rmult_lt_0_compat; lra.
        { pose proof (meet1 _ _ _ _ _ _ _ _ I1 F2) as M. rewrite D0, D2 in M. unfold P, Q in M. rewrite !(fun x y => proj1 (U x y)) in M. lra. }
        { pose proof (meet1 _ _ _ _ _ _ _ _ I2 F2') as M. rewrite D0, D2 in M. unfold P, Q in M. rewrite !(fun x y => proj2 (U x y)) in M. lra. }
        exists z0, z2, x. repeat split; [apply inner_swap; exact X1|]. apply inner_rot, inner_rot. exact X2.
      + exfalso. rewrite Zb in E2. nra.
      + (* around v0 *)
        left.
        destruct o1 as [z1|]; [|exfalso; destruct H1 as [G1 G2]; nra]. destruct H1 as [D1 _].
        destruct o2 as [z2|]; [|exfalso; destruct H2 as [G1 G2]; nra]. destruct H2 as [D2 _].
        destruct (shared_inner v0 z1 v2 z2 v1 (- (b2 + o) * a0) (- (b2 + o) * b0) (- (a1 + o) * b0) (- (a1 + o) * a0)) as (x & X1 & X2).
        1-4: apply Rmult_lt_0_compat; lra.
        { pose proof (meet0 _ _ _ _ _ _ _ _ _ _ I1 A1 F2) as M. rewrite D1, D2 in M. unfold P, Q in M. rewrite !(fun x y => proj1 (U x y)) in M. lra. }
        { pose proof (meet0 _ _ _ _ _ _ _ _ _ _ I2 A2 F2') as M. rewrite D1, D2 in M. unfold P, Q in M. rewrite !(fun x y => proj2 (U x y)) in M. lra. }
        exists z1, z2, x. repeat split; [apply inner_rot, inner_rot; exact X1|apply inner_swap; exact X2].
  Qed.
End Three.

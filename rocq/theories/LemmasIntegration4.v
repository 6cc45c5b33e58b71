(** Signs of the weights and places of the points of the triangle rules. *)
From Coq Require Import ZArith QArith Reals Qreals List Arith Lia Lra Bool.
From Coquelicot Require Import Coquelicot.
From Verif Require Import ModelIntegration SpecBasis SpecIntegration LemmasBasis LemmasBasis2 LemmasIntegration LemmasIntegration2 LemmasIntegration3.
Import ListNotations.
Open Scope R_scope.

(** ** Signs and places *)
Definition q_le (a b : Q) : bool := (Qnum a * Zpos (Qden b) <=? Qnum b * Zpos (Qden a))%Z.
Lemma q_le_true : forall a b, q_le a b = true -> Q2R a <= Q2R b.
Proof. intros a b H. apply Qle_Rle. unfold q_le in H. apply Z.leb_le in H. exact H. Qed.
Lemma q_le_false : forall a b, q_le a b = false -> Q2R b < Q2R a.
Proof. intros a b H. apply Qlt_Rlt. unfold q_le in H. apply Z.leb_gt in H. exact H. Qed.
Lemma q_lt_false : forall a b, q_lt a b = false -> Q2R b <= Q2R a.
Proof. intros a b H. apply Qle_Rle. unfold q_lt in H. apply Z.ltb_ge in H. exact H. Qed.
Definition pos_w (q : qp) : bool := q_lt 0 (fst q).
Definition inside (q : qp) : bool := q_le 0 (fst (snd q)) && q_le 0 (snd (snd q)) && q_le (fst (snd q) + snd (snd q)) 1.
Lemma pos_w_spec : forall q, pos_w q = true <-> 0 < fst (rpoint q).
Proof.
  intros q. unfold pos_w, rpoint. cbn [fst]. destruct (q_lt 0 (fst q)) eqn:E.
  - apply q_lt_true in E. rewrite RMicromega.Q2R_0 in E. split; [lra|reflexivity].
  - apply q_lt_false in E. rewrite RMicromega.Q2R_0 in E. split; [discriminate|lra].
Qed.
Lemma q_le_spec : forall a b, q_le a b = true <-> Q2R a <= Q2R b.
Proof.
  intros a b. destruct (q_le a b) eqn:E.
  - split; [intros _; apply q_le_true, E|reflexivity].
  - apply q_le_false in E. split; [discriminate|lra].
Qed.
Lemma inside_spec : forall q, inside q = true <-> in_master (fst (snd (rpoint q))) (snd (snd (rpoint q))).
Proof.
  intros [w [x y]]. unfold inside, rpoint, in_master. cbn [fst snd]. rewrite !andb_true_iff, !q_le_spec, Q2R_plus, RMicromega.Q2R_0, RMicromega.Q2R_1.
  split; [intros [[A B] D]|intros (A & B & D)]; [|split; [split|]]; try (refine (conj _ (conj _ _))); lra.
Qed.
Lemma forallb_Forall : forall (A : Type) (f : A -> bool) (P : R * (R * R) -> Prop) (h : A -> R * (R * R)) l,
  (forall a, f a = true <-> P (h a)) -> (forallb f l = true <-> List.Forall P (map h l)).
Proof.
  intros A f P h l H. induction l as [|a l IH]; cbn [forallb map]; [split; [constructor|reflexivity]|].
  rewrite andb_true_iff, IH, H. split; [intros []; constructor; assumption|intros F; inversion F; auto].
Qed.
Definition signs (p : nat) : bool :=
  Bool.eqb (forallb pos_w (dun_q p)) (negb (existsb (Nat.eqb p) [3; 7; 18; 20]%nat))
  && Bool.eqb (forallb inside (dun_q p)) (negb (existsb (Nat.eqb p) [11; 15; 16; 18; 20]%nat)).
Lemma signs_checked : forallb signs (seq 0 21) = true.
Proof. vm_compute. reflexivity. Qed.
Lemma existsb_In : forall p l, existsb (Nat.eqb p) l = true <-> In p l.
Proof.
  intros p l. rewrite existsb_exists. split; [intros (x & H & E); apply Nat.eqb_eq in E; subst; exact H|intros H; exists p; rewrite Nat.eqb_refl; auto].
Qed.
Lemma dun_signs : forall p, (p <= 20)%nat ->
  (List.Forall (fun q => 0 < fst q) (map rpoint (dun_q p)) <-> ~ In p [3; 7; 18; 20]%nat)
  /\ (List.Forall (fun q => in_master (fst (snd q)) (snd (snd q))) (map rpoint (dun_q p)) <-> ~ In p [11; 15; 16; 18; 20]%nat).
Proof.
  intros p Hp. pose proof (proj1 (forallb_forall _ _) signs_checked p ltac:(apply in_seq; lia)) as H.
  apply andb_true_iff in H. destruct H as [H1 H2]. apply Bool.eqb_prop in H1. apply Bool.eqb_prop in H2.
  rewrite <- (forallb_Forall _ pos_w _ rpoint _ pos_w_spec), <- (forallb_Forall _ inside _ rpoint _ inside_spec).
  rewrite H1, H2, <- !existsb_In. split; split; intros X.
  - intros Y. rewrite Y in X. discriminate.
  - apply negb_true_iff, not_true_is_false, X.
  - intros Y. rewrite Y in X. discriminate.
  - apply negb_true_iff, not_true_is_false, X.
Qed.

(** ** A function that is 1 at one point and 0 elsewhere *)
Definition spike (a b : R) (x y : R) : R := if Req_EM_T x a then if Req_EM_T y b then 1 else 0 else 0.
Lemma spike_range : forall a b x y, 0 <= spike a b x y.
Proof. intros a b x y. unfold spike. destruct (Req_EM_T x a); [destruct (Req_EM_T y b)|]; lra. Qed.
Definition q_eq (a b : Q) : bool := (Qnum a * Zpos (Qden b) =? Qnum b * Zpos (Qden a))%Z.
Lemma q_eq_spec : forall a b, q_eq a b = true <-> Q2R a = Q2R b.
Proof.
  intros a b. unfold q_eq. rewrite Z.eqb_eq. split; intros H.
  - apply Qeq_eqR. exact H.
  - apply eqR_Qeq in H. exact H.
Qed.
Definition at_point (a b : Q) (l : list qp) : Q :=
  fold_right (fun q s => if q_eq (fst (snd q)) a && q_eq (snd (snd q)) b then (fst q + s)%Q else s) 0%Q l.
Lemma spike_quad : forall a b l, quad2 (map rpoint l) (spike (2 * Q2R a - 1) (2 * Q2R b - 1)) = 2 * Q2R (at_point a b l).
Proof.
  intros a b l. unfold quad2, at_point. induction l as [|[w [x y]] l IH]; cbn [map fold_right fst snd rpoint]; [rewrite RMicromega.Q2R_0; ring|].
  rewrite IH. unfold spike. pose proof (q_eq_spec x a) as X. pose proof (q_eq_spec y b) as Y.
  destruct (Req_EM_T (2 * Q2R x - 1) (2 * Q2R a - 1)) as [E|E].
  - rewrite (proj2 X) by lra. destruct (Req_EM_T (2 * Q2R y - 1) (2 * Q2R b - 1)) as [E2|E2].
    + rewrite (proj2 Y) by lra. cbn [andb]. rewrite Q2R_plus. ring.
    + destruct (q_eq y b); [exfalso; apply E2; rewrite (proj1 Y eq_refl); reflexivity|]. cbn [andb]. ring.
  - destruct (q_eq x a); [exfalso; apply E; rewrite (proj1 X eq_refl); reflexivity|]. cbn [andb]. ring.
Qed.

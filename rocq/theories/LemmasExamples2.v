(** The oscillation in a parabolic bowl. *)
From Coq Require Import Reals List Lra Lia Psatz.
From Coquelicot Require Import Hierarchy Derive AutoDerive.
From Verif Require Import Num ModelSWE ModelJac ModelStep SpecGN SpecExamples ModelExamples LemmasExamples1.
Open Scope R_scope.

Section Bowl.
  Context (g a X Y om : R).
  Hypothesis Hom : om * om = 8 * g * a.
  Let D t := X + Y * cos (om * t).
  Let D1 t := - (Y * om * sin (om * t)).
  Let A t := 1 / D t.
  Let C t := a * (Y ^ 2 - X ^ 2) / D t ^ 2.
  Let l t := D1 t / (2 * D t).
  Let h t x y := A t + C t * (x ^ 2 + y ^ 2).
  Definition bowl_wet (t x y : R) : Prop := D t <> 0 /\ h t x y <> 0.
  Lemma thacker_eq : forall t x y, thacker a X Y om t x y = V3 (h t x y + a * (x ^ 2 + y ^ 2)) (h t x y * (l t * x)) (h t x y * (l t * y)).
  Proof. reflexivity. Qed.
  Lemma D_derive : forall t, is_derive D t (D1 t).
  Proof. intros t. unfold D, D1. auto_derive; [exact I|ring]. Qed.
  Lemma A_derive : forall t, D t <> 0 -> is_derive A t (- (2) * l t * A t).
  Proof. intros t N. unfold A, l. unfold D, D1 in *. auto_derive; [exact N|]. field. exact N. Qed.
  Lemma C_derive : forall t, D t <> 0 -> is_derive C t (- (4) * l t * C t).
  Proof. intros t N. unfold C, l. unfold D, D1 in *. auto_derive; [repeat (apply Rmult_integral_contrapositive_currified; [exact N|]); lra|]. field. exact N. Qed.
  Lemma l_derive : forall t, D t <> 0 -> is_derive l t (- l t ^ 2 - 2 * g * (C t + a)).
  Proof.
    intros t N. unfold l, C. unfold D, D1 in *. auto_derive; [repeat split; lra|].
    pose proof (sin2_cos2 (om * t)) as SC. unfold Rsqr in SC.
    set (s := sin (om * t)) in *. set (c := cos (om * t)) in *.
    replace (2 * g * (a * (Y ^ 2 - X ^ 2) / (X + Y * c) ^ 2 + a)) with (om * om / 4 * ((Y ^ 2 * (s * s + c * c) - X ^ 2) / (X + Y * c) ^ 2 + 1)) by (rewrite Hom, SC; field; exact N).
    field. exact N.
  Qed.
  (** Everything else is polynomial in x and y. *)
  Section At.
    Context (t x y : R).
    Hypothesis W : bowl_wet t x y.
    Let q := thacker a X Y om.
    Let B (x y : R) : R := - a * (x * x + y * y).
    Lemma col : forall t x y, ze (q t x y) + B x y = h t x y.
    Proof. intros. unfold q, B. rewrite thacker_eq. cbn [ze]. ring. Qed.
    Lemma A_D : Derive A t = - (2) * l t * A t. Proof. apply is_derive_unique, A_derive, W. Qed.
    Lemma C_D : Derive C t = - (4) * l t * C t. Proof. apply is_derive_unique, C_derive, W. Qed.
    Lemma l_D : Derive l t = - l t ^ 2 - 2 * g * (C t + a). Proof. apply is_derive_unique, l_derive, W. Qed.
    Lemma A_ex : ex_derive A t. Proof. eexists. apply A_derive, W. Qed.
    Lemma C_ex : ex_derive C t. Proof. eexists. apply C_derive, W. Qed.
    Lemma l_ex : ex_derive l t. Proof. eexists. apply l_derive, W. Qed.
    Lemma rate_z : is_derive (fun s => ze (q s x y)) t (- (2) * l t * A t - 4 * l t * C t * (x ^ 2 + y ^ 2)).
    Proof.
      apply (is_derive_ext (fun s => A s + C s * (x ^ 2 + y ^ 2) + a * (x ^ 2 + y ^ 2))); [reflexivity|].
      auto_derive; [repeat split; [apply A_ex|apply C_ex]|]. change (fun x0 => A x0) with A. change (fun x0 => C x0) with C. rewrite A_D, C_D. ring.
    Qed.
    Lemma rate_q : forall z, is_derive (fun s => h s x y * (l s * z)) t
      ((- (2) * l t * A t - 4 * l t * C t * (x ^ 2 + y ^ 2)) * (l t * z) + h t x y * ((- l t ^ 2 - 2 * g * (C t + a)) * z)).
    Proof.
      intros z. unfold h. auto_derive; [repeat split; [apply A_ex|apply C_ex|apply l_ex]|].
      change (fun x0 => A x0) with A. change (fun x0 => C x0) with C. change (fun x0 => l x0) with l. rewrite A_D, C_D, l_D. ring.
    Qed.
    Lemma flow_x : is_derive (fun s => h t s y * (l t * s)) x (2 * C t * x * (l t * x) + h t x y * l t).
    Proof. unfold h. generalize (A t) (C t) (l t). intros. auto_derive; [exact I|ring]. Qed.
    Lemma flow_y : is_derive (fun s => h t x s * (l t * s)) y (2 * C t * y * (l t * y) + h t x y * l t).
    Proof. unfold h. generalize (A t) (C t) (l t). intros. auto_derive; [exact I|ring]. Qed.
    Lemma push_x : is_derive (fun s => (h t s y * (l t * s)) ^ 2 / h t s y + g * h t s y ^ 2 / 2) x
      (2 * C t * x * (l t * x) ^ 2 + 2 * h t x y * l t ^ 2 * x + g * h t x y * (2 * C t * x)).
    Proof. destruct W as [_ N]. revert N. unfold h. generalize (A t) (C t) (l t). intros k m w N. auto_derive; [repeat match goal with |- _ /\ _ => split end; try exact I; exact N|]. field. intros Z. apply N. rewrite <- Z. ring. Qed.
    Lemma push_y : is_derive (fun s => (h t x s * (l t * s)) ^ 2 / h t x s + g * h t x s ^ 2 / 2) y
      (2 * C t * y * (l t * y) ^ 2 + 2 * h t x y * l t ^ 2 * y + g * h t x y * (2 * C t * y)).
    Proof. destruct W as [_ N]. revert N. unfold h. generalize (A t) (C t) (l t). intros k m w N. auto_derive; [repeat match goal with |- _ /\ _ => split end; try exact I; exact N|]. field. intros Z. apply N. rewrite <- Z. ring. Qed.
    Lemma cross_x : is_derive (fun s => h t s y * (l t * s) * (h t s y * (l t * y)) / h t s y) x
      (l t ^ 2 * y * (2 * C t * x * x + h t x y)).
    Proof. destruct W as [_ N]. revert N. unfold h. generalize (A t) (C t) (l t). intros k m w N. auto_derive; [repeat match goal with |- _ /\ _ => split end; try exact I; exact N|]. field. intros Z. apply N. rewrite <- Z. ring. Qed.
    Lemma cross_y : is_derive (fun s => h t x s * (l t * x) * (h t x s * (l t * s)) / h t x s) y
      (l t ^ 2 * x * (2 * C t * y * y + h t x y)).
    Proof. destruct W as [_ N]. revert N. unfold h. generalize (A t) (C t) (l t). intros k m w N. auto_derive; [repeat match goal with |- _ /\ _ => split end; try exact I; exact N|]. field. intros Z. apply N. rewrite <- Z. ring. Qed.
    Lemma thacker_solves : shallow_water g B (fun x _ => - (2) * a * x) (fun _ y => - (2) * a * y) (fun _ _ _ => vzero) q t x y.
    Proof.
      refine (conj _ (conj _ _)).
      - eexists _, _, _. refine (conj rate_z (conj flow_x (conj flow_y _))). cbn. unfold h. ring.
      - eexists _, _, _. refine (conj (rate_q x) (conj _ (conj _ _))).
        + eapply is_derive_ext; [|exact push_x]. intros s. unfold column. rewrite col. reflexivity.
        + eapply is_derive_ext; [|exact cross_y]. intros s. unfold column. rewrite col. reflexivity.
        + unfold column. rewrite col. cbn. unfold h. ring.
      - eexists _, _, _. refine (conj (rate_q y) (conj _ (conj _ _))).
        + eapply is_derive_ext; [|exact cross_x]. intros s. unfold column. rewrite col. reflexivity.
        + eapply is_derive_ext; [|exact push_y]. intros s. unfold column. rewrite col. reflexivity.
        + unfold column. rewrite col. cbn. unfold h. ring.
    Qed.
  End At.
End Bowl.

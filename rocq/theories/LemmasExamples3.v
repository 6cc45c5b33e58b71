(** The solitary wave. *)
From Coq Require Import Reals List Lra Lia Psatz.
From Coquelicot Require Import Hierarchy Derive AutoDerive.
From Verif Require Import Num ModelSWE ModelJac ModelStep SpecGN SpecExamples ModelExamples LemmasExamples1.
Open Scope R_scope.

Lemma tanh_derive : forall x, is_derive tanh x (1 - tanh x ^ 2).
Proof.
  intros x. unfold tanh, sinh, cosh. pose proof (exp_pos x). pose proof (exp_pos (- x)).
  auto_derive; [lra|]. set (p := exp x) in *. set (m := exp (- x)) in *. field. lra.
Qed.
Lemma sech_tanh : forall x, (1 / cosh x) ^ 2 = 1 - tanh x ^ 2.
Proof.
  intros x. unfold tanh, sinh, cosh. pose proof (exp_pos x). pose proof (exp_pos (- x)).
  assert (E : exp x * exp (- x) = 1) by (rewrite <- exp_plus, Rplus_opp_r; apply exp_0).
  set (p := exp x) in *. set (m := exp (- x)) in *.
  transitivity (4 * (p * m) / (p + m) ^ 2); [rewrite E|]; field; lra.
Qed.
Lemma tanh_bound : forall x, tanh x ^ 2 < 1.
Proof. intros x. pose proof (sech_tanh x) as E. assert (0 < (1 / cosh x) ^ 2); [|lra]. apply pow_lt. unfold cosh. pose proof (exp_pos x). pose proof (exp_pos (- x)). apply Rdiv_lt_0_compat; lra. Qed.
Lemma tanh_ln2 : tanh (ln 2) = 3 / 5.
Proof. unfold tanh, sinh, cosh. rewrite exp_Ropp, exp_ln by lra. field. Qed.

Section Wave.
  Context (g H a c w xo al : R).
  Hypothesis HH : 0 < H. Hypothesis Ha : 0 < a. Hypothesis Hal : 0 < al.
  Hypothesis Hc : c * c = g * (H + a).
  Hypothesis Hw : w * w = 3 * a / (4 * H ^ 2 * (H + a)).
  Let T t x := tanh (w * (x - xo - c * t)).
  Let Z s := a * (1 - s ^ 2).
  Let h s := Z s + H.
  Let hx s := - (2) * a * s * (w * (1 - s ^ 2)).
  Let hxx s := - (2) * a * (w * w) * (1 - s ^ 2) * (1 - 3 * s ^ 2).
  Let hxxx s := - (2) * a * (w * w) * (- (8) * s + 12 * s ^ 3) * (w * (1 - s ^ 2)).
  Let u s := c * Z s / h s.
  Let ux s := c * H * hx s / h s ^ 2.
  Let uxx s := c * H * (hxx s / h s ^ 2 - 2 * hx s ^ 2 / h s ^ 3).
  Let k := g / al - g.
  Let w1 s := k * h s * hx s + (c * c) * H ^ 2 * hx s / h s ^ 2.
  Let w1x s := (k + (c * c) * H ^ 2 / h s ^ 3) * hxx s - 3 * (c * c) * H ^ 2 * hx s ^ 2 / h s ^ 4.
  Let w2 s := h s ^ 3 * w1x s.
  Let w2x s := 3 * k * h s ^ 2 * hx s * hxx s + (k * h s ^ 3 + (c * c) * H ^ 2) * hxxx s - 3 * (c * c) * H ^ 2 * (2 * hx s * hxx s / h s - hx s ^ 3 / h s ^ 2).
  Definition wave (t x y : R) : vec3 R := V3 (a * (1 / cosh (w * (x - xo - c * t))) ^ 2) (c * a * (1 / cosh (w * (x - xo - c * t))) ^ 2) 0.

  Lemma wave_eq : forall t x y, wave t x y = V3 (Z (T t x)) (c * Z (T t x)) 0.
  Proof. intros. unfold wave, Z, T. rewrite sech_tanh. f_equal. ring. Qed.
  Lemma T_x : forall t x : R, is_derive (fun s => T t s) x (w * (1 - T t x ^ 2)).
  Proof.
    intros t x. pose proof (tanh_derive (w * (x - xo - c * t))) as D. unfold T. 
    refine (is_derive_eq _ _ _ _ (is_derive_comp tanh (fun s => w * (s - xo - c * t)) x _ w D _) _); [auto_derive; [exact I|ring]|reflexivity].
  Qed.
  Lemma T_t : forall t x, is_derive (fun s => T s x) t (- (c * w) * (1 - T t x ^ 2)).
  Proof.
    intros t x. pose proof (tanh_derive (w * (x - xo - c * t))) as D. unfold T.
    refine (is_derive_eq _ _ _ _ (is_derive_comp tanh (fun s => w * (x - xo - c * s)) t _ (- (c * w)) D _) _); [auto_derive; [exact I|ring]|reflexivity].
  Qed.
  Lemma of_x : forall f d t x, is_derive f (T t x) d -> is_derive (fun s => f (T t s)) x (w * (1 - T t x ^ 2) * d).
  Proof. intros f d t x D. exact (is_derive_comp f (fun s => T t s) x d _ D (T_x t x)). Qed.
  Lemma of_t : forall f d t x, is_derive f (T t x) d -> is_derive (fun s => f (T s x)) t (- (c * w) * (1 - T t x ^ 2) * d).
  Proof. intros f d t x D. exact (is_derive_comp f (fun s => T s x) t d _ D (T_t t x)). Qed.
  Lemma h_pos : forall t x, 0 < h (T t x).
  Proof. intros t x. unfold h, Z. pose proof (tanh_bound (w * (x - xo - c * t))) as B. change (tanh (w * (x - xo - c * t))) with (T t x) in B. nra. Qed.
  Ltac nz := repeat match goal with |- _ /\ _ => split end; try exact I; repeat first [apply Rmult_integral_contrapositive_currified|apply pow_nonzero]; lra.
  Ltac un := cbv beta delta [w2 w2x w1 w1x k uxx ux u hxxx hxx hx h Z].
  Ltac dx f t x := pose proof (h_pos t x) as P; revert P; un; intros P; eapply is_derive_eq; [let f' := eval cbv beta delta [w2 w2x w1 w1x k uxx ux u hxxx hxx hx h Z] in f in apply (of_x f'); auto_derive; [nz|reflexivity]|];
    set (s := T t x) in *; un; field; nz.
  Lemma Z_x : forall t x : R, is_derive (fun s => Z (T t s)) x (hx (T t x)).
  Proof. intros t x. dx Z t x. Qed.
  Lemma hx_x : forall t x : R, is_derive (fun s => hx (T t s)) x (hxx (T t x)).
  Proof. intros t x. dx hx t x. Qed.
  Lemma u_x : forall t x : R, is_derive (fun s => u (T t s)) x (ux (T t x)).
  Proof. intros t x. dx u t x. Qed.
  Lemma ux_x : forall t x : R, is_derive (fun s => ux (T t s)) x (uxx (T t x)).
  Proof. intros t x. dx ux t x. Qed.
  Lemma w1h_x : forall t x : R, is_derive (fun s => w1 (T t s) / h (T t s)) x (w1x (T t x)).
  Proof. intros t x. dx (fun s => w1 s / h s) t x. Qed.
  Lemma w2_x : forall t x : R, is_derive (fun s => w2 (T t s)) x (w2x (T t x)).
  Proof. intros t x. dx w2 t x. Qed.

  (** The dispersive equation is violated by (alpha - 1)/3 times this. *)
  Let K s := 2 * h s ^ 2 * hx s * ux s ^ 2 + 2 / 3 * h s ^ 3 * (2 * ux s * uxx s) + g / al * h s * hx s.
  Let Phi s := 3 * g * h s ^ 2 * hx s * hxx s + (g * h s ^ 3 - (c * c) * H ^ 2) * hxxx s + 3 * (c * c) * H ^ 2 * (2 * hx s * hxx s / h s - hx s ^ 3 / h s ^ 2).
  Lemma residual : forall s, 0 < h s -> w1 s - al / 3 * w2x s - K s = (al - 1) / 3 * Phi s.
  Proof.
    intros s P.
    set (p := - (2) * a * s * (1 - s ^ 2)). set (r := - (2) * a * (1 - s ^ 2) * (1 - 3 * s ^ 2)). set (v := - (2) * a * (- (8) * s + 12 * s ^ 3) * (1 - s ^ 2)).
    assert (E : w1 s - al / 3 * w2x s - K s - (al - 1) / 3 * Phi s =
      w * (k * h s * p + (c * c) * H ^ 2 * p / h s ^ 2 - g / al * h s * p - (w * w) *
        (al / 3 * (3 * k * h s ^ 2 * p * r + (k * h s ^ 3 + (c * c) * H ^ 2) * v - 3 * (c * c) * H ^ 2 * (2 * p * r / h s - p ^ 3 / h s ^ 2)) +
         (2 * h s ^ 2 * p * ((c * c) * H ^ 2 * p ^ 2 / h s ^ 4) + 4 / 3 * h s ^ 3 * ((c * c) * H ^ 2 * p / h s ^ 2) * (r / h s ^ 2 - 2 * p ^ 2 / h s ^ 3)) +
         (al - 1) / 3 * (3 * g * h s ^ 2 * p * r + (g * h s ^ 3 - (c * c) * H ^ 2) * v + 3 * (c * c) * H ^ 2 * (2 * p * r / h s - p ^ 3 / h s ^ 2))))).
    { unfold w1, w2x, K, Phi, ux, uxx, k. replace (hx s) with (w * p) by (unfold hx, p; ring). replace (hxx s) with (w * w * r) by (unfold hxx, r; ring).
      replace (hxxx s) with (w * w * w * v) by (unfold hxxx, v; ring). generalize dependent (h s). intros hs P. clearbody p r v. field. split; lra. }
    apply Rminus_diag_uniq. rewrite E, Hw, Hc. unfold p, r, v, k. revert P. unfold h, Z. intros P. field. repeat split; nz.
  Qed.

  Lemma Z_t : forall t x : R, is_derive (fun s => Z (T s x)) t (- c * hx (T t x)).
  Proof.
    intros t x. eapply is_derive_eq; [apply (of_t (fun s => a * (1 - s ^ 2))); auto_derive; [exact I|reflexivity]|]. un. ring.
  Qed.
  Lemma flux_x : forall t x : R, is_derive (fun s => (c * Z (T t s)) ^ 2 / h (T t s) + g * h (T t s) ^ 2 / 2) x
    ((c * c) * hx (T t x) * (1 - H ^ 2 / h (T t x) ^ 2) + g * h (T t x) * hx (T t x)).
  Proof. intros t x. dx (fun s => (c * Z s) ^ 2 / h s + g * h s ^ 2 / 2) t x. Qed.
  Lemma zero_x : forall (f : R -> R) (x : R), (forall s, f s = f x) -> is_derive f x 0.
  Proof. intros f x E. apply (is_derive_ext (fun _ => f x)); [intros s; symmetry; apply E|]. refine (is_derive_eq _ _ _ _ (is_derive_const (f x) x) _). reflexivity. Qed.
  Lemma wave_z : forall t x y, ze (wave t x y) = Z (T t x). Proof. intros. rewrite wave_eq. reflexivity. Qed.
  Lemma wave_x : forall t x y, qx (wave t x y) = c * Z (T t x). Proof. intros. rewrite wave_eq. reflexivity. Qed.
  Lemma wave_y : forall t x y, qy (wave t x y) = 0. Proof. intros. rewrite wave_eq. reflexivity. Qed.
  Lemma ZH : forall s, Z s + H = h s. Proof. reflexivity. Qed.
  Definition waves (hx' w1' : R -> R -> R) (t x y : R) : Prop :=
    shallow_water g (fun _ _ => H) (fun _ _ => 0) (fun _ _ => 0) (fun t x y => V3 0 (g / al * (ze (wave t x y) + H) * hx' t x - w1' t x) 0) wave t x y.
  (** The momentum equation says what w1 is. *)
  Lemma momentum : forall hx' w1' t x y, hx' t x = hx (T t x) -> waves hx' w1' t x y <-> w1' t x = w1 (T t x).
  Proof.
    intros hx' w1' t x y Ex.
    assert (D1 : is_derive (fun s => qx (wave s x y)) t (c * (- c * hx (T t x)))).
    { apply (is_derive_ext (fun s => c * Z (T s x))); [intros s; symmetry; apply wave_x|]. exact (is_derive_scal (fun s => Z (T s x)) t c _ (Z_t t x)). }
    assert (D2 : is_derive (fun s => qx (wave t s y) ^ 2 / column (fun _ _ => H) wave t s y + g * column (fun _ _ => H) wave t s y ^ 2 / 2) x
      ((c * c) * hx (T t x) * (1 - H ^ 2 / h (T t x) ^ 2) + g * h (T t x) * hx (T t x))).
    { eapply is_derive_ext; [|exact (flux_x t x)]. intros s. unfold column. rewrite wave_x, wave_z. reflexivity. }
    assert (D3 : is_derive (fun s => qx (wave t x s) * qy (wave t x s) / column (fun _ _ => H) wave t x s) y 0).
    { apply zero_x. intros s. rewrite !wave_y. unfold Rdiv. ring. }
    pose proof (h_pos t x) as P. split.
    - intros (_ & (a1 & b1 & c1 & A1 & B1 & C1 & E1) & _). cbn [qx] in E1.
      pose proof (is_derive_unique _ _ _ A1) as U1. pose proof (is_derive_unique _ _ _ B1) as U2. pose proof (is_derive_unique _ _ _ C1) as U3.
      rewrite (is_derive_unique _ _ _ D1) in U1. rewrite (is_derive_unique _ _ _ D2) in U2. rewrite (is_derive_unique _ _ _ D3) in U3.
      rewrite <- U1, <- U2, <- U3, Ex, wave_z, ZH in E1. unfold w1, k. set (hs := h (T t x)) in *. 
      replace (w1' t x) with (g / al * hs * hx (T t x) - (c * (- c * hx (T t x)) + (c * c * hx (T t x) * (1 - H ^ 2 / hs ^ 2) + g * hs * hx (T t x)) + 0)) by lra. field. split; lra.
    - intros E. refine (conj _ (conj _ _)).
      + exists (- c * hx (T t x)), (c * hx (T t x)), 0. refine (conj _ (conj _ (conj _ _))).
        * eapply is_derive_ext; [|exact (Z_t t x)]. intros s. symmetry. apply wave_z.
        * apply (is_derive_ext (fun s => c * Z (T t s))); [intros s; symmetry; apply wave_x|]. exact (is_derive_scal (fun s => Z (T t s)) x c _ (Z_x t x)).
        * apply zero_x. intros s. rewrite !wave_y. reflexivity.
        * cbn. ring.
      + eexists _, _, _. refine (conj D1 (conj D2 (conj D3 _))). cbn [qx]. rewrite E, Ex, wave_z, ZH. unfold w1, k. set (hs := h (T t x)) in *. field. split; lra.
      + exists 0, 0, 0. refine (conj _ (conj _ (conj _ _))).
        * apply zero_x. intros s. rewrite !wave_y. reflexivity.
        * apply zero_x. intros s. rewrite !wave_y. unfold Rdiv. ring.
        * apply zero_x. intros s. unfold column. rewrite !wave_y, !wave_z. reflexivity.
        * cbn. ring.
  Qed.
  Lemma source_flat : forall hs hx' u' ux' uxx', disp_source g al hs (along hx' 0) (flat 0) (flat (flat 0)) (flat (flat (flat 0))) (along hx' 0)
       (along u' 0) (fun i c => match i, c with 0%nat, 0%nat => ux' | _, _ => 0 end)
       (fun i c d => match i, c, d with 0%nat, 0%nat, 0%nat => uxx' | _, _, _ => 0 end) 0%nat =
    2 * hs ^ 2 * hx' * ux' ^ 2 + 2 / 3 * hs ^ 3 * (2 * ux' * uxx') + g / al * hs * hx'.
  Proof. intros. unfold disp_source, c1_of, c4_of, c1_slope, c4_slope, along, flat. ring. Qed.
  Lemma wave_fits : al = 1 -> green_naghdi g al H wave.
  Proof.
    intros E. exists (fun t x => u (T t x)), (fun t x => ux (T t x)), (fun t x => uxx (T t x)), (fun t x => hx (T t x)),
      (fun t x => w1 (T t x)), (fun t x => w1x (T t x)), (fun t x => w2 (T t x)), (fun t x => w2x (T t x)).
    refine (conj _ (conj _ (conj _ (conj _ (conj _ (conj _ _)))))).
    - intros t x y. rewrite wave_x, wave_z. reflexivity.
    - intros t x. split; [apply u_x|apply ux_x].
    - intros t x y. eapply is_derive_ext; [|exact (Z_x t x)]. intros s. symmetry. apply wave_z.
    - intros t x y. apply (proj2 (momentum (fun t x => hx (T t x)) (fun t x => w1 (T t x)) t x y eq_refl)). reflexivity.
    - intros t x y. split; [|rewrite wave_z; reflexivity]. eapply is_derive_ext; [|exact (w1h_x t x)]. intros s. cbn beta. rewrite wave_z. reflexivity.
    - intros t x. apply w2_x.
    - intros t x y. rewrite source_flat, wave_z, ZH. pose proof (residual (T t x) (h_pos t x)) as Q. unfold K in Q. rewrite E in *. lra.
  Qed.
  Lemma wave_needs : green_naghdi g al H wave -> forall t x, (al - 1) * Phi (T t x) = 0.
  Proof.
    intros (u' & ux' & uxx' & hx' & w1' & w1x' & w2' & w2x' & Eu & Du & Dh & M & D1 & D2 & Sr) t x.
    assert (Ehx : forall t x, hx' t x = hx (T t x)).
    { intros t0 x0. rewrite <- (is_derive_unique _ _ _ (Dh t0 x0 0)). apply is_derive_unique. eapply is_derive_ext; [|exact (Z_x t0 x0)]. intros s. symmetry. apply wave_z. }
    assert (Eu' : forall t x, u' t x = u (T t x)) by (intros t0 x0; rewrite (Eu t0 x0 0), wave_x, wave_z; reflexivity).
    assert (Eux : forall t x, ux' t x = ux (T t x)).
    { intros t0 x0. rewrite <- (is_derive_unique _ _ _ (proj1 (Du t0 x0))). apply is_derive_unique. eapply is_derive_ext; [|exact (u_x t0 x0)]. intros s. symmetry. apply Eu'. }
    assert (Euxx : forall t x, uxx' t x = uxx (T t x)).
    { intros t0 x0. rewrite <- (is_derive_unique _ _ _ (proj2 (Du t0 x0))). apply is_derive_unique. eapply is_derive_ext; [|exact (ux_x t0 x0)]. intros s. symmetry. apply Eux. }
    assert (Ew1 : forall t x, w1' t x = w1 (T t x)) by (intros t0 x0; exact (proj1 (momentum hx' w1' t0 x0 0 (Ehx t0 x0)) (M t0 x0 0))).
    assert (Ew1x : forall t x, w1x' t x = w1x (T t x)).
    { intros t0 x0. rewrite <- (is_derive_unique _ _ _ (proj1 (D1 t0 x0 0))). apply is_derive_unique. eapply is_derive_ext; [|exact (w1h_x t0 x0)]. intros s. cbn beta. rewrite Ew1, wave_z. reflexivity. }
    assert (Ew2 : forall t x, w2' t x = w2 (T t x)) by (intros t0 x0; rewrite (proj2 (D1 t0 x0 0)), Ew1x, wave_z; reflexivity).
    assert (Ew2x : forall t x, w2x' t x = w2x (T t x)).
    { intros t0 x0. rewrite <- (is_derive_unique _ _ _ (D2 t0 x0)). apply is_derive_unique. eapply is_derive_ext; [|exact (w2_x t0 x0)]. intros s. symmetry. apply Ew2. }
    pose proof (Sr t x 0) as S0. rewrite source_flat, wave_z, ZH, Ew1, Ew2x, Ehx, Eux, Euxx in S0.
    pose proof (residual (T t x) (h_pos t x)) as Q. unfold K in Q. lra.
  Qed.
End Wave.

(** ** The numbers of the example. *)
Lemma gn_square : gn_co * gn_co = gn_g * (gn_Ho + gn_ao) /\ gn_w * gn_w = 3 * gn_ao / (4 * gn_Ho ^ 2 * (gn_Ho + gn_ao)) /\ 0 < gn_w.
Proof.
  assert (P : 0 < gn_Ho + gn_ao) by (unfold gn_Ho, gn_ao; lra). assert (Q : 0 < 3 * gn_ao) by (unfold gn_ao; lra). assert (G : 0 <= gn_g * (gn_Ho + gn_ao)) by (unfold gn_g; nra).
  pose proof (sqrt_lt_R0 _ P) as SP. pose proof (sqrt_lt_R0 _ Q) as SQ. assert (HP : 0 < gn_Ho) by (unfold gn_Ho; lra).
  split; [|split].
  - unfold gn_co. apply sqrt_sqrt, G.
  - unfold gn_w. transitivity (sqrt (3 * gn_ao) * sqrt (3 * gn_ao) / (4 * gn_Ho ^ 2 * (sqrt (gn_Ho + gn_ao) * sqrt (gn_Ho + gn_ao)))); [field; split; lra|].
    rewrite !sqrt_sqrt by lra. reflexivity.
  - unfold gn_w. apply Rdiv_lt_0_compat; [exact SQ|]. apply Rmult_lt_0_compat; lra.
Qed.
Lemma gn_wave : forall t x y, gn_true t x y = wave gn_ao gn_co gn_w gn_xo t x y.
Proof. reflexivity. Qed.
Lemma gn_iff : forall al, 0 < al -> green_naghdi gn_g al gn_Ho gn_true <-> al = 1.
Proof.
  intros al Hal. destruct gn_square as (C & W & P).
  assert (N1 : 0 < gn_g) by (unfold gn_g; lra). assert (N2 : 0 < gn_Ho) by (unfold gn_Ho; lra). assert (N3 : 0 < gn_ao) by (unfold gn_ao; lra).
  split.
  - intros G. pose proof (wave_needs gn_g gn_Ho gn_ao gn_co gn_w gn_xo al N2 N3 Hal C W G 0 (gn_xo + ln 2 / gn_w)) as Z.
    cbv zeta beta in Z. replace (gn_w * (gn_xo + ln 2 / gn_w - gn_xo - gn_co * 0)) with (ln 2) in Z by (field; lra). rewrite tanh_ln2, C, W in Z.
    apply Rmult_integral in Z. destruct Z as [Z|Z]; [lra|exfalso]. revert Z.
    match goal with |- ?l = 0 -> _ => replace l with (gn_w * (231550101542601 / 59380798339843750)) end; [lra|].
    assert (W' : gn_w * gn_w = 3 / 11) by (rewrite W; unfold gn_Ho, gn_ao; field).
    assert (Cu : forall p r, (p * (gn_w * r)) ^ 3 = 3 / 11 * (gn_w * (p * r) ^ 3)) by (intros p r; rewrite <- W'; ring).
    rewrite Cu. clear Cu W W' P C G. generalize gn_w. intros w. unfold gn_g, gn_Ho, gn_ao. field.
  - intros E. exact (wave_fits gn_g gn_Ho gn_ao gn_co gn_w gn_xo al N2 N3 Hal C W E).
Qed.

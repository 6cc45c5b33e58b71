From Coq Require Import Reals Lra Lia Arith List Bool FunctionalExtensionality.
From Verif Require Import Num ModelSWE Outcome ModelShape SpecShape LemmasShape ModelBasis ModelJac SpecJac LemmasJac ModelWetDry SpecWetDry LemmasBasis4 LemmasWetDry
  ModelSlope SpecSlope.
Import ListNotations.
Open Scope R_scope.

Lemma vm3 : forall f, vmsum 3 f = f 0%nat + f 1%nat + f 2%nat.
Proof. intros f. cbn [vmsum]. ring. Qed.

(** ** Balancing of the slopes *)
Lemma theta_bound : forall n d, 0 <= n -> 0 <= d -> 0 <= theta n d <= 1.
Proof.
  intros n d Hn Hd. unfold theta. destruct (Req_EM_T d 0); [lra|].
  assert (0 <= n / d) by (apply Rmult_le_pos; [exact Hn|]; left; apply Rinv_0_lt_compat; lra).
  unfold Rmin. destruct (Rle_dec 1 (n / d)); lra.
Qed.
Lemma theta_eq : forall n d, 0 <= n -> 0 <= d -> theta n d * d = Rmin n d.
Proof.
  intros n d Hn Hd. unfold theta. destruct (Req_EM_T d 0) as [->|N].
  - unfold Rmin. destruct (Rle_dec n 0); lra.
  - assert (P : 0 < d) by lra. unfold Rmin. destruct (Rle_dec 1 (n / d)) as [A|A], (Rle_dec n d) as [B|B].
    + assert (1 * d <= n / d * d) by (apply Rmult_le_compat_r; lra). replace (n / d * d) with n in * by (field; lra). lra.
    + ring.
    + field. lra.
    + exfalso. assert (n / d * d < 1 * d) by (apply Rmult_lt_compat_r; lra). replace (n / d * d) with n in * by (field; lra). lra.
Qed.

Lemma pos_neg : forall d, Rmax 0 d - Rmax 0 (- d) = d /\ 0 <= Rmax 0 d /\ 0 <= Rmax 0 (- d).
Proof. intros d. unfold Rmax. destruct (Rle_dec 0 d), (Rle_dec 0 (- d)); lra. Qed.

Lemma balance_sum : forall d, vmsum 3 (balance d) = 0.
Proof.
  intros d. unfold balance. destruct (Req_EM_T (vmsum 3 d) 0) as [E|N]; [exact E|]. rewrite !vm3.
  destruct (pos_neg (d 0%nat)) as [_ [P0 N0]], (pos_neg (d 1%nat)) as [_ [P1 N1]], (pos_neg (d 2%nat)) as [_ [P2 N2]].
  set (p := Rmax 0 (d 0%nat) + Rmax 0 (d 1%nat) + Rmax 0 (d 2%nat)) in *.
  set (q := Rmax 0 (- d 0%nat) + Rmax 0 (- d 1%nat) + Rmax 0 (- d 2%nat)) in *.
  assert (Ep : theta q p * p = Rmin q p) by (apply theta_eq; unfold p, q; lra).
  assert (Eq : theta p q * q = Rmin p q) by (apply theta_eq; unfold p, q; lra).
  rewrite (Rmin_comm p q) in Eq. 
  set (t1 := theta q p) in *. set (t2 := theta p q) in *.
  transitivity (t1 * p - t2 * q); [unfold p, q; ring|lra].
Qed.

Lemma scale_damped : forall t x, 0 <= t <= 1 -> 0 <= x -> 0 <= t * x <= x.
Proof. intros t x [A B] Hx. split; [apply Rmult_le_pos; assumption|]. rewrite <- (Rmult_1_l x) at 2. apply Rmult_le_compat_r; assumption. Qed.

Lemma balance_damped : forall d b, damped (balance d b) (d b).
Proof.
  intros d b. unfold balance. destruct (Req_EM_T (vmsum 3 d) 0) as [E|N].
  - unfold damped. destruct (Rle_dec 0 (d b)); lra.
  - rewrite !vm3.
    destruct (pos_neg (d 0%nat)) as [_ [P0 N0]], (pos_neg (d 1%nat)) as [_ [P1 N1]], (pos_neg (d 2%nat)) as [_ [P2 N2]].
    set (p := Rmax 0 (d 0%nat) + Rmax 0 (d 1%nat) + Rmax 0 (d 2%nat)) in *.
    set (q := Rmax 0 (- d 0%nat) + Rmax 0 (- d 1%nat) + Rmax 0 (- d 2%nat)) in *.
    assert (Tp : 0 <= theta q p <= 1) by (apply theta_bound; unfold p, q; lra).
    assert (Tq : 0 <= theta p q <= 1) by (apply theta_bound; unfold p, q; lra).
    unfold damped. unfold Rmax. destruct (Rle_dec 0 (d b)) as [A|A], (Rle_dec 0 (- d b)) as [B|B].
    + left. assert (Z : d b = 0) by lra. rewrite Z. split; [lra|]. split; right; ring.
    + left. pose proof (scale_damped _ (d b) Tp A). lra.
    + right. pose proof (scale_damped _ (- d b) Tq B). lra.
    + exfalso. lra.
Qed.

Lemma balance_balanced : forall d, balanced d (balance d).
Proof.
  intros d. split; [rewrite <- (balance_sum d), vm3; reflexivity|]. intros b Hb. split; [apply balance_damped|]. unfold sum3.
  destruct (pos_neg (d 0%nat)) as [E0 [P0 N0]], (pos_neg (d 1%nat)) as [E1 [P1 N1]], (pos_neg (d 2%nat)) as [E2 [P2 N2]].
  assert (B1 : Rmax 0 (d b) <= Rmax 0 (d 0%nat) + Rmax 0 (d 1%nat) + Rmax 0 (d 2%nat)) by (destruct b as [|[|[|b]]]; [| | |lia]; lra).
  assert (B2 : Rmax 0 (- d b) <= Rmax 0 (- d 0%nat) + Rmax 0 (- d 1%nat) + Rmax 0 (- d 2%nat)) by (destruct b as [|[|[|b]]]; [| | |lia]; lra).
  destruct (pos_neg (d b)) as [Eb [Pb Nb]].
  unfold balance. destruct (Req_EM_T (vmsum 3 d) 0) as [E|N].
  - rewrite vm3 in E. split; intros _; split; intros _; try reflexivity; apply f_equal2; try reflexivity; lra.
  - rewrite !vm3.
    set (p := Rmax 0 (d 0%nat) + Rmax 0 (d 1%nat) + Rmax 0 (d 2%nat)) in *.
    set (q := Rmax 0 (- d 0%nat) + Rmax 0 (- d 1%nat) + Rmax 0 (- d 2%nat)) in *.
    assert (Hp : 0 <= p) by (unfold p; lra). assert (Hq : 0 <= q) by (unfold q; lra).
    pose proof (theta_eq q p Hq Hp) as Tp. pose proof (theta_eq p q Hp Hq) as Tq.
    assert (Mp : 0 <= d b -> Rmax 0 (d b) = d b /\ Rmax 0 (- d b) = 0) by (intros; unfold Rmax; destruct (Rle_dec 0 (d b)), (Rle_dec 0 (- d b)); lra).
    assert (Mn : d b <= 0 -> Rmax 0 (d b) = 0 /\ Rmax 0 (- d b) = - d b) by (intros; unfold Rmax; destruct (Rle_dec 0 (d b)), (Rle_dec 0 (- d b)); lra).
    split; intros L; (split; intros S).
    + destruct (Mp S) as [A B]. rewrite A, B. destruct (Req_dec p 0) as [Z|Z]; [assert (Q : d b = 0) by lra; rewrite Q; ring|].
      rewrite (Rmin_right q p L) in Tp. assert (theta q p = 1) by (apply (Rmult_eq_reg_r p); lra). rewrite H. ring.
    + destruct (Mn S) as [A B]. rewrite A, B. rewrite (Rmin_left p q L) in Tq. transitivity (theta p q * q * d b); [ring|]. rewrite Tq. ring.
    + destruct (Mn S) as [A B]. rewrite A, B. destruct (Req_dec q 0) as [Z|Z]; [assert (Q : d b = 0) by lra; rewrite Q; ring|].
      rewrite (Rmin_right p q L) in Tq. assert (theta p q = 1) by (apply (Rmult_eq_reg_r q); lra). rewrite H. ring.
    + destruct (Mp S) as [A B]. rewrite A, B. rewrite (Rmin_left q p L) in Tp. transitivity (theta q p * p * d b); [ring|]. rewrite Tp. ring.
Qed.

(** ** Vertex values *)
Lemma new_vrtx_mean : forall c d, vmsum 3 d = 0 -> new_vrtx c d 0 + new_vrtx c d 1 + new_vrtx c d 2 = 3 * c.
Proof. intros c d H. unfold new_vrtx. rewrite !vm3 in *. unfold sl_T. cbn [Nat.eqb]. lra. Qed.
Lemma new_vrtx_slope : forall c d b, (b < 3)%nat -> vmsum 3 d = 0 -> midpoint_slope (new_vrtx c d) b = d b.
Proof.
  intros c d b Hb H. unfold midpoint_slope. rewrite new_vrtx_mean by exact H. unfold new_vrtx. rewrite !vm3 in *.
  destruct b as [|[|[|b]]]; [| | |lia]; unfold sl_T; cbn [Nat.eqb]; lra.
Qed.
Lemma new_vrtx_id : forall w v, (v < 3)%nat -> new_vrtx (u_baryctr w) (midpoint_slope w) v = w v.
Proof.
  intros w v Hv. unfold new_vrtx, u_baryctr, midpoint_slope, chi_baryctr. rewrite !vm3. unfold sl_T.
  destruct v as [|[|[|v]]]; [| | |lia]; cbn [Nat.eqb]; field.
Qed.
Lemma new_vrtx_value : forall c d v, (v < 3)%nat -> vmsum 3 d = 0 -> new_vrtx c d v = c - 2 * d v.
Proof.
  intros c d v Hv H. unfold new_vrtx. rewrite !vm3 in *. unfold sl_T.
  destruct v as [|[|[|v]]]; [| | |lia]; cbn [Nat.eqb]; lra.
Qed.
Lemma slope_sum : forall w, vmsum 3 (midpoint_slope w) = 0.
Proof. intros w. rewrite vm3. unfold midpoint_slope. field. Qed.
Lemma u_midpt_slope : forall w b, (b < 3)%nat -> u_midpt w b - u_baryctr w = midpoint_slope w b.
Proof.
  intros w b Hb. unfold u_midpt, u_baryctr, midpoint_slope, chi_midpts, chi_baryctr. rewrite !vm3.
  destruct b as [|[|[|b]]]; [| | |lia]; cbn [Nat.eqb]; field.
Qed.
Lemma u_baryctr_TB : forall u w, (forall v, w v = TB v u) -> u_baryctr w = u 0%nat.
Proof. intros u w H. unfold u_baryctr, chi_baryctr. rewrite vm3, !H. cbn [TB]. field. Qed.
Lemma u_baryctr_mean : forall w, u_baryctr w = (w 0%nat + w 1%nat + w 2%nat) / 3.
Proof. intros w. unfold u_baryctr, chi_baryctr. rewrite vm3. field. Qed.

Lemma differs_same : forall a b, (forall v, (v < 3)%nat -> a v = b v) -> differs a b = false.
Proof.
  intros a b H. unfold differs.
  assert (Z : norm3 (fun v => a v - b v) = 0) by (unfold norm3; rewrite vm3, !H by lia; rewrite <- sqrt_0; f_equal; ring).
  rewrite Z. destruct (Req_EM_T (norm3 b) 0); [destruct (Req_EM_T 0 0); [reflexivity|contradiction]|].
  apply Rltb_false. unfold Rdiv at 1. rewrite Rmult_0_l. apply Rlt_le. apply Rdiv_lt_0_compat; [lra|apply pow_lt; lra].
Qed.
Lemma sqrt_zero : forall x, 0 <= x -> sqrt x = 0 -> x = 0.
Proof. intros x H E. rewrite <- (sqrt_sqrt x H), E. ring. Qed.
Lemma norm3_zero : forall w, norm3 w = 0 -> forall v, (v < 3)%nat -> w v = 0.
Proof.
  intros w H v Hv. unfold norm3 in H. rewrite vm3 in H.
  pose proof (Rle_0_sqr (w 0%nat)) as A. pose proof (Rle_0_sqr (w 1%nat)) as B. pose proof (Rle_0_sqr (w 2%nat)) as C. unfold Rsqr in *.
  apply sqrt_zero in H; [|lra].
  assert (S : w v * w v = 0) by (destruct v as [|[|[|v]]]; [| | |lia]; lra).
  apply Rsqr_0_uniq. exact S.
Qed.
(** A row that is kept is within 1e-12 of its limited values. *)
Lemma differs_false : forall a b, differs a b = false -> norm3 (fun v => a v - b v) <= 1 / 10 ^ 12 * norm3 b.
Proof.
  intros a b. unfold differs. destruct (Req_EM_T (norm3 b) 0) as [E|E].
  - destruct (Req_EM_T (norm3 (fun v => a v - b v)) 0) as [D|D]; [|discriminate]. intros _. rewrite D, E. lra.
  - destruct (Rltb_spec (1 / 10 ^ 12) (norm3 (fun v => a v - b v) / norm3 b)) as [L|L]; [discriminate|]. intros _.
    assert (P : 0 < norm3 b) by (assert (0 <= norm3 b) by apply sqrt_pos; lra).
    apply Rnot_lt_le in L. apply (Rmult_le_compat_r (norm3 b)) in L; [|lra]. replace (norm3 (fun v => a v - b v) / norm3 b * norm3 b) with (norm3 (fun v => a v - b v)) in L by (field; lra).
    exact L.
Qed.

(** ** minmod *)
Lemma copysign_abs : forall x, copysign1 x * Rabs x = x.
Proof. intros x. unfold copysign1, signbit. destruct (Rltb_spec x 0); unfold Rabs; destruct (Rcase_abs x); lra. Qed.
Lemma minmod_damped : forall M nu r w d, damped (minmod M nu r w d) w.
Proof.
  intros M nu r w d. unfold minmod. destruct (Rleb_spec (Rabs w) (M * r)) as [K|K].
  - unfold damped. destruct (Rle_dec 0 w); lra.
  - destruct (Bool.eqb (signbit w) (signbit d)).
    + pose proof (Rmin_l (Rabs w) (Rabs (nu * d))). pose proof (Rabs_pos w). pose proof (Rabs_pos (nu * d)).
      assert (0 <= Rmin (Rabs w) (Rabs (nu * d))) by (unfold Rmin; destruct (Rle_dec _ _); lra).
      unfold damped, copysign1, signbit. destruct (Rltb_spec w 0).
      * right. rewrite (Rabs_left w) in * by lra. lra.
      * left. rewrite (Rabs_right w) in * by lra. lra.
    + unfold damped. destruct (Rle_dec 0 w); lra.
Qed.
Lemma minmod_bound : forall M nu r w d, Rabs (minmod M nu r w d) <= Rmax (M * r) (Rabs (nu * d)).
Proof.
  intros M nu r w d. unfold minmod. destruct (Rleb_spec (Rabs w) (M * r)) as [K|K].
  - pose proof (Rmax_l (M * r) (Rabs (nu * d))). lra.
  - pose proof (Rmax_r (M * r) (Rabs (nu * d))). destruct (Bool.eqb (signbit w) (signbit d)).
    + rewrite Rabs_mult. replace (Rabs (copysign1 w)) with 1.
      * rewrite Rmult_1_l. pose proof (Rmin_r (Rabs w) (Rabs (nu * d))). pose proof (Rabs_pos w). pose proof (Rabs_pos (nu * d)).
        rewrite Rabs_right; [lra|]. unfold Rmin. destruct (Rle_dec _ _); lra.
      * unfold copysign1. destruct (signbit w); [rewrite Rabs_left; lra|rewrite Rabs_right; lra].
    + rewrite Rabs_R0. pose proof (Rabs_pos (nu * d)). lra.
Qed.
Lemma minmod_small : forall M nu r w d, Rabs w <= M * r -> minmod M nu r w d = w.
Proof. intros. unfold minmod. rewrite Rleb_true by assumption. reflexivity. Qed.
Lemma minmod_opposite : forall M nu r w d, M * r < Rabs w -> (w < 0 < d \/ d < 0 < w) -> minmod M nu r w d = 0.
Proof.
  intros M nu r w d L O. unfold minmod. rewrite Rleb_false by exact L. unfold signbit.
  destruct O as [[A B]|[A B]]; [rewrite (Rltb_true w 0), (Rltb_false d 0) by lra|rewrite (Rltb_false w 0), (Rltb_true d 0) by lra]; reflexivity.
Qed.
Lemma minmod_same : forall M nu r w, 1 <= nu -> minmod M nu r w w = w.
Proof.
  intros M nu r w H. unfold minmod. destruct (Rleb (Rabs w) (M * r)); [reflexivity|].
  rewrite Bool.eqb_reflx, Rabs_mult, (Rabs_right nu) by lra. rewrite Rmin_left; [apply copysign_abs|].
  rewrite <- (Rmult_1_l (Rabs w)) at 1. apply Rmult_le_compat_r; [apply Rabs_pos|exact H].
Qed.
Lemma minmod_flat : forall M nu r w, M * r <= 0 -> minmod M nu r w 0 = 0.
Proof.
  intros M nu r w H. unfold minmod. destruct (Rleb_spec (Rabs w) (M * r)) as [K|K].
  - pose proof (Rabs_pos w). destruct (Req_dec w 0) as [E|E]; [exact E|]. pose proof (Rabs_pos_lt w E). lra.
  - destruct (Bool.eqb _ _); [|reflexivity]. rewrite Rmult_0_r, Rabs_R0. rewrite Rmin_right by (apply Rabs_pos). ring.
Qed.

(** ** Characteristic variables *)
Lemma mvec_ext : forall A w w', (forall i, (i < 3)%nat -> w i = w' i) -> forall i, mvec A w i = mvec A w' i.
Proof. intros A w w' H i. unfold mvec. destruct i as [|[|i]]; rewrite !H by lia; reflexivity. Qed.
Lemma mvec_sub : forall A w w' i, mvec A w i - mvec A w' i = mvec A (fun k => w k - w' k) i.
Proof. intros A w w' i. unfold mvec. destruct i as [|[|i]]; ring. Qed.
Lemma mvec_lin : forall A w w' a b i, a * mvec A w i + b * mvec A w' i = mvec A (fun k => a * w k + b * w' k) i.
Proof. intros A w w' a b i. unfold mvec. destruct i as [|[|i]]; ring. Qed.
Lemma mvec_mul : forall A B w i, mvec A (mvec B w) i = mvec (mmul A B) w i.
Proof. intros A B w i. unfold mvec, mmul. destruct i as [|[|i]]; num_R; cbn; ring. Qed.
Lemma mvec_ident : forall w i, (i < 3)%nat -> mvec ident w i = w i.
Proof. intros w i H. unfold mvec, ident. destruct i as [|[|[|i]]]; [| | |lia]; cbn; ring. Qed.
Lemma char_back : forall g h u v x y w i, 0 < g -> 0 < h -> x * x + y * y = 1 -> (i < 3)%nat ->
  mvec (eigR g h u v x y) (mvec (invR g h u v x y) w) i = w i.
Proof.
  intros g h u v x y w i Hg Hh Hn Hi. rewrite mvec_mul. destruct (inverse_lr g h u v x y Hg Hh Hn) as [_ ->].
  apply mvec_ident. exact Hi.
Qed.


Section Row.
Variables (s : sl_in) (h u v : R) (q_lin : nat -> nat -> R).
Let centre := fun i => u_baryctr (q_lin i).
Let mid := fun b i => u_midpt (q_lin i) b.

Lemma unlimited_delta : 0 < sl_g s -> 0 < h -> unit_medians s ->
  (forall b i, (b < 3)%nat -> (i < 3)%nat -> limited_char s h u v centre mid b i = char_tilda s h u v centre mid b i) ->
  forall var b, (var < 3)%nat -> (b < 3)%nat -> limited_delta s h u v centre mid var b = midpoint_slope (q_lin var) b.
Proof.
  intros Hg Hh Hm K var b Hvar Hb. unfold limited_delta.
  rewrite (mvec_ext _ _ (char_tilda s h u v centre mid b)) by (intros i Hi; apply K; assumption).
  unfold char_tilda. rewrite (mvec_ext _ _ (mvec (invR (sl_g s) h u v (fst (sl_med s b)) (snd (sl_med s b))) (fun k => mid b k - centre k)))
    by (intros; apply mvec_sub).
  rewrite char_back by (try assumption; apply Hm; exact Hb). apply u_midpt_slope. exact Hb.
Qed.

Lemma unlimited_row : forall p old var, (var < 3)%nat -> 0 < sl_g s -> 0 < h -> unit_medians s ->
  (forall b i, (b < 3)%nat -> (i < 3)%nat -> limited_char s h u v centre mid b i = char_tilda s h u v centre mid b i) ->
  limit_row p s h u v q_lin old var = Ok old.
Proof.
  intros p old var Hvar Hg Hh Hm K. unfold limit_row. fold centre mid.
  rewrite differs_same; [reflexivity|]. intros w Hw.
  pose proof (unlimited_delta Hg Hh Hm K var) as D.
  assert (Eb : forall b, (b < 3)%nat -> balance (limited_delta s h u v centre mid var) b = midpoint_slope (q_lin var) b).
  { intros b Hb. unfold balance. rewrite vm3, !D by lia. rewrite <- vm3, slope_sum.
    destruct (Req_EM_T 0 0); [|contradiction]. apply D; assumption. }
  transitivity (new_vrtx (centre var) (midpoint_slope (q_lin var)) w).
  - unfold new_vrtx. rewrite !vm3, !Eb by lia. reflexivity.
  - apply new_vrtx_id. exact Hw.
Qed.

(** What one row becomes in general. *)
Lemma row_ok : forall p old var, (1 <= p)%nat -> (forall x, q_lin var x = TB x old) ->
  let d' := balance (limited_delta s h u v centre mid var) in
  exists r, limit_row p s h u v q_lin old var = Ok r /\ r 0%nat = old 0%nat /\
  ((r = old /\ norm3 (fun x => (old 0%nat - 2 * d' x) - TB x old) <= 1 / 10 ^ 12 * norm3 (fun x => TB x old)) \/
   ((forall i, (3 <= i)%nat -> r i = 0) /\ forall b, (b < 3)%nat -> midpoint_slope (fun x => TB x r) b = d' b)).
Proof.
  intros p old var Hp L d'. unfold limit_row. fold centre mid d'.
  assert (Ec : centre var = old 0%nat) by (unfold centre; apply u_baryctr_TB; exact L).
  set (w := new_vrtx _ _). destruct (differs w (q_lin var)) eqn:Df.
  - destruct (l2b p w Hp) as [r [-> [R0 [R1 [R2 R3]]]]]. exists r. split; [reflexivity|].
    assert (TBr : forall x, (x < 3)%nat -> TB x r = w x).
    { intros x Hx. destruct x as [|[|[|x]]]; [| | |lia]; cbn [TB]; rewrite ?R0, ?R1, ?R2; field. }
    assert (Sl : forall b, (b < 3)%nat -> midpoint_slope (fun x => TB x r) b = d' b).
    { intros b Hb. rewrite <- (new_vrtx_slope (centre var) d' b Hb) by apply balance_sum.
      fold w. unfold midpoint_slope. rewrite !TBr by lia. reflexivity. }
    split. { rewrite R0. unfold w. rewrite new_vrtx_mean by apply balance_sum. rewrite <- Ec. unfold centre. field. }
    right; split; [exact R3|exact Sl].
  - exists old. split; [reflexivity|]. split; [reflexivity|]. left. split; [reflexivity|].
    apply differs_false in Df. unfold norm3 in *. rewrite !vm3 in *.
    rewrite <- !L. unfold w in Df. rewrite !new_vrtx_value in Df by (try lia; apply balance_sum). fold (centre var) in Df. rewrite Ec in Df. exact Df.
Qed.
End Row.

(** ** The kernel *)
Lemma to_linear_all : forall p q, (1 <= p)%nat -> exists w, to_linear p q = Ok w /\
  forall var, (var < 3)%nat -> forall x, w var x = TB x (q var).
Proof.
  intros p q H. unfold to_linear.
  destruct (b2l p (q 0%nat) H) as [w0 [-> W0]]. destruct (b2l p (q 1%nat) H) as [w1 [-> W1]].
  destruct (b2l p (q 2%nat) H) as [w2 [-> W2]]. cbn [bind]. eexists. split; [reflexivity|].
  intros var L x. destruct var as [|[|[|var]]]; [apply W0|apply W1|apply W2|lia].
Qed.

Lemma kernel_mean : forall p s wet wn q, (1 <= p)%nat ->
  exists q', slope_limiting_kernel p s wet wn q = Ok q' /\
  (forall var, cell_mean (q' var) = cell_mean (q var)) /\
  (forall var, (3 <= var)%nat -> q' var = q var) /\
  (forall var, q' var = q var \/ forall dof, (3 <= dof)%nat -> q' var dof = 0).
Proof.
  intros p s wet wn q Hp. unfold slope_limiting_kernel. destruct (wet && forallb (fun b => b) wn)%bool.
  2: { exists q. repeat split; try reflexivity. intros; left; reflexivity. }
  destruct (to_linear_all p q Hp) as [w [-> W]]. cbn [bind]. cbv zeta.
  set (h := u_baryctr (w 0%nat) + sl_bath s). set (u := u_baryctr (w 1%nat) / h). set (v := u_baryctr (w 2%nat) / h).
  destruct (row_ok s h u v w p (q 0%nat) 0 Hp (W 0%nat ltac:(lia))) as [r0 [-> [M0 K0]]]. cbn [bind].
  destruct (row_ok s h u v w p (q 1%nat) 1 Hp (W 1%nat ltac:(lia))) as [r1 [-> [M1 K1]]]. cbn [bind].
  destruct (row_ok s h u v w p (q 2%nat) 2 Hp (W 2%nat ltac:(lia))) as [r2 [-> [M2 K2]]]. cbn [bind].
  eexists. split; [reflexivity|]. unfold cell_mean. split; [|split].
  - intros var. destruct var as [|[|[|var]]]; [exact M0|exact M1|exact M2|reflexivity].
  - intros var Hv. destruct var as [|[|[|var]]]; [lia|lia|lia|reflexivity].
  - intros var. destruct var as [|[|[|var]]]; [destruct K0 as [[-> _]|[K _]]|destruct K1 as [[-> _]|[K _]]|destruct K2 as [[-> _]|[K _]]|];
      (left; reflexivity) || (right; exact K).
Qed.

Lemma kernel_skip : forall p s wet wn q, wet = false \/ In false wn -> slope_limiting_kernel p s wet wn q = Ok q.
Proof.
  intros p s wet wn q H. unfold slope_limiting_kernel.
  replace (wet && forallb (fun b => b) wn)%bool with false; [reflexivity|]. symmetry.
  destruct H as [->|H]; [reflexivity|]. apply andb_false_intro2.
  destruct (forallb (fun b => b) wn) eqn:E; [|reflexivity]. rewrite forallb_forall in E. specialize (E _ H). discriminate E.
Qed.

Lemma slope_vv : forall u b, (b < 3)%nat -> midpoint_slope (vertex_value u) b = midpoint_slope (fun x => TB x u) b.
Proof. intros u b H. unfold midpoint_slope. rewrite !vv by lia. reflexivity. Qed.

Section Values.
Variables (s : sl_in) (q w : nat -> nat -> R).
Hypothesis W : forall var, (var < 3)%nat -> forall x, w var x = TB x (q var).
Let h := u_baryctr (w 0%nat) + sl_bath s.
Let u := u_baryctr (w 1%nat) / h.
Let v := u_baryctr (w 2%nat) / h.
Let centre := fun i => u_baryctr (w i).
Let mid := fun b i => u_midpt (w i) b.

Lemma values : h = depth_c s q /\ u = q 1%nat 0%nat / depth_c s q /\ v = q 2%nat 0%nat / depth_c s q /\
  (forall i, (i < 3)%nat -> centre i = q i 0%nat).
Proof.
  unfold h, u, v, centre, h.
  assert (B : forall i, (i < 3)%nat -> u_baryctr (w i) = q i 0%nat) by (intros i Hi; apply u_baryctr_TB, W; exact Hi).
  rewrite !B by lia. repeat split. exact B.
Qed.
Lemma tilda_value : forall b i, (b < 3)%nat -> char_tilda s h u v centre mid b i = to_char s q b (slope_vec q b) i.
Proof.
  intros b i Hb. destruct values as [Eh [Eu [Ev _]]]. unfold char_tilda, to_char. rewrite Eh, Eu, Ev, mvec_sub. apply mvec_ext.
  intros k Hk. unfold mid, centre, slope_vec. rewrite u_midpt_slope, slope_vv by exact Hb.
  unfold midpoint_slope. rewrite !W by exact Hk. reflexivity.
Qed.
Lemma delta_value : forall b i, char_delta s h u v centre b i = to_char s q b (neigh_vec s q b) i.
Proof.
  intros b i. destruct values as [Eh [Eu [Ev Ec]]]. unfold char_delta, to_char. rewrite Eh, Eu, Ev, !mvec_sub, mvec_lin. apply mvec_ext.
  intros k Hk. unfold neigh_vec. rewrite !Ec by exact Hk. reflexivity.
Qed.
Lemma limited_value : forall b i, (b < 3)%nat -> limited_char s h u v centre mid b i =
  minmod (sl_M s) (sl_nu s) (sl_rs s b) (to_char s q b (slope_vec q b) i) (to_char s q b (neigh_vec s q b) i).
Proof. intros b i Hb. unfold limited_char. rewrite tilda_value, delta_value by exact Hb. reflexivity. Qed.
End Values.

Lemma kernel_unlimited : forall p s wet wn q, (1 <= p)%nat -> 0 < sl_g s -> 0 < depth_c s q -> unit_medians s ->
  (forall b i, (b < 3)%nat -> (i < 3)%nat ->
     minmod (sl_M s) (sl_nu s) (sl_rs s b) (to_char s q b (slope_vec q b) i) (to_char s q b (neigh_vec s q b) i) = to_char s q b (slope_vec q b) i) ->
  exists q', slope_limiting_kernel p s wet wn q = Ok q' /\ forall var, q' var = q var.
Proof.
  intros p s wet wn q Hp Hg Hh Hm K. unfold slope_limiting_kernel. destruct (wet && forallb (fun b => b) wn)%bool.
  2: { exists q. split; reflexivity. }
  destruct (to_linear_all p q Hp) as [w [-> W]]. cbn [bind]. cbv zeta.
  destruct (values s q w W) as [Eh _].
  rewrite !unlimited_row; try assumption; try lia; try (rewrite Eh; exact Hh).
  2, 3, 4: intros b i Hb Hi; rewrite (limited_value s q w W), (tilda_value s q w W) by exact Hb; apply K; assumption.
  cbn [bind]. eexists. split; [reflexivity|]. intros var. destruct var as [|[|[|var]]]; reflexivity.
Qed.

(** Globally linear data. *)
Lemma alpha_ok : forall n nb b, determinant (alpha_matrix n nb b) <> 0 ->
  fst (sl_alpha n nb b) * (fst (nb b) - fst (GetBarycentricCoordinates n)) +
  snd (sl_alpha n nb b) * (fst (nb ((b + 1) mod 3)%nat) - fst (GetBarycentricCoordinates n)) = fst (to_mid n b) /\
  fst (sl_alpha n nb b) * (snd (nb b) - snd (GetBarycentricCoordinates n)) +
  snd (sl_alpha n nb b) * (snd (nb ((b + 1) mod 3)%nat) - snd (GetBarycentricCoordinates n)) = snd (to_mid n b).
Proof.
  intros n nb b D. unfold sl_alpha, inverse. cbn [a00 a01 a10 a11 fst snd].
  set (A := alpha_matrix n nb b) in *. set (x := fst (to_mid n b)). set (y := snd (to_mid n b)).
  change (fst (nb b) - fst (GetBarycentricCoordinates n)) with (a00 A).
  change (fst (nb ((b + 1) mod 3)%nat) - fst (GetBarycentricCoordinates n)) with (a01 A).
  change (snd (nb b) - snd (GetBarycentricCoordinates n)) with (a10 A).
  change (snd (nb ((b + 1) mod 3)%nat) - snd (GetBarycentricCoordinates n)) with (a11 A).
  unfold determinant in *. split; field; exact D.
Qed.

Lemma to_mid_vertex : forall n b, (b < 3)%nat ->
  fst (to_mid n b) = (fst (GetBarycentricCoordinates n) - fst (n b)) / 2 /\ snd (to_mid n b) = (snd (GetBarycentricCoordinates n) - snd (n b)) / 2.
Proof.
  intros n b Hb. destruct b as [|[|[|b]]]; [| | |lia];
    unfold to_mid, midpoint, GetMidpointCoordinates, GetBarycentricCoordinates; cbn; split; field.
Qed.
Lemma to_mid_nonzero : forall n b, (b < 3)%nat -> orient (n 0%nat) (n 1%nat) (n 2%nat) <> 0 ->
  0 < fst (to_mid n b) * fst (to_mid n b) + snd (to_mid n b) * snd (to_mid n b).
Proof.
  intros n b Hb N. destruct (to_mid_vertex n b Hb) as [E F]. rewrite E, F.
  set (x := (_ - _) / 2). set (y := (_ - _) / 2).
  pose proof (Rle_0_sqr x) as X. pose proof (Rle_0_sqr y) as Y. unfold Rsqr in *.
  destruct (Req_dec (x * x + y * y) 0) as [Z|Z]; [|lra]. exfalso. apply N.
  assert (X0 : x = 0) by (apply Rsqr_0_uniq; unfold Rsqr; lra). assert (Y0 : y = 0) by (apply Rsqr_0_uniq; unfold Rsqr; lra).
  unfold x, y, GetBarycentricCoordinates in X0, Y0. cbn [fst snd] in X0, Y0. unfold orient.
  destruct b as [|[|[|b]]]; [| | |lia].
  - assert (A : fst (n 2%nat) = 2 * fst (n 0%nat) - fst (n 1%nat)) by lra. assert (B : snd (n 2%nat) = 2 * snd (n 0%nat) - snd (n 1%nat)) by lra. rewrite A, B. ring.
  - assert (A : fst (n 2%nat) = 2 * fst (n 1%nat) - fst (n 0%nat)) by lra. assert (B : snd (n 2%nat) = 2 * snd (n 1%nat) - snd (n 0%nat)) by lra. rewrite A, B. ring.
  - assert (A : fst (n 1%nat) = 2 * fst (n 2%nat) - fst (n 0%nat)) by lra. assert (B : snd (n 1%nat) = 2 * snd (n 2%nat) - snd (n 0%nat)) by lra. rewrite A, B. ring.
Qed.
Lemma median_unit : forall n b, (b < 3)%nat -> orient (n 0%nat) (n 1%nat) (n 2%nat) <> 0 ->
  fst (sl_median n b) * fst (sl_median n b) + snd (sl_median n b) * snd (sl_median n b) = 1.
Proof.
  intros n b Hb N. pose proof (to_mid_nonzero n b Hb N) as P. unfold sl_median, hypot. cbn [fst snd].
  set (x := fst (to_mid n b)) in *. set (y := snd (to_mid n b)) in *.
  assert (Q : sqrt (x * x + y * y) * sqrt (x * x + y * y) = x * x + y * y) by (apply sqrt_sqrt; lra).
  assert (0 < sqrt (x * x + y * y)) by (apply sqrt_lt_R0; exact P).
  set (l := sqrt _) in *. transitivity ((x * x + y * y) / (l * l)); [field; lra|]. rewrite Q. field. lra.
Qed.

Lemma kernel_linear_exact : forall p n nb g M nu bath c wet wn q,
  (1 <= p)%nat -> 0 < g -> 1 <= nu -> orient (n 0%nat) (n 1%nat) (n 2%nat) <> 0 ->
  (forall b, (b < 3)%nat -> determinant (alpha_matrix n nb b) <> 0) ->
  (forall var x, (var < 3)%nat -> (x < 3)%nat -> vertex_value (q var) x = plane (c var) (n x)) ->
  0 < plane (c 0%nat) (GetBarycentricCoordinates n) + bath ->
  exists q', slope_limiting_kernel p (SlIn g M nu (sl_median n) (sl_alpha n nb) (sl_r_sq n) bath (fun b var => plane (c var) (nb b))) wet wn q = Ok q' /\
  forall var, q' var = q var.
Proof.
  intros p n nb g M nu bath c wet wn q Hp Hg Hnu Hn Ha Hq Hh.
  assert (Mean : forall var, (var < 3)%nat -> q var 0%nat = plane (c var) (GetBarycentricCoordinates n)).
  { intros var Hv. pose proof (TB_mean (q var)) as T. rewrite <- !vv in T by lia. rewrite !Hq in T by lia.
    destruct (c var) as [[a0 a1] a2]. cbn [plane] in *. unfold GetBarycentricCoordinates. cbn [fst snd]. lra. }
  set (s := SlIn g M nu (sl_median n) (sl_alpha n nb) (sl_r_sq n) bath (fun b var => plane (c var) (nb b))).
  assert (NS : forall b, (b < 3)%nat -> forall i, (i < 3)%nat -> neigh_vec s q b i = slope_vec q b i).
  { intros b Hb i Hi. unfold neigh_vec, slope_vec, s. cbn [sl_al sl_neigh]. rewrite Mean by exact Hi.
    destruct (alpha_ok n nb b (Ha b Hb)) as [E F]. destruct (to_mid_vertex n b Hb) as [Gx Gy]. rewrite Gx in E. rewrite Gy in F.
    unfold midpoint_slope. rewrite !Hq by lia.
    destruct (c i) as [[a0 a1] a2]. cbn [plane].
    set (A0 := fst (sl_alpha n nb b)) in *. set (A1 := snd (sl_alpha n nb b)) in *.
    transitivity (a1 * (A0 * (fst (nb b) - fst (GetBarycentricCoordinates n)) + A1 * (fst (nb ((b + 1) mod 3)%nat) - fst (GetBarycentricCoordinates n))) +
                  a2 * (A0 * (snd (nb b) - snd (GetBarycentricCoordinates n)) + A1 * (snd (nb ((b + 1) mod 3)%nat) - snd (GetBarycentricCoordinates n)))); [ring|].
    rewrite E, F. unfold GetBarycentricCoordinates. cbn [fst snd]. field. }
  apply kernel_unlimited.
  - exact Hp.
  - exact Hg.
  - unfold depth_c, s. cbn [sl_bath]. rewrite Mean by lia. exact Hh.
  - intros b Hb. unfold s. cbn [sl_med]. apply median_unit; assumption.
  - intros b i Hb Hi. unfold to_char at 2. rewrite (mvec_ext _ _ _ (NS b Hb)). apply minmod_same. exact Hnu.
Qed.

(** Exact description of the result. *)
Lemma balanced_ext : forall d1 d2 d', (forall b, (b < 3)%nat -> d1 b = d2 b) -> balanced d1 d' -> balanced d2 d'.
Proof.
  intros d1 d2 d' E [S B]. unfold balanced, sum3 in *. rewrite !E in B by lia. split; [exact S|].
  intros b Hb. specialize (B b Hb). rewrite E in B by exact Hb. exact B.
Qed.
Lemma limited_result : forall p s wn q, (1 <= p)%nat -> forallb (fun b => b) wn = true ->
  exists q', slope_limiting_kernel p s true wn q = Ok q' /\
  forall var, (var < 3)%nat -> exists d', balanced (limited_slope s q var) d' /\
    ((q' var = q var /\ length3 (fun x => (cell_mean (q var) - 2 * d' x) - vertex_value (q var) x) <= 1 / 10 ^ 12 * length3 (vertex_value (q var))) \/
     ((forall i, (3 <= i)%nat -> q' var i = 0) /\ forall b, (b < 3)%nat -> midpoint_slope (vertex_value (q' var)) b = d' b)).
Proof.
  intros p s wn q Hp Hw. unfold slope_limiting_kernel. rewrite Hw. cbn [andb].
  destruct (to_linear_all p q Hp) as [w [-> W]]. cbn [bind]. cbv zeta.
  destruct (values s q w W) as [Eh [Eu [Ev _]]].
  pose proof (limited_value s q w W) as LV.
  set (h := u_baryctr (w 0%nat) + sl_bath s) in *. set (u := u_baryctr (w 1%nat) / h) in *. set (v := u_baryctr (w 2%nat) / h) in *.
  assert (LD : forall var b, (b < 3)%nat ->
    limited_delta s h u v (fun i => u_baryctr (w i)) (fun b i => u_midpt (w i) b) var b = limited_slope s q var b).
  { intros var b Hb. unfold limited_delta, limited_slope. rewrite Eh, Eu, Ev. apply mvec_ext. intros i Hi. rewrite <- (LV b i Hb). rewrite Eh, Eu, Ev. reflexivity. }
  assert (Fin : forall var (r old : nat -> R) ,
    let d' := balance (limited_delta s h u v (fun i => u_baryctr (w i)) (fun b i => u_midpt (w i) b) var) in
    ((r = old /\ norm3 (fun x => (old 0%nat - 2 * d' x) - TB x old) <= 1 / 10 ^ 12 * norm3 (fun x => TB x old)) \/
     ((forall i, (3 <= i)%nat -> r i = 0) /\ forall b, (b < 3)%nat -> midpoint_slope (fun x => TB x r) b = d' b)) ->
    exists d', balanced (limited_slope s q var) d' /\
    ((r = old /\ length3 (fun x => (cell_mean old - 2 * d' x) - vertex_value old x) <= 1 / 10 ^ 12 * length3 (vertex_value old)) \/
     ((forall i, (3 <= i)%nat -> r i = 0) /\ forall b, (b < 3)%nat -> midpoint_slope (vertex_value r) b = d' b))).
  { intros var r old d' K. exists d'. split; [apply (balanced_ext _ _ _ (LD var)); apply balance_balanced|].
    destruct K as [[-> K]|[K1 K2]]; [left|right].
    - split; [reflexivity|]. unfold length3, sum3. unfold norm3 in K. rewrite !vm3 in K. rewrite !vv by lia. exact K.
    - split; [exact K1|]. intros b Hb. rewrite slope_vv by exact Hb. apply K2. exact Hb. }
  destruct (row_ok s h u v w p (q 0%nat) 0 Hp (W 0%nat ltac:(lia))) as [r0 [-> [M0 K0]]]. cbn [bind].
  destruct (row_ok s h u v w p (q 1%nat) 1 Hp (W 1%nat ltac:(lia))) as [r1 [-> [M1 K1]]]. cbn [bind].
  destruct (row_ok s h u v w p (q 2%nat) 2 Hp (W 2%nat ltac:(lia))) as [r2 [-> [M2 K2]]]. cbn [bind].
  eexists. split; [reflexivity|]. intros var Hv. destruct var as [|[|[|var]]]; [| | |lia]; apply Fin; assumption.
Qed.

(** Equal neighbour means with M = 0: rewritten rows become constant. *)
Lemma flat_neighbours : forall p s wn q, (1 <= p)%nat -> forallb (fun b => b) wn = true -> sl_M s = 0 ->
  (forall b var, sl_neigh s b var = q var 0%nat) ->
  exists q', slope_limiting_kernel p s true wn q = Ok q' /\
  forall var, (var < 3)%nat -> (length3 (fun x => cell_mean (q var) - vertex_value (q var) x) <= 1 / 10 ^ 12 * length3 (vertex_value (q var))) \/
    forall x, (x < 3)%nat -> vertex_value (q' var) x = cell_mean (q var).
Proof.
  intros p s wn q Hp Hw HM Hn. destruct (limited_result p s wn q Hp Hw) as [q' [E L]].
  destruct (kernel_mean p s true wn q Hp) as [q'' [E' [Mn _]]]. rewrite E in E'. injection E' as <-.
  exists q'. split; [exact E|]. intros var Hv. destruct (L var Hv) as [d' [[_ Bd] S]].
  assert (Z : forall b, (b < 3)%nat -> d' b = 0).
  { intros b Hb. destruct (Bd b Hb) as [D _].
    assert (Nz : forall i, to_char s q b (neigh_vec s q b) i = 0).
    { intros i. unfold to_char, mvec, neigh_vec. destruct i as [|[|i]]; rewrite !Hn; ring. }
    unfold limited_slope in D. rewrite (mvec_ext _ _ (fun _ => 0)) in D by (intros i _; rewrite Nz; apply minmod_flat; rewrite HM; lra).
    assert (MZ : forall A i, mvec A (fun _ => 0) i = 0) by (intros A i; unfold mvec; destruct i as [|[|i]]; ring).
    rewrite MZ in D. unfold damped in D. lra. }
  destruct S as [[_ S]|[_ S]]; [left|right].
  - unfold length3 at 1, sum3 in S. rewrite !Z, !Rmult_0_r, !Rminus_0_r in S by lia. exact S.
  - pose proof (Mn var) as Mv. intros x Hx. pose proof (S x Hx) as Zx. rewrite Z in Zx by exact Hx. unfold midpoint_slope in Zx.
    assert (T : vertex_value (q' var) 0 + vertex_value (q' var) 1 + vertex_value (q' var) 2 = 3 * q' var 0%nat) by (rewrite !vv by lia; apply TB_mean).
    unfold cell_mean in *. lra.
Qed.

(** ** Exchange of centre values *)
Lemma set2_same : forall (A : Type) (f : nat -> nat -> A) e b x, set2 f e b x e b = x.
Proof. intros. unfold set2. rewrite !Nat.eqb_refl. reflexivity. Qed.
Lemma set2_other : forall (A : Type) (f : nat -> nat -> A) e b x e' b', (e, b) <> (e', b') -> set2 f e b x e' b' = f e' b'.
Proof.
  intros A f e b x e' b' N. unfold set2. destruct (Nat.eqb_spec e e') as [->|]; [|reflexivity].
  destruct (Nat.eqb_spec b b') as [->|]; [contradiction|reflexivity].
Qed.
Lemma face_other : forall wet centre m f e b, ~ In (e, b) (face_sides f) ->
  n_wet (prepare_face wet centre m f) e b = n_wet m e b /\ n_q (prepare_face wet centre m f) e b = n_q m e b.
Proof.
  intros wet centre m f e b N. destruct f as [ei bi ee be|e' b']; cbn [face_sides In prepare_face] in *.
  - destruct (wet ei && wet ee)%bool; cbn [n_wet n_q]; rewrite !set2_other by (intros E; apply N; auto); split; reflexivity.
  - destruct (wet e'); cbn [n_wet n_q]; rewrite !set2_other by (intros E; apply N; auto); split; reflexivity.
Qed.
Lemma faces_other : forall wet centre fs m e b, (forall f, In f fs -> ~ In (e, b) (face_sides f)) ->
  n_wet (prepare_faces wet centre m fs) e b = n_wet m e b /\ n_q (prepare_faces wet centre m fs) e b = n_q m e b.
Proof.
  intros wet centre. induction fs as [|f fs IH]; intros m e b H; [split; reflexivity|]. cbn [prepare_faces fold_left].
  destruct (IH (prepare_face wet centre m f) e b) as [A B]; [intros; apply H; right; assumption|].
  unfold prepare_faces in A, B. rewrite A, B. apply face_other. apply H. left. reflexivity.
Qed.
Lemma face_here : forall wet centre m f e b, NoDup (face_sides f) -> In (e, b) (face_sides f) ->
  n_wet (prepare_face wet centre m f) e b = wet (across f e b) /\
  (wet e = true -> wet (across f e b) = true -> n_q (prepare_face wet centre m f) e b = centre (across f e b)).
Proof.
  intros wet centre m f e b N I. destruct f as [ei bi ee be|e' b']; cbn [face_sides In prepare_face across] in *.
  - inversion N as [|x l N1 N2]; subst. cbn [In] in N1.
    destruct I as [I|[I|[]]]; injection I as -> ->.
    + rewrite !Nat.eqb_refl. cbn [andb]. split.
      * destruct (wet e && wet ee)%bool; cbn [n_wet]; rewrite set2_other, set2_same by (intros X; apply N1; auto); reflexivity.
      * intros -> ->. cbn [andb n_q]. rewrite set2_other, set2_same by (intros X; apply N1; auto). reflexivity.
    + replace (Nat.eqb e ei && Nat.eqb b bi)%bool with false.
      * split.
        -- destruct (wet ei && wet e)%bool; cbn [n_wet]; apply set2_same.
        -- intros -> ->. cbn [andb n_q]. apply set2_same.
      * symmetry. destruct (Nat.eqb_spec e ei) as [->|]; [|reflexivity]. destruct (Nat.eqb_spec b bi) as [->|]; [|reflexivity].
        exfalso. apply N1. left. reflexivity.
  - destruct I as [I|[]]. injection I as -> ->. split.
    + destruct (wet e); cbn [n_wet]; apply set2_same.
    + intros -> _. cbn [n_q]. apply set2_same.
Qed.
Lemma NoDup_app_inv : forall (A : Type) (l1 l2 : list A), NoDup (l1 ++ l2) -> NoDup l1 /\ NoDup l2 /\ forall x, In x l1 -> ~ In x l2.
Proof.
  intros A. induction l1 as [|a l1 IH]; intros l2 N; cbn [app] in N.
  - repeat split; [constructor|exact N|intros x []].
  - inversion N as [|y l Na Nr]; subst. destruct (IH l2 Nr) as [A1 [A2 A3]]. repeat split.
    + constructor; [|exact A1]. intros I. apply Na. apply in_or_app. left. exact I.
    + exact A2.
    + intros x [->|I]; [intros J; apply Na; apply in_or_app; right; exact J|apply A3; exact I].
Qed.
Lemma prepare_ok : forall wet centre fs m f e b, NoDup (flat_map face_sides fs) -> In f fs -> In (e, b) (face_sides f) ->
  n_wet (prepare_faces wet centre m fs) e b = wet (across f e b) /\
  (wet e = true -> wet (across f e b) = true -> n_q (prepare_faces wet centre m fs) e b = centre (across f e b)).
Proof.
  intros wet centre. induction fs as [|g fs IH]; intros m f e b N I J; [destruct I|]. cbn [flat_map] in N.
  apply NoDup_app_inv in N. destruct N as [N1 [N2 N3]]. cbn [prepare_faces fold_left].
  destruct I as [->|I].
  - assert (O : forall f', In f' fs -> ~ In (e, b) (face_sides f')).
    { intros f' If' Ie. apply (N3 (e, b) J). apply in_flat_map. exists f'. split; assumption. }
    destruct (faces_other wet centre fs (prepare_face wet centre m f) e b O) as [A B]. unfold prepare_faces in A, B. rewrite A, B.
    apply face_here; assumption.
  - apply IH; assumption.
Qed.

Lemma limiter_geometry : forall n b, (b < 3)%nat ->
  let x := ((fst (n 0%nat) + fst (n 1%nat) + fst (n 2%nat)) / 3, (snd (n 0%nat) + snd (n 1%nat) + snd (n 2%nat)) / 3) in
  let u := n ((b + 1) mod 3)%nat in
  let v := n ((b + 2) mod 3)%nat in
  let y := ((fst u + fst v) / 2, (snd u + snd v) / 2) in
  sl_r_sq n b = dist x y * dist x y /\
  (fst x + fst (mirror_baryctr n b)) / 2 = fst y /\ (snd x + snd (mirror_baryctr n b)) / 2 = snd y /\
  (dist x y <> 0 -> fst (sl_median n b) * dist x y = fst y - fst x /\ snd (sl_median n b) * dist x y = snd y - snd x).
Proof.
  intros n b Hb x u v y.
  assert (B : GetBarycentricCoordinates n = x) by reflexivity.
  assert (M : fst (midpoint n b) = fst y /\ snd (midpoint n b) = snd y).
  { destruct b as [|[|[|b]]]; [| | |lia]; unfold midpoint, GetMidpointCoordinates, y, u, v; cbn; split; field. }
  destruct M as [M1 M2]. assert (D : dist x y = hypot (fst (to_mid n b)) (snd (to_mid n b))).
  { unfold dist, vdot, SpecShape.vsub, hypot, to_mid. rewrite B, M1, M2. cbn [fst snd]. f_equal. ring. }
  split; [|split; [|split]].
  - rewrite D. unfold hypot. rewrite sqrt_sqrt; [reflexivity|]. pose proof (Rle_0_sqr (fst (to_mid n b))). pose proof (Rle_0_sqr (snd (to_mid n b))). unfold Rsqr in *. lra.
  - unfold mirror_baryctr. rewrite B, M1. cbn [fst]. field.
  - unfold mirror_baryctr. rewrite B, M2. cbn [snd]. field.
  - rewrite D. intros N. unfold sl_median. cbn [fst snd]. split; [transitivity (fst (to_mid n b))|transitivity (snd (to_mid n b))]; try (field; exact N); unfold to_mid; rewrite B, ?M1, ?M2; reflexivity.
Qed.

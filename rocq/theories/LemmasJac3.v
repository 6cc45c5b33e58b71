From Coq Require Import Reals Lra Lia List Arith.
From Verif Require Import Num ModelSWE SpecSWE LemmasSWE ModelJac SpecJac.
Open Scope R_scope.

(** ** C40 *)
Definition speed_over_depth (q : vec3 R) (h : R) : R := sqrt (qx q / h * (qx q / h) + qy q / h * (qy q / h)) / h.

Lemma friction_loop : forall p q a S0 n j,
  snd (fold_left (friction_body p q a) (seq 0 n) (s_Cf p, S0)) j =
  if (j <? n)%nat then
    let k := friction_coef p (hh (a j)) * speed_over_depth (q j) (hh (a j)) in
    V3 (ze (S0 j)) (qx (S0 j) - k * qx (q j)) (qy (S0 j) - k * qy (q j))
  else S0 j.
Proof.
  intros p q a S0 n.
  assert (A : (s_manning p = false -> fst (fold_left (friction_body p q a) (seq 0 n) (s_Cf p, S0)) = s_Cf p) /\
    forall j, snd (fold_left (friction_body p q a) (seq 0 n) (s_Cf p, S0)) j =
    if (j <? n)%nat then
      let k := friction_coef p (hh (a j)) * speed_over_depth (q j) (hh (a j)) in
      V3 (ze (S0 j)) (qx (S0 j) - k * qx (q j)) (qy (S0 j) - k * qy (q j))
    else S0 j).
  2: { apply A. }
  induction n as [|n [IH1 IH2]]; [split; trivial|].
  rewrite seq_S, fold_left_app. cbn [Nat.add fold_left].
  destruct (fold_left (friction_body p q a) (seq 0 n) (s_Cf p, S0)) as [Cf src]. cbn [fst snd] in *.
  unfold friction_body at 1 2. cbn [fst snd]. split.
  - intros M. rewrite M. cbn. apply IH1, M.
  - intros j. assert (E : src n = S0 n) by (rewrite IH2, (proj2 (Nat.ltb_ge n n)) by lia; reflexivity).
    destruct (Nat.eq_dec j n) as [->|N].
    + rewrite upd_same, (proj2 (Nat.ltb_lt n (S n))), E by lia. cbn zeta.
      assert (K : (if s_manning p then if Rltb (s_g_manning_n_sq p / cube_root (hh (a n))) (s_Cf p) then s_Cf p else
          s_g_manning_n_sq p / cube_root (hh (a n)) else Cf) = friction_coef p (hh (a n))).
      { unfold friction_coef. destruct (s_manning p); [|apply IH1; reflexivity].
        unfold Rmax. destruct (Rltb_spec (s_g_manning_n_sq p / cube_root (hh (a n))) (s_Cf p)), Rle_dec; lra. }
      rewrite K. unfold speed_over_depth, hypot, Rdiv. rewrite !Rmult_assoc. reflexivity.
    + rewrite upd_other by congruence. rewrite IH2.
      destruct (Nat.ltb_spec j n), (Nat.ltb_spec j (S n)); trivial; lia.
Qed.

Lemma source_form : forall g p fs ngp q a db j, (j < ngp)%nat ->
  get_source g p fs ngp q a db j =
  vsub (unfrictioned g fs (q j) (db j) j)
    (if s_bottom_friction p then
       vscale (friction_coef p (hh (a j)) * speed_over_depth (q j) (hh (a j))) (V3 0 (qx (q j)) (qy (q j)))
     else V3 0 0 0).
Proof.
  intros g p fs ngp q a db j Hj. unfold get_source.
  set (S1 := match fs with Some f => _ | None => _ end).
  assert (E : S1 j = unfrictioned g fs (q j) (db j) j).
  { unfold S1, unfrictioned. destruct fs; apply vec3_eq; unfold vadd; num_R; cbn; ring. }
  destruct (s_bottom_friction p).
  - rewrite friction_loop. apply Nat.ltb_lt in Hj as ->. rewrite E. apply vec3_eq; unfold vsub, vscale; num_R; cbn; ring.
  - rewrite E. apply vec3_eq; unfold vsub; num_R; cbn; ring.
Qed.

Lemma cube_root_pos : forall h, 0 < cube_root h.
Proof. intros h. unfold cube_root, Rpower. apply exp_pos. Qed.
Lemma cube_root_cube : forall h, 0 < h -> cube_root h * cube_root h * cube_root h = h.
Proof.
  intros h Hh. unfold cube_root. rewrite <- !Rpower_plus. replace (1 / 3 + 1 / 3 + 1 / 3) with 1 by field.
  apply Rpower_1, Hh.
Qed.
Lemma friction_coef_nonneg : forall p h, 0 <= s_Cf p -> 0 <= friction_coef p h.
Proof. intros p h H. unfold friction_coef. destruct (s_manning p); [|assumption]. eapply Rle_trans; [exact H | apply Rmax_l]. Qed.
Lemma speed_nonneg : forall q h, 0 < h -> 0 <= speed_over_depth q h.
Proof. intros q h H. apply Rmult_le_pos; [apply sqrt_pos | left; apply Rinv_0_lt_compat, H]. Qed.

Lemma friction_dissipates : forall g p fs ngp q a db j, (j < ngp)%nat -> 0 <= s_Cf p -> 0 < hh (a j) ->
  let s := get_source g p fs ngp q a db j in
  let s0 := unfrictioned g fs (q j) (db j) j in
  ze s = ze s0 /\
  qx (vsub s s0) * qy (q j) = qy (vsub s s0) * qx (q j) /\
  power (vsub s s0) (q j) <= 0 /\
  (qx (q j) = 0 -> qy (q j) = 0 -> s = s0).
Proof.
  intros g p fs ngp q a db j Hj HC Hh s s0. subst s. rewrite source_form by assumption. fold s0. clearbody s0.
  pose proof (friction_coef_nonneg p (hh (a j)) HC) as K1. pose proof (speed_nonneg (q j) (hh (a j)) Hh) as K2.
  pose proof (Rmult_le_pos _ _ K1 K2) as K. set (k := _ * _) in *. clearbody k.
  destruct s0 as [s1 s2 s3]. unfold power.
  destruct (s_bottom_friction p); unfold vsub, vscale; num_R; cbn;
    (split; [ring | split; [ring | split; [nra|]]]); intros E1 E2; rewrite ?E1, ?E2; apply vec3_eq; cbn; ring.
Qed.

Lemma friction_strict : forall g p fs ngp q a db j, (j < ngp)%nat -> s_bottom_friction p = true ->
  0 < s_Cf p -> 0 < hh (a j) -> qx (q j) <> 0 \/ qy (q j) <> 0 ->
  power (vsub (get_source g p fs ngp q a db j) (unfrictioned g fs (q j) (db j) j)) (q j) < 0.
Proof.
  intros g p fs ngp q a db j Hj B HC Hh N. rewrite source_form, B by assumption.
  assert (K1 : 0 < friction_coef p (hh (a j))).
  { unfold friction_coef. destruct (s_manning p); [|assumption]. eapply Rlt_le_trans; [exact HC | apply Rmax_l]. }
  assert (K2 : 0 < speed_over_depth (q j) (hh (a j))).
  { apply Rmult_lt_0_compat; [|apply Rinv_0_lt_compat, Hh]. apply sqrt_lt_R0.
    assert (I : 0 < / hh (a j)) by (apply Rinv_0_lt_compat, Hh). unfold Rdiv.
    assert (forall t, t <> 0 -> 0 < t * / hh (a j) * (t * / hh (a j))).
    { intros t Ht. apply Rsqr_pos_lt. apply Rmult_integral_contrapositive_currified; lra. }
    assert (forall t, 0 <= t * t) by (intros t; apply Rle_0_sqr).
    destruct N as [N|N]; [apply Rplus_lt_le_0_compat | apply Rplus_le_lt_0_compat]; auto. }
  pose proof (Rmult_lt_0_compat _ _ K1 K2) as K. set (k := _ * _) in *. clearbody k.
  unfold power, vsub, vscale; num_R; cbn.
  assert (P : 0 < qx (q j) * qx (q j) + qy (q j) * qy (q j)).
  { assert (forall t, 0 <= t * t) as SQ by (intros t; apply Rle_0_sqr).
    destruct N as [N|N]; [apply Rplus_lt_le_0_compat | apply Rplus_le_lt_0_compat]; auto; apply Rsqr_pos_lt, N. }
  nra.
Qed.

(** ** Witnesses *)
From Coquelicot Require Import Coquelicot.
From Verif Require Import LemmasJac LemmasJac2.

Lemma Rabs_not_derivable : forall l, ~ is_derive Rabs 0 l.
Proof.
  intros l H. apply is_derive_Reals in H. destruct (H (1/2) ltac:(lra)) as [d Hd].
  pose proof (cond_pos d) as Pd.
  pose proof (Hd (d / 2) ltac:(lra) ltac:(rewrite Rabs_pos_eq; lra)) as A.
  pose proof (Hd (- (d / 2)) ltac:(lra) ltac:(rewrite Rabs_Ropp, Rabs_pos_eq; lra)) as B.
  rewrite Rplus_0_l, Rabs_R0, Rminus_0_r in A, B.
  rewrite (Rabs_pos_eq (d / 2)) in A by lra. rewrite (Rabs_Ropp (d / 2)), (Rabs_pos_eq (d / 2)) in B by lra.
  replace (d / 2 / (d / 2)) with 1 in A by (field; lra).
  replace (d / 2 / - (d / 2)) with (-1) in B by (field; lra).
  apply Rabs_def2 in A, B. lra.
Qed.

(** At zero normal velocity the derivative routine returns 0 although tau has no derivative there. *)
Lemma tau_kink_witness : exists g b s n z x y, 0 < g /\ 0 < z + b /\ unit2 n /\
  dtau_dqx_LF (state z x y) (auxil z b s) n = 0 /\
  forall l, ~ is_derive (fun t => tau_LF g (state z t y) (auxil z b s) n) x l.
Proof.
  exists 1, 1, 1, (V2 1 0), 0, 0, 0. split; [lra|]. split; [lra|]. split; [unfold unit2; cbn; ring|]. split.
  - unfold dtau_dqx_LF, nsign. num_R. cbn.
    replace (0 / (0 + 1) * 1 + 0 / (0 + 1) * 0) with 0 by field.
    rewrite !Rltb_false by lra. field.
  - intros l H. apply (Rabs_not_derivable l).
    assert (E : forall t, tau_LF 1 (state 0 t 0) (auxil 0 1 1) (V2 1 0) = sqrt (1 * (0 + 1)) + Rabs t).
    { intros t. rewrite tau_explicit. unfold un_of. cbn. f_equal. f_equal. field. }
    apply (is_derive_ext _ _ _ _ E) in H.
    apply (is_derive_ext (fun t => (sqrt (1 * (0 + 1)) + Rabs t) + - sqrt (1 * (0 + 1)))); [intros t; match goal with |- ?u = ?w => change (@eq R u w) end; ring|].
    eapply der_eq; [apply der_add; [exact H | apply (is_derive_const (- sqrt (1 * (0 + 1))))]|].
    unfold zero; cbn. apply Rplus_0_r.
Qed.

Lemma tau_gravity_witness : exists g gr q a n, 0 < g /\ 0 < hh a /\ unit2 n /\
  tau_LF_gravity g gr q a n <> tau_LF gr q a n.
Proof.
  exists 4, 1, (V3 0 0 0), (Aux 1 1 1), (V2 1 0). split; [lra|]. split; [cbn; lra|]. split; [unfold unit2; cbn; ring|].
  unfold tau_LF_gravity. rewrite !tau_explicit. cbn. rewrite !Rmult_1_r. rewrite sqrt_1.
  replace 4 with (2 * 2) by ring. rewrite sqrt_square by lra. lra.
Qed.

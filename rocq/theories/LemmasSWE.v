From Coq Require Import ZArith List Bool Arith Reals Lra Lia Psatz.
From Verif Require Import Num ModelSWE SpecSWE.
Import ListNotations.
Open Scope R_scope.

(** ** Records *)
Lemma vec3_eq : forall (a b : vec3 R), ze a = ze b -> qx a = qx b -> qy a = qy b -> a = b.
Proof. intros [a1 a2 a3] [b1 b2 b3]; cbn; intros; subst; reflexivity. Qed.

(** ** Loops over Gauss points *)
Lemma upd_same : forall (A : Type) (f : nat -> A) i v, upd f i v i = v.
Proof. intros; unfold upd; now rewrite Nat.eqb_refl. Qed.
Lemma upd_other : forall (A : Type) (f : nat -> A) i j v, j <> i -> upd f i v j = f j.
Proof. intros; unfold upd; destruct (Nat.eqb_spec j i); congruence. Qed.

Definition loop2 {A B : Type} (ngp k : nat) (P : nat -> A -> B -> A * B) (F0 : (nat -> A) * (nat -> B)) :=
  fold_left (fun F gp =>
      let gp_ex := (ngp - gp - 1)%nat in
      let Q := P gp (fst F gp) (snd F gp_ex) in
      (upd (fst F) gp (fst Q), upd (snd F) gp_ex (snd Q))) (seq 0 k) F0.

Lemma loop2_prefix : forall (A B : Type) ngp (P : nat -> A -> B -> A * B) F0 k, (k <= ngp)%nat ->
  (forall j, (j < k)%nat -> fst (loop2 ngp k P F0) j = fst (P j (fst F0 j) (snd F0 (ngp - j - 1)%nat))) /\
  (forall j, (k <= j)%nat -> fst (loop2 ngp k P F0) j = fst F0 j) /\
  (forall j, (j < k)%nat -> snd (loop2 ngp k P F0) (ngp - j - 1)%nat
                            = snd (P j (fst F0 j) (snd F0 (ngp - j - 1)%nat))) /\
  (forall j, (k <= j < ngp)%nat -> snd (loop2 ngp k P F0) (ngp - j - 1)%nat = snd F0 (ngp - j - 1)%nat) /\
  (forall j, (ngp <= j)%nat -> snd (loop2 ngp k P F0) j = snd F0 j).
Proof.
  intros A B ngp P F0 k; induction k as [|k IH]; intros Hk.
  - cbn; repeat split; intros; try lia; reflexivity.
  - destruct (IH ltac:(lia)) as (I1 & I2 & I3 & I4 & I5).
    assert (E : loop2 ngp (S k) P F0 =
      (upd (fst (loop2 ngp k P F0)) k (fst (P k (fst (loop2 ngp k P F0) k) (snd (loop2 ngp k P F0) (ngp - k - 1)%nat))),
       upd (snd (loop2 ngp k P F0)) (ngp - k - 1)%nat (snd (P k (fst (loop2 ngp k P F0) k) (snd (loop2 ngp k P F0) (ngp - k - 1)%nat))))).
    { unfold loop2 at 1; rewrite seq_S, fold_left_app; reflexivity. }
    rewrite E; cbn [fst snd]; clear E.
    rewrite (I2 k ltac:(lia)), (I4 k ltac:(lia)).
    repeat split; intros j Hj.
    + destruct (Nat.eq_dec j k) as [->|Hne].
      * now rewrite upd_same.
      * rewrite upd_other by assumption; apply I1; lia.
    + rewrite upd_other by lia; apply I2; lia.
    + destruct (Nat.eq_dec j k) as [->|Hne].
      * now rewrite upd_same.
      * rewrite upd_other by lia; apply I3; lia.
    + rewrite upd_other by lia; apply I4; lia.
    + rewrite upd_other by lia; apply I5; lia.
Qed.

Lemma loop2_spec : forall (A B : Type) ngp (P : nat -> A -> B -> A * B) F0 j, (j < ngp)%nat ->
  fst (loop2 ngp ngp P F0) j = fst (P j (fst F0 j) (snd F0 (ngp - j - 1)%nat)) /\
  snd (loop2 ngp ngp P F0) (ngp - j - 1)%nat = snd (P j (fst F0 j) (snd F0 (ngp - j - 1)%nat)).
Proof.
  intros A B ngp P F0 j Hj.
  destruct (loop2_prefix A B ngp P F0 ngp (le_n _)) as (I1 & _ & I3 & _).
  split; [apply I1 | apply I3]; assumption.
Qed.

Lemma loop1_spec : forall (A : Type) (P : nat -> A) n F0 j,
  fold_left (fun F gp => upd F gp (P gp)) (seq 0 n) F0 j = if Nat.ltb j n then P j else F0 j.
Proof.
  intros A P n; induction n as [|n IH]; intros F0 j; [reflexivity|].
  rewrite seq_S, fold_left_app; cbn [fold_left].
  destruct (Nat.eq_dec j n) as [->|Hne].
  - rewrite Nat.add_0_l, upd_same. now rewrite (proj2 (Nat.ltb_lt n (S n)) ltac:(lia)).
  - rewrite Nat.add_0_l, upd_other by assumption. rewrite IH.
    destruct (Nat.ltb_spec j n); destruct (Nat.ltb_spec j (S n)); try lia; reflexivity.
Qed.

Lemma internal_flux_loop : forall g wi we ngp q_in q_ex a_in a_ex n_in n_ex (F0 : (nat -> vec3 R) * (nat -> vec3 R)) j,
  (j < ngp)%nat ->
  let F := internal_flux g wi we ngp q_in q_ex a_in a_ex n_in n_ex F0 in
  let k := (ngp - j - 1)%nat in
  (fst F j, snd F k) = internal_point g wi we (q_in j) (q_ex k) (a_in j) (a_ex k) (n_in j) (n_ex k).
Proof.
  intros until j; intros Hj F k.
  pose proof (loop2_spec _ _ ngp (fun gp _ _ =>
     internal_point g wi we (q_in gp) (q_ex (ngp - gp - 1)%nat)
                    (a_in gp) (a_ex (ngp - gp - 1)%nat) (n_in gp) (n_ex (ngp - gp - 1)%nat)) F0 j Hj) as [E1 E2].
  unfold F, k, internal_flux.
  change (fold_left _ _ F0) with (loop2 ngp ngp (fun gp _ _ =>
     internal_point g wi we (q_in gp) (q_ex (ngp - gp - 1)%nat)
                    (a_in gp) (a_ex (ngp - gp - 1)%nat) (n_in gp) (n_ex (ngp - gp - 1)%nat)) F0).
  rewrite E1, E2. symmetry; apply surjective_pairing.
Qed.

(** ** Local Lax-Friedrichs flux *)
Definition lam (g : R) (q_in q_ex : vec3 R) (b s : R) (n : vec2 R) : R :=
  let spc := (nx n * s) * (nx n * s) + ny n * ny n in
  Rmax (Rabs (qx q_in / (ze q_in + b) * nx n + qy q_in / (ze q_in + b) * ny n) + sqrt (g * (ze q_in + b) * spc))
       (Rabs (qx q_ex / (ze q_ex + b) * nx n + qy q_ex / (ze q_ex + b) * ny n) + sqrt (g * (ze q_ex + b) * spc)).

(** The flux in vector form when the spherical factor is one. *)
Lemma LLF_form : forall g q_in q_ex a n, sp a = 1 ->
  LLF_flux g q_in q_ex a n =
  vscale (1/2) (vadd (vadd (physical_flux g q_in (bath a) n) (physical_flux g q_ex (bath a) n))
                     (vscale (lam g q_in q_ex (bath a) 1 n) (vsub q_in q_ex))).
Proof.
  intros g q_in q_ex a n Hs.
  unfold LLF_flux, physical_flux, normal_part, pressure, vscale, vadd, vsub, lam.
  num_R. rewrite Hs.
  apply vec3_eq; cbn [ze qx qy]; unfold Rdiv; ring.
Qed.

Lemma lam_sym : forall g p q b s n, lam g p q b s n = lam g q p b s n.
Proof. intros; unfold lam; apply Rmax_comm. Qed.

Lemma lam_opp : forall g p q b s n m, opposite n m -> lam g p q b s m = lam g p q b s n.
Proof.
  intros g p q b s n m [Hx Hy]; unfold lam; rewrite Hx, Hy.
  replace (- nx n * s * (- nx n * s) + - ny n * - ny n) with (nx n * s * (nx n * s) + ny n * ny n) by ring.
  f_equal; f_equal;
  match goal with |- Rabs ?x = Rabs ?y => replace x with (- y) by ring; apply Rabs_Ropp end.
Qed.

Lemma physical_opp : forall g q b n m, opposite n m -> physical_flux g q b m = vneg (physical_flux g q b n).
Proof.
  intros g q b n m [Hx Hy]; unfold physical_flux, normal_part, vneg; rewrite Hx, Hy.
  num_R. apply vec3_eq; cbn [ze qx qy]; unfold Rdiv; ring.
Qed.

Lemma LLF_antisym : forall g p q a a' n m,
  sp a = 1 -> sp a' = 1 -> bath a' = bath a -> opposite n m ->
  LLF_flux g q p a' m = vneg (LLF_flux g p q a n).
Proof.
  intros g p q a a' n m Hs Hs' Hb Ho.
  rewrite (LLF_form _ _ _ a') by assumption. rewrite (LLF_form _ _ _ a) by assumption.
  rewrite Hb, (lam_opp _ _ _ _ _ _ _ Ho), (lam_sym _ q p), !(physical_opp _ _ _ _ _ Ho).
  unfold vscale, vadd, vsub, vneg; num_R; apply vec3_eq; cbn [ze qx qy]; ring.
Qed.

Lemma LLF_consistent : forall g q a n, sp a = 1 ->
  LLF_flux g q q a n = physical_flux g q (bath a) n.
Proof.
  intros g q a n Hs; rewrite LLF_form by assumption.
  unfold vscale, vadd, vsub; num_R; apply vec3_eq; cbn [ze qx qy]; field.
Qed.

Lemma LLF_lax_friedrichs : forall g p q a n, sp a = 1 -> unit2 n ->
  let s := Rmax (wave_speed g p (bath a) n) (wave_speed g q (bath a) n) in
  let F := LLF_flux g p q a n in
  let Fp := physical_flux g p (bath a) n in
  let Fq := physical_flux g q (bath a) n in
  ze F = (ze Fp + ze Fq) / 2 + s / 2 * (ze p - ze q) /\
  qx F = (qx Fp + qx Fq) / 2 + s / 2 * (qx p - qx q) /\
  qy F = (qy Fp + qy Fq) / 2 + s / 2 * (qy p - qy q).
Proof.
  intros g p q a n Hs Hu s F Fp Fq. unfold F. rewrite LLF_form by assumption. fold Fp Fq.
  assert (E : lam g p q (bath a) 1 n = s).
  { unfold lam, s, wave_speed, normal_part. unfold unit2 in Hu. rewrite !Rmult_1_r, Hu.
    unfold Rdiv. f_equal; f_equal; try (f_equal; ring). }
  rewrite E. unfold vscale, vadd, vsub; num_R; cbn [ze qx qy]. repeat split; field.
Qed.

Lemma LLF_still_water : forall g p q a n, sp a = 1 -> unit2 n -> 0 < g -> 0 < ze p + bath a -> 0 < ze q + bath a ->
  qx p = 0 -> qy p = 0 -> qx q = 0 -> qy q = 0 -> ze q < ze p -> 0 < ze (LLF_flux g p q a n).
Proof.
  intros g p q a n Hs Hu Hg Hp Hq E1 E2 E3 E4 Hz.
  destruct (LLF_lax_friedrichs g p q a n Hs Hu) as [-> _]. cbv zeta.
  unfold physical_flux, normal_part. cbn [ze]. rewrite E1, E2, E3, E4.
  assert (0 < Rmax (wave_speed g p (bath a) n) (wave_speed g q (bath a) n)).
  { eapply Rlt_le_trans; [|apply Rmax_l]. unfold wave_speed. apply Rplus_le_lt_0_compat; [apply Rabs_pos|].
    apply sqrt_lt_R0, Rmult_lt_0_compat; assumption. }
  nra.
Qed.

Lemma get_Fn_physical : forall g q a n, hh a = ze q + bath a -> get_Fn g q a n = physical_flux g q (bath a) n.
Proof.
  intros g q a n H. unfold get_Fn, physical_flux, normal_part, pressure. num_R. rewrite H.
  apply vec3_eq; cbn [ze qx qy]; unfold Rdiv; ring.
Qed.

(** ** Land *)
Lemma land_ex_spec : forall n (q : vec3 R), unit2 n ->
  ze (land_ex n q) = ze q /\
  normal_part (land_ex n q) n = - normal_part q n /\
  tangent_part (land_ex n q) n = tangent_part q n.
Proof.
  intros n q Hu; unfold unit2 in Hu; unfold land_ex, normal_part, tangent_part; num_R; cbn [ze qx qy].
  split; [reflexivity | split].
  - transitivity (- (qx q * nx n + qy q * ny n) * (nx n * nx n + ny n * ny n)); [ring | rewrite Hu; ring].
  - transitivity ((- qx q * ny n + qy q * nx n) * (nx n * nx n + ny n * ny n)); [ring | rewrite Hu; ring].
Qed.

Lemma physical_normal : forall g q b n, unit2 n ->
  normal_part (physical_flux g q b n) n =
  normal_part q n * normal_part q n / (ze q + b) + pressure g (ze q) b.
Proof.
  intros g q b n Hu; unfold unit2 in Hu; unfold physical_flux; cbn [qx qy ze].
  unfold normal_part at 1; cbn [qx qy].
  transitivity (normal_part q n * (qx q * nx n + qy q * ny n) / (ze q + b)
                + pressure g (ze q) b * (nx n * nx n + ny n * ny n)).
  - unfold Rdiv; ring.
  - rewrite Hu; unfold normal_part; ring.
Qed.

Lemma physical_tangent : forall g q b n,
  tangent_part (physical_flux g q b n) n = normal_part q n * tangent_part q n / (ze q + b).
Proof.
  intros g q b n; unfold physical_flux, tangent_part; cbn [qx qy ze]; unfold Rdiv; ring.
Qed.

Lemma land_flux_impermeable : forall g n q a, unit2 n -> sp a = 1 ->
  ze (land_flux g n q a) = 0 /\ tangent_part (land_flux g n q a) n = 0.
Proof.
  intros g n q a Hu Hs. unfold land_flux. rewrite LLF_form by assumption.
  destruct (land_ex_spec n q Hu) as (Ez & En & Et).
  split.
  - unfold vscale, vadd, vsub; num_R; cbn [ze].
    unfold physical_flux; cbn [ze]. rewrite En, Ez. ring.
  - unfold vscale, vadd, vsub; num_R; unfold tangent_part at 1; cbn [qx qy].
    transitivity (1 / 2 * (tangent_part (physical_flux g q (bath a) n) n
                         + tangent_part (physical_flux g (land_ex n q) (bath a) n) n
                         + lam g q (land_ex n q) (bath a) 1 n * (tangent_part q n - tangent_part (land_ex n q) n))).
    + unfold tangent_part; ring.
    + rewrite !physical_tangent, En, Et, Ez. unfold Rdiv; ring.
Qed.

(** The momentum a wall feels is purely normal. *)
Lemma land_flux_normal : forall g n q a, unit2 n -> sp a = 1 ->
  normal_part (land_flux g n q a) n =
  normal_part q n * normal_part q n / (ze q + bath a) + pressure g (ze q) (bath a)
  + lam g q (land_ex n q) (bath a) 1 n * normal_part q n.
Proof.
  intros g n q a Hu Hs. unfold land_flux. rewrite LLF_form by assumption.
  destruct (land_ex_spec n q Hu) as (Ez & En & Et).
  unfold vscale, vadd, vsub; num_R; unfold normal_part at 1; cbn [qx qy].
  transitivity (1 / 2 * (normal_part (physical_flux g q (bath a) n) n
                         + normal_part (physical_flux g (land_ex n q) (bath a) n) n
                         + lam g q (land_ex n q) (bath a) 1 n * (normal_part q n - normal_part (land_ex n q) n))).
  - unfold normal_part; ring.
  - rewrite !(physical_normal _ _ _ _ Hu), En, Ez. unfold Rdiv; lra.
Qed.

(** ** Internal interface *)
Lemma cancel_vneg : forall F, cancel F (vneg F).
Proof. intros F; unfold cancel, vneg; num_R; cbn [ze qx qy]; repeat split; ring. Qed.

Lemma internal_point_mass : forall g wi we q_in q_ex a_in a_ex n_in n_ex,
  unit2 n_in -> unit2 n_ex -> sp a_in = 1 -> sp a_ex = 1 ->
  let P := internal_point g wi we q_in q_ex a_in a_ex n_in n_ex in
  ze (fst P) + ze (snd P) = 0.
Proof.
  intros until n_ex; intros Hi He Si Se P; subst P; unfold internal_point.
  set (F := LLF_flux g q_in q_ex a_in n_in).
  destruct (land_flux_impermeable g n_ex q_ex a_ex He Se) as [Le _].
  destruct (land_flux_impermeable g n_in q_in a_in Hi Si) as [Li _].
  destruct (n1em12 <? ze F)%num; [|destruct (ze F <? - n1em12)%num];
    destruct wi, we; cbn [negb fst snd ze vneg vzero]; rewrite ?Le, ?Li; num_R; ring.
Qed.

Lemma internal_point_wet : forall g q_in q_ex a_in a_ex n_in n_ex,
  let P := internal_point g true true q_in q_ex a_in a_ex n_in n_ex in
  fst P = LLF_flux g q_in q_ex a_in n_in /\ cancel (fst P) (snd P).
Proof.
  intros until n_ex; intros P; subst P; unfold internal_point.
  destruct (n1em12 <? _)%num; [|destruct (_ <? _)%num]; cbn [negb fst snd];
    (split; [reflexivity | apply cancel_vneg]).
Qed.

(** No water leaves a dry element by more than the flux threshold. *)
Lemma internal_point_dry_in : forall g we q_in q_ex a_in a_ex n_in n_ex,
  unit2 n_in -> sp a_in = 1 ->
  ze (fst (internal_point g false we q_in q_ex a_in a_ex n_in n_ex)) <= 1 / 1000000000000.
Proof.
  intros until n_ex; intros Hi Si; unfold internal_point.
  set (F := LLF_flux g q_in q_ex a_in n_in).
  destruct (land_flux_impermeable g n_in q_in a_in Hi Si) as [Li _].
  num_R. destruct (Rltb_spec (1 / 1000000000000) (ze F)) as [H|H];
    [|destruct (Rltb_spec (ze F) (- (1 / 1000000000000))) as [H'|H']];
    destruct we; cbn [negb fst snd ze vneg vzero]; rewrite ?Li; num_R; lra.
Qed.

Lemma internal_point_dry_ex : forall g wi q_in q_ex a_in a_ex n_in n_ex,
  unit2 n_ex -> sp a_ex = 1 ->
  ze (snd (internal_point g wi false q_in q_ex a_in a_ex n_in n_ex)) <= 1 / 1000000000000.
Proof.
  intros until n_ex; intros Hi Si; unfold internal_point.
  set (F := LLF_flux g q_in q_ex a_in n_in).
  destruct (land_flux_impermeable g n_ex q_ex a_ex Hi Si) as [Li _].
  num_R. destruct (Rltb_spec (1 / 1000000000000) (ze F)) as [H|H];
    [|destruct (Rltb_spec (ze F) (- (1 / 1000000000000))) as [H'|H']];
    destruct wi; cbn [negb fst snd ze vneg vzero]; rewrite ?Li; num_R; lra.
Qed.

Theorem internal_flux_mass : forall g wi we ngp q_in q_ex a_in a_ex n_in n_ex F0,
  (forall j, (j < ngp)%nat -> unit2 (n_in j) /\ unit2 (n_ex j) /\ sp (a_in j) = 1 /\ sp (a_ex j) = 1) ->
  let F := internal_flux g wi we ngp q_in q_ex a_in a_ex n_in n_ex F0 in
  forall j, (j < ngp)%nat -> ze (fst F j) + ze (snd F (ngp - 1 - j)%nat) = 0.
Proof.
  intros until F0; intros H F j Hj.
  replace (ngp - 1 - j)%nat with (ngp - j - 1)%nat by lia.
  pose proof (internal_flux_loop g wi we ngp q_in q_ex a_in a_ex n_in n_ex F0 j Hj) as E.
  cbv zeta in E. fold F in E.
  destruct (H j Hj) as (U1 & _ & S1 & _).
  destruct (H (ngp - j - 1)%nat ltac:(lia)) as (_ & U2 & _ & S2).
  pose proof (internal_point_mass g wi we (q_in j) (q_ex (ngp - j - 1)%nat) (a_in j) (a_ex (ngp - j - 1)%nat)
     (n_in j) (n_ex (ngp - j - 1)%nat) U1 U2 S1 S2) as M.
  cbv zeta in M. rewrite <- E in M. exact M.
Qed.

Theorem internal_flux_wet : forall g ngp q_in q_ex a_in a_ex n_in n_ex F0,
  let F := internal_flux g true true ngp q_in q_ex a_in a_ex n_in n_ex F0 in
  forall j, (j < ngp)%nat -> cancel (fst F j) (snd F (ngp - 1 - j)%nat) /\
     fst F j = LLF_flux g (q_in j) (q_ex (ngp - 1 - j)%nat) (a_in j) (n_in j).
Proof.
  intros until F0; intros F j Hj.
  replace (ngp - 1 - j)%nat with (ngp - j - 1)%nat by lia.
  pose proof (internal_flux_loop g true true ngp q_in q_ex a_in a_ex n_in n_ex F0 j Hj) as E.
  cbv zeta in E. fold F in E.
  pose proof (internal_point_wet g (q_in j) (q_ex (ngp - j - 1)%nat) (a_in j) (a_ex (ngp - j - 1)%nat)
     (n_in j) (n_ex (ngp - j - 1)%nat)) as [M1 M2].
  rewrite <- E in M1, M2. split; assumption.
Qed.

(** ** Messages between ranks *)
Lemma flat_map_nth3 : forall (q : nat -> vec3 R) n s gp v, (gp < n)%nat -> (v < 3)%nat ->
  nth (3 * gp + v) (flat_map (fun gp => [ze (q gp); qx (q gp); qy (q gp)]) (seq s n)) 0 =
  nth v [ze (q (s + gp)%nat); qx (q (s + gp)%nat); qy (q (s + gp)%nat)] 0.
Proof.
  intros q n; induction n as [|n IH]; intros s gp v Hg Hv; [lia|].
  cbn [seq flat_map]. destruct gp as [|gp].
  - rewrite Nat.add_0_r. replace (3 * 0 + v)%nat with v by lia.
    rewrite app_nth1 by (cbn; lia). reflexivity.
  - rewrite app_nth2 by (cbn; lia).
    replace (3 * S gp + v - length [ze (q s); qx (q s); qy (q s)])%nat with (3 * gp + v)%nat by (cbn; lia).
    rewrite IH by lia. replace (S s + gp)%nat with (s + S gp)%nat by lia. reflexivity.
Qed.

Lemma decode_wet_message : forall w ngp (q : nat -> vec3 R), decode_wet (bound_message w ngp q) = w.
Proof.
  intros [] ngp q; unfold decode_wet, bound_message, to_bool; cbn [nth]; num_R.
  - rewrite Rleb_false by lra; reflexivity.
  - rewrite Rleb_true by lra; reflexivity.
Qed.

Lemma decode_q_message : forall w ngp (q : nat -> vec3 R) j, (j < ngp)%nat ->
  decode_q_ex ngp (bound_message w ngp q) j = q (ngp - 1 - j)%nat.
Proof.
  intros w ngp q j Hj. unfold decode_q_ex.
  set (P := fun gp => V3 (nth (1 + 3 * gp) (bound_message w ngp q) (nofZ 0%Z))
                         (nth (1 + 3 * gp + 1) (bound_message w ngp q) (nofZ 0%Z))
                         (nth (1 + 3 * gp + 2) (bound_message w ngp q) (nofZ 0%Z))).
  pose proof (loop2_spec unit (vec3 R) ngp (fun gp _ _ => (tt, P gp)) (fun _ => tt, fun _ => vzero)
                (ngp - 1 - j)%nat ltac:(lia)) as [_ E].
  replace (ngp - (ngp - 1 - j) - 1)%nat with j in E by lia.
  assert (G : forall l F (u : nat -> unit),
     snd (fold_left (fun F gp =>
      let gp_ex := (ngp - gp - 1)%nat in
      let Q := (fun gp _ _ => (tt, P gp)) gp (fst F gp) (snd F gp_ex) in
      (upd (fst F) gp (fst Q), upd (snd F) gp_ex (snd Q))) l (u, F))
     = fold_left (fun q gp => upd q (ngp - gp - 1)%nat (P gp)) l F).
  { induction l as [|x l IH]; intros F u; [reflexivity|]. cbn [fold_left]. apply IH. }
  unfold loop2 in E. rewrite G in E. etransitivity; [exact E|]. cbn [snd].
  unfold P. set (m := (ngp - 1 - j)%nat).
  unfold bound_message.
  replace (1 + 3 * m + 1)%nat with (S (3 * m + 1)) by lia.
  replace (1 + 3 * m + 2)%nat with (S (3 * m + 2)) by lia.
  replace (1 + 3 * m)%nat with (S (3 * m + 0)) by lia.
  cbn [nth]. change (nofZ 0%Z) with 0.
  rewrite !flat_map_nth3 by lia. cbn [nth Nat.add].
  now destruct (q m).
Qed.

Lemma distributed_point_in : forall g wi we q_in q_ex a_in a_ex n_in n_ex,
  distributed_point g wi we q_in q_ex a_in n_in =
  fst (internal_point g wi we q_in q_ex a_in a_ex n_in n_ex).
Proof.
  intros; unfold distributed_point, internal_point.
  destruct (n1em12 <? _)%num; [|destruct (_ <? - n1em12)%num];
    destruct wi, we; cbn [negb fst]; try reflexivity.
  apply vec3_eq; cbn [ze qx qy vneg]; num_R; ring.
Qed.

Lemma distributed_point_ex : forall g wi we q_in q_ex a_in a_ex n_in n_ex,
  sp a_in = 1 -> sp a_ex = 1 -> bath a_ex = bath a_in -> opposite n_in n_ex ->
  distributed_point g we wi q_ex q_in a_ex n_ex =
  snd (internal_point g wi we q_in q_ex a_in a_ex n_in n_ex).
Proof.
  intros until n_ex; intros Si Se Hb Ho.
  unfold distributed_point, internal_point.
  rewrite (LLF_antisym g q_in q_ex a_in a_ex n_in n_ex Si Se Hb Ho).
  set (F := LLF_flux g q_in q_ex a_in n_in).
  change (ze (vneg F)) with (- ze F). num_R.
  destruct (Rltb_spec (1 / 1000000000000) (- ze F)) as [A|A];
  destruct (Rltb_spec (- ze F) (- (1 / 1000000000000))) as [B|B];
  destruct (Rltb_spec (1 / 1000000000000) (ze F)) as [C|C];
  destruct (Rltb_spec (ze F) (- (1 / 1000000000000))) as [D|D]; try lra;
  destruct wi, we; cbn [negb snd]; reflexivity.
Qed.

Theorem distributed_is_internal : forall g wi we ngp q_in q_ex a_in a_ex n_in n_ex F0 G0 H0,
  (forall j, (j < ngp)%nat -> sp (a_in j) = 1 /\ sp (a_ex j) = 1 /\
      bath (a_ex (ngp - 1 - j)%nat) = bath (a_in j) /\ opposite (n_in j) (n_ex (ngp - 1 - j)%nat)) ->
  let F := internal_flux g wi we ngp q_in q_ex a_in a_ex n_in n_ex F0 in
  (forall j, (j < ngp)%nat ->
     distributed_flux g wi ngp (bound_message we ngp q_ex) q_in a_in n_in G0 j = fst F j) /\
  (forall j, (j < ngp)%nat ->
     distributed_flux g we ngp (bound_message wi ngp q_in) q_ex a_ex n_ex H0 j = snd F j).
Proof.
  intros until H0; intros H F.
  assert (Pt : forall j, (j < ngp)%nat -> (fst F j, snd F (ngp - j - 1)%nat) =
     internal_point g wi we (q_in j) (q_ex (ngp - j - 1)%nat) (a_in j) (a_ex (ngp - j - 1)%nat) (n_in j) (n_ex (ngp - j - 1)%nat)).
  { intros j Hj; apply (internal_flux_loop g wi we ngp q_in q_ex a_in a_ex n_in n_ex F0 j Hj). }
  split; intros j Hj; unfold distributed_flux; rewrite loop1_spec, decode_wet_message;
    rewrite (proj2 (Nat.ltb_lt _ _) Hj), decode_q_message by assumption.
  - rewrite (distributed_point_in g wi we (q_in j) (q_ex (ngp - 1 - j)%nat) (a_in j)
              (a_ex (ngp - j - 1)%nat) (n_in j) (n_ex (ngp - j - 1)%nat)).
    replace (ngp - 1 - j)%nat with (ngp - j - 1)%nat by lia.
    rewrite <- (Pt j Hj); reflexivity.
  - set (i := (ngp - 1 - j)%nat).
    assert (Hi : (i < ngp)%nat) by (unfold i; lia).
    assert (Ej : j = (ngp - i - 1)%nat) by (unfold i; lia).
    destruct (H i Hi) as (Si & _ & Hb & Ho). destruct (H j Hj) as (_ & Se & _).
    replace (ngp - 1 - i)%nat with j in Hb, Ho by lia.
    rewrite (distributed_point_ex g wi we (q_in i) (q_ex j) (a_in i) (a_ex j) (n_in i) (n_ex j) Si Se Hb Ho).
    specialize (Pt i Hi). rewrite <- Ej in Pt. rewrite <- Pt. reflexivity.
Qed.

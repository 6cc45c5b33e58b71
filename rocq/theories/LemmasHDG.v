(** Explicit HDG interface fluxes and levees. *)
From Coq Require Import ZArith List Bool Arith Reals Lra Lia Psatz.
From Verif Require Import Num ModelSWE SpecSWE LemmasSWE.
Import ListNotations.
Open Scope R_scope.

Section Stab.
  Variables (ngp : nat) (tau : nat -> R) (q_in q_ex q_hat : nat -> vec3 R) (Fin0 Fex0 : nat -> vec3 R).
  Hypothesis avg : forall j, (j < ngp)%nat -> q_hat j = ehdg_qhat (q_in j) (q_ex (ngp - j - 1)%nat).

  Let fin (j : nat) : vec3 R := vadd (Fin0 j) (vscale (tau j) (vsub (q_in j) (q_hat j))).

  Lemma fin_ex : forall j, (j < ngp)%nat ->
    vadd (vneg (Fin0 j)) (vscale (tau j) (vsub (q_ex (ngp - j - 1)%nat) (q_hat j))) = vneg (fin j).
  Proof.
    intros j Hj. unfold fin. rewrite (avg j Hj).
    unfold vadd, vneg, vscale, vsub, ehdg_qhat; num_R; apply vec3_eq; cbn [ze qx qy]; field.
  Qed.

  Definition stab_k (k : nat) :=
    fold_left (fun F gp =>
      let gp_ex := (ngp - gp - 1)%nat in
      let Fex1 := upd (snd F) gp (vneg (fst F gp_ex)) in
      let Fin1 := upd (fst F) gp
                    (vadd (fst F gp) (vscale (tau gp) (vsub (q_in gp) (q_hat gp)))) in
      let Fex2 := upd Fex1 gp_ex
                    (vadd (Fex1 gp_ex) (vscale (tau gp) (vsub (q_ex gp_ex) (q_hat gp)))) in
      (Fin1, Fex2))
      (seq 0 k) (Fin0, Fex0).

  Lemma stab_inv : forall k, (k <= ngp)%nat ->
    (forall j, fst (stab_k k) j = if Nat.ltb j k then fin j else Fin0 j) /\
    (forall j, (j < k)%nat ->
       snd (stab_k k) j = if Nat.ltb (ngp - j - 1) k then vneg (fin (ngp - j - 1)%nat)
                          else vneg (Fin0 (ngp - j - 1)%nat)).
  Proof.
    induction k as [|k IH]; intros Hk.
    - split; [reflexivity | intros; lia].
    - destruct (IH ltac:(lia)) as [I1 I2].
      assert (E : stab_k (S k) =
        (upd (fst (stab_k k)) k (vadd (fst (stab_k k) k) (vscale (tau k) (vsub (q_in k) (q_hat k)))),
         upd (upd (snd (stab_k k)) k (vneg (fst (stab_k k) (ngp - k - 1)%nat))) (ngp - k - 1)%nat
           (vadd (upd (snd (stab_k k)) k (vneg (fst (stab_k k) (ngp - k - 1)%nat)) (ngp - k - 1)%nat)
                 (vscale (tau k) (vsub (q_ex (ngp - k - 1)%nat) (q_hat k)))))).
      { unfold stab_k at 1; rewrite seq_S, fold_left_app; reflexivity. }
      rewrite E; clear E; cbn [fst snd]; split; intros j.
      + destruct (Nat.eq_dec j k) as [->|Hne].
        * rewrite upd_same, I1.
          destruct (Nat.ltb_spec k k); destruct (Nat.ltb_spec k (S k)); try lia. reflexivity.
        * rewrite upd_other by assumption. rewrite I1.
          destruct (Nat.ltb_spec j k); destruct (Nat.ltb_spec j (S k)); try lia; reflexivity.
      + intros Hj.
        destruct (Nat.eq_dec j (ngp - k - 1)) as [Ej|Nj].
        * subst j. rewrite upd_same.
          replace (ngp - (ngp - k - 1) - 1)%nat with k by lia.
          destruct (Nat.ltb_spec k (S k)); try lia.
          rewrite <- (fin_ex k ltac:(lia)). f_equal.
          destruct (Nat.eq_dec (ngp - k - 1) k) as [Em|Nm].
          -- rewrite Em, upd_same, I1. destruct (Nat.ltb_spec k k); try lia. reflexivity.
          -- rewrite upd_other by assumption. rewrite I2 by lia.
             replace (ngp - (ngp - k - 1) - 1)%nat with k by lia.
             destruct (Nat.ltb_spec k k); try lia. reflexivity.
        * rewrite upd_other by assumption.
          destruct (Nat.eq_dec j k) as [->|Nk].
          -- rewrite upd_same, I1.
             destruct (Nat.ltb_spec (ngp - k - 1) k); destruct (Nat.ltb_spec (ngp - k - 1) (S k)); try lia; reflexivity.
          -- rewrite upd_other by assumption. rewrite I2 by lia.
             destruct (Nat.ltb_spec (ngp - j - 1) k); destruct (Nat.ltb_spec (ngp - j - 1) (S k)); try lia; reflexivity.
  Qed.

  Lemma stab_spec : forall j, (j < ngp)%nat ->
    fst (ehdg_stab_loop ngp tau q_in q_ex q_hat (Fin0, Fex0)) j = fin j /\
    snd (ehdg_stab_loop ngp tau q_in q_ex q_hat (Fin0, Fex0)) (ngp - j - 1)%nat = vneg (fin j).
  Proof.
    intros j Hj. destruct (stab_inv ngp (le_n _)) as [I1 I2].
    change (ehdg_stab_loop ngp tau q_in q_ex q_hat (Fin0, Fex0)) with (stab_k ngp).
    rewrite I1, I2 by lia. replace (ngp - (ngp - j - 1) - 1)%nat with j by lia.
    destruct (Nat.ltb_spec j ngp); try lia. split; reflexivity.
  Qed.
End Stab.

(** Stabilised flux at one Gauss point, seen from the IN side. *)
Definition ehdg_base (g : R) (q_in q_ex : vec3 R) (a0 : aux3 R) (n : vec2 R) : vec3 R :=
  let q_hat := ehdg_qhat q_in q_ex in
  let a_hat := ehdg_ahat q_hat a0 in
  vadd (get_Fn g q_hat a_hat n) (vscale (tau_LF g q_hat a_hat n) (vsub q_in q_hat)).

Lemma ehdg_internal_point : forall g wi we ngp q_in q_ex a0 n_in n_ex F0 j,
  wi || we = true -> (j < ngp)%nat ->
  let F := ehdg_internal_flux g wi we ngp q_in q_ex a0 n_in n_ex F0 in
  let k := (ngp - j - 1)%nat in
  let q_hat := ehdg_qhat (q_in j) (q_ex k) in
  let B := ehdg_base g (q_in j) (q_ex k) (a0 j) (n_in j) in
  (fst F j, snd F k) =
  ehdg_wd_point g wi we (q_in j) (q_ex k) q_hat (ehdg_ahat q_hat (a0 j)) (n_in j) (n_ex k) B (vneg B).
Proof.
  intros until j; intros Hw Hj F k q_hat B.
  unfold F, ehdg_internal_flux. rewrite Hw.
  match goal with |- context [fold_left _ _ ?F1] => set (F1' := F1) end.
  set (P := fun gp a b => ehdg_wd_point g wi we (q_in gp) (q_ex (ngp - gp - 1)%nat)
     (ehdg_qhat (q_in gp) (q_ex (ngp - gp - 1)%nat))
     (ehdg_ahat (ehdg_qhat (q_in gp) (q_ex (ngp - gp - 1)%nat)) (a0 gp)) (n_in gp) (n_ex (ngp - gp - 1)%nat) a b).
  change (fold_left _ _ F1') with (loop2 ngp ngp P F1').
  destruct (loop2_spec _ _ ngp P F1' j Hj) as [E1 E2]. unfold k. rewrite E1, E2.
  unfold F1'.
  match goal with |- context [ehdg_stab_loop ngp ?t q_in q_ex ?qh (?f1, ?f2)] =>
    destruct (stab_spec ngp t q_in q_ex qh f1 f2 ltac:(intros; reflexivity) j Hj) as [S1 S2] end.
  rewrite S1, S2. cbv beta.
  rewrite (proj2 (Nat.ltb_lt _ _) Hj).
  unfold P, B, ehdg_base, q_hat, k. symmetry; apply surjective_pairing.
Qed.

Lemma ehdg_land_trace_spec : forall n (q : vec3 R), unit2 n ->
  ze (ehdg_land_trace n q) = ze q /\ normal_part (ehdg_land_trace n q) n = 0 /\
  tangent_part (ehdg_land_trace n q) n = tangent_part q n.
Proof.
  intros n q Hu; unfold unit2 in Hu; unfold ehdg_land_trace, normal_part, tangent_part; num_R; cbn [ze qx qy].
  split; [reflexivity | split].
  - transitivity ((qx q * nx n + qy q * ny n) * (1 - (nx n * nx n + ny n * ny n))); [ring | rewrite Hu; ring].
  - ring.
Qed.

Lemma get_Fn_tangent : forall g q a n,
  ze (get_Fn g q a n) = normal_part q n /\
  tangent_part (get_Fn g q a n) n = normal_part q n * tangent_part q n / hh a.
Proof.
  intros g q a n; unfold get_Fn, tangent_part, normal_part; num_R; cbn [ze qx qy]; split.
  - reflexivity.
  - unfold Rdiv; ring.
Qed.

Lemma ehdg_land_gen : forall g n q a t, unit2 n ->
  let F := vadd (get_Fn g (ehdg_land_trace n q) a n) (vscale t (vsub q (ehdg_land_trace n q))) in
  ze F = 0 /\ tangent_part F n = 0.
Proof.
  intros g n q a t Hu F.
  destruct (ehdg_land_trace_spec n q Hu) as (Ez & En & Et).
  destruct (get_Fn_tangent g (ehdg_land_trace n q) a n) as (Fz & Ft).
  split; unfold F, vadd, vscale, vsub; num_R.
  - cbn [ze]. rewrite Fz, En, Ez. ring.
  - unfold tangent_part at 1; cbn [qx qy].
    transitivity (tangent_part (get_Fn g (ehdg_land_trace n q) a n) n
       + t * (tangent_part q n - tangent_part (ehdg_land_trace n q) n)).
    + unfold tangent_part; ring.
    + rewrite Ft, En, Et. unfold Rdiv; ring.
Qed.

Lemma ehdg_wd_mass : forall g wi we q_in q_ex q_hat a_hat n_in n_ex F, unit2 n_in -> unit2 n_ex ->
  let P := ehdg_wd_point g wi we q_in q_ex q_hat a_hat n_in n_ex F (vneg F) in
  ze (fst P) + ze (snd P) = 0.
Proof.
  intros until F; intros Hi He P; subst P; unfold ehdg_wd_point.
  destruct (ehdg_land_gen g n_ex q_ex a_hat (tau_LF g (ehdg_land_trace n_ex q_ex) a_hat n_ex) He) as [Le _].
  destruct (ehdg_land_gen g n_in q_in a_hat (tau_LF g (ehdg_land_trace n_in q_in) a_hat n_in) Hi) as [Li _].
  destruct (n1em12 <? _)%num; [|destruct (_ <? - n1em12)%num];
    destruct wi, we; cbn [negb fst snd]; unfold ehdg_land_point, tau_LF_gravity;
    rewrite ?Le, ?Li; cbn [ze vneg vzero]; num_R; ring.
Qed.

Theorem ehdg_internal_mass : forall g wi we ngp q_in q_ex a0 n_in n_ex F0,
  wi || we = true ->
  (forall j, (j < ngp)%nat -> unit2 (n_in j) /\ unit2 (n_ex j)) ->
  let F := ehdg_internal_flux g wi we ngp q_in q_ex a0 n_in n_ex F0 in
  forall j, (j < ngp)%nat -> ze (fst F j) + ze (snd F (ngp - 1 - j)%nat) = 0.
Proof.
  intros until F0; intros Hw H F j Hj.
  replace (ngp - 1 - j)%nat with (ngp - j - 1)%nat by lia.
  pose proof (ehdg_internal_point g wi we ngp q_in q_ex a0 n_in n_ex F0 j Hw Hj) as E.
  cbv zeta in E. fold F in E.
  destruct (H j Hj) as (U1 & _). destruct (H (ngp - j - 1)%nat ltac:(lia)) as (_ & U2).
  set (B := ehdg_base g (q_in j) (q_ex (ngp - j - 1)%nat) (a0 j) (n_in j)) in *.
  pose proof (ehdg_wd_mass g wi we (q_in j) (q_ex (ngp - j - 1)%nat) (ehdg_qhat (q_in j) (q_ex (ngp - j - 1)%nat))
    (ehdg_ahat (ehdg_qhat (q_in j) (q_ex (ngp - j - 1)%nat)) (a0 j)) (n_in j) (n_ex (ngp - j - 1)%nat) B U1 U2) as M.
  cbv zeta in M. rewrite <- E in M. exact M.
Qed.

Theorem ehdg_internal_wet : forall g ngp q_in q_ex a0 n_in n_ex F0,
  let F := ehdg_internal_flux g true true ngp q_in q_ex a0 n_in n_ex F0 in
  forall j, (j < ngp)%nat ->
    cancel (fst F j) (snd F (ngp - 1 - j)%nat) /\
    fst F j = ehdg_base g (q_in j) (q_ex (ngp - 1 - j)%nat) (a0 j) (n_in j).
Proof.
  intros until F0; intros F j Hj.
  replace (ngp - 1 - j)%nat with (ngp - j - 1)%nat by lia.
  pose proof (ehdg_internal_point g true true ngp q_in q_ex a0 n_in n_ex F0 j eq_refl Hj) as E.
  cbv zeta in E. fold F in E. revert E.
  unfold ehdg_wd_point at 1.
  destruct (n1em12 <? _)%num; [|destruct (_ <? - n1em12)%num]; cbn [negb];
    intros E; injection E as E1 E2; rewrite E1, E2; (split; [apply cancel_vneg | reflexivity]).
Qed.

(** ** Distributed EHDG faces *)
Lemma get_Fn_opp : forall g q a n m, opposite n m -> get_Fn g q a m = vneg (get_Fn g q a n).
Proof.
  intros g q a n m [Hx Hy]; unfold get_Fn, vneg; rewrite Hx, Hy; num_R; apply vec3_eq; cbn [ze qx qy]; unfold Rdiv; ring.
Qed.
Lemma tau_LF_opp : forall g q a n m, opposite n m -> tau_LF g q a m = tau_LF g q a n.
Proof.
  intros g q a n m [Hx Hy]; unfold tau_LF; rewrite Hx, Hy; num_R; f_equal.
  match goal with |- Rabs ?x = Rabs ?y => replace x with (- y) by ring; apply Rabs_Ropp end.
Qed.
Lemma ehdg_qhat_sym : forall p q : vec3 R, ehdg_qhat p q = ehdg_qhat q p.
Proof. intros; unfold ehdg_qhat; num_R; apply vec3_eq; cbn [ze qx qy]; field. Qed.

Lemma ehdg_base_opp : forall g p q a n m, opposite n m ->
  ehdg_base g q p a m = vneg (ehdg_base g p q a n).
Proof.
  intros g p q a n m Ho. unfold ehdg_base. rewrite (ehdg_qhat_sym q p).
  rewrite (get_Fn_opp _ _ _ _ _ Ho), (tau_LF_opp _ _ _ _ _ Ho).
  unfold vadd, vneg, vscale, vsub; num_R.
  apply vec3_eq; cbn [ze qx qy]; unfold ehdg_qhat; num_R; cbn [ze qx qy]; field.
Qed.

Lemma ehdg_dist_in : forall g wi we p q a n m,
  ehdg_distributed_point g wi we p q a n =
  fst (ehdg_wd_point g wi we p q (ehdg_qhat p q) (ehdg_ahat (ehdg_qhat p q) a) n m
        (ehdg_base g p q a n) (vneg (ehdg_base g p q a n))).
Proof.
  intros. unfold ehdg_distributed_point. fold (ehdg_base g p q a n). unfold ehdg_wd_point.
  destruct (n1em12 <? _)%num; [|destruct (_ <? - n1em12)%num];
    destruct wi, we; cbn [negb fst]; try reflexivity.
  apply vec3_eq; cbn [ze qx qy vneg]; num_R; ring.
Qed.

Lemma ehdg_dist_ex : forall g wi we p q a n m, opposite n m ->
  ehdg_distributed_point g we wi q p a m =
  snd (ehdg_wd_point g wi we p q (ehdg_qhat p q) (ehdg_ahat (ehdg_qhat p q) a) n m
        (ehdg_base g p q a n) (vneg (ehdg_base g p q a n))).
Proof.
  intros g wi we p q a n m Ho. unfold ehdg_distributed_point. fold (ehdg_base g q p a m).
  rewrite (ehdg_base_opp g p q a n m Ho). rewrite (ehdg_qhat_sym q p). unfold ehdg_wd_point.
  set (B := ehdg_base g p q a n). change (ze (vneg B)) with (- ze B). num_R.
  destruct (Rltb_spec (1 / 1000000000000) (- ze B)) as [A|A];
  destruct (Rltb_spec (- ze B) (- (1 / 1000000000000))) as [C|C];
  destruct (Rltb_spec (1 / 1000000000000) (ze B)) as [D|D];
  destruct (Rltb_spec (ze B) (- (1 / 1000000000000))) as [E|E]; try lra;
  destruct wi, we; cbn [negb snd]; reflexivity.
Qed.

Theorem ehdg_distributed_is_internal : forall g wi we ngp q_in q_ex a_in a_ex n_in n_ex F0,
  wi || we = true ->
  (forall j, (j < ngp)%nat -> a_ex (ngp - 1 - j)%nat = a_in j /\ opposite (n_in j) (n_ex (ngp - 1 - j)%nat)) ->
  let F := ehdg_internal_flux g wi we ngp q_in q_ex a_in n_in n_ex F0 in
  forall j, (j < ngp)%nat -> let k := (ngp - 1 - j)%nat in
     ehdg_distributed_point g wi we (q_in j) (q_ex k) (a_in j) (n_in j) = fst F j /\
     ehdg_distributed_point g we wi (q_ex k) (q_in j) (a_ex k) (n_ex k) = snd F k.
Proof.
  intros until F0; intros Hw H F j Hj k.
  destruct (H j Hj) as [Ea Ho]. fold k in Ea, Ho.
  pose proof (ehdg_internal_point g wi we ngp q_in q_ex a_in n_in n_ex F0 j Hw Hj) as E.
  cbv zeta in E. fold F in E. replace (ngp - j - 1)%nat with k in E by (unfold k; lia).
  rewrite Ea.
  rewrite (ehdg_dist_in g wi we (q_in j) (q_ex k) (a_in j) (n_in j) (n_ex k)).
  rewrite (ehdg_dist_ex g wi we (q_in j) (q_ex k) (a_in j) (n_in j) (n_ex k) Ho).
  rewrite <- E; split; reflexivity.
Qed.

(** ** Levees *)
Lemma LLF_mass_same_ze : forall g q p a n, sp a = 1 -> ze p = ze q ->
  ze (LLF_flux g q p a n) = (normal_part q n + normal_part p n) / 2.
Proof.
  intros g q p a n Hs Hz. rewrite LLF_form by assumption.
  unfold vscale, vadd, vsub, physical_flux; num_R; cbn [ze]. rewrite Hz. field.
Qed.

Lemma normal_part_opp : forall q n m, opposite n m -> normal_part q m = - normal_part q n.
Proof. intros q n m [Hx Hy]; unfold normal_part; rewrite Hx, Hy; ring. Qed.

Lemma weir_nonneg : forall g cs cp hi lo, 0 <= cs -> 0 <= cp -> 0 <= hi -> 0 <= weir g cs cp hi lo.
Proof.
  intros g cs cp hi lo Hs Hp Hh; unfold weir; num_R.
  destruct (Rltb_spec (2 * hi / 3) lo) as [H|H].
  - apply Rmult_le_pos; [apply Rmult_le_pos; lra | apply sqrt_pos].
  - apply Rmult_le_pos; [apply Rmult_le_pos; lra | apply sqrt_pos].
Qed.


Lemma levee_branch_closed : forall hi he : R, levee_closed hi he ->
  (((hi <=? levee_tol) && (he <=? levee_tol)) || (nabs (hi - he) <=? levee_tol))%num = true.
Proof.
  intros hi he H; unfold levee_tol; num_R. destruct H as [[A B]|C].
  - rewrite !Rleb_true by lra. reflexivity.
  - rewrite (Rleb_true (Rabs (hi - he))) by lra. apply orb_true_r.
Qed.
Lemma levee_branch_open : forall hi he : R, ~ levee_closed hi he ->
  (((hi <=? levee_tol) && (he <=? levee_tol)) || (nabs (hi - he) <=? levee_tol))%num = false.
Proof.
  intros hi he H; unfold levee_tol; num_R. apply orb_false_iff; split.
  - apply andb_false_iff.
    destruct (Rleb_spec hi (1/100)); [|left; reflexivity].
    destruct (Rleb_spec he (1/100)); [|right; reflexivity].
    exfalso; apply H; left; split; assumption.
  - apply Rleb_false. destruct (Rlt_dec (1/100) (Rabs (hi - he))); [assumption|].
    exfalso; apply H; right; lra.
Qed.

Lemma levee_closed_fluxes : forall g Hl cs cp wi we q_in q_ex a_in a_ex n_in n_ex,
  levee_closed (ze q_in - Hl) (ze q_ex - Hl) ->
  levee_point g Hl cs cp wi we q_in q_ex a_in a_ex n_in n_ex
  = (land_flux g n_in q_in a_in, land_flux g n_ex q_ex a_ex).
Proof.
  intros until n_ex; intros H; unfold levee_point.
  change (nsub (ze q_in) Hl) with (ze q_in - Hl); change (nsub (ze q_ex) Hl) with (ze q_ex - Hl).
  rewrite (levee_branch_closed _ _ H). reflexivity.
Qed.

Lemma levee_in_to_ex : forall g Hl cs cp wi we q_in q_ex a_in a_ex n_in n_ex,
  unit2 n_in -> opposite n_in n_ex -> sp a_in = 1 -> sp a_ex = 1 ->
  ~ levee_closed (ze q_in - Hl) (ze q_ex - Hl) -> ze q_ex < ze q_in ->
  let P := levee_point g Hl cs cp wi we q_in q_ex a_in a_ex n_in n_ex in
  let Q := weir g cs cp (ze q_in - Hl) (ze q_ex - Hl) in
  ze (fst P) = (normal_part q_in n_in + Q) / 2 /\
  ze (snd P) = (normal_part q_ex n_ex - Q) / 2.
Proof.
  intros until n_ex; intros Hu Ho Si Se Hc Hlt; unfold levee_point.
  change (nsub (ze q_in) Hl) with (ze q_in - Hl); change (nsub (ze q_ex) Hl) with (ze q_ex - Hl).
  rewrite (levee_branch_open _ _ Hc).
  replace (nltb (ze q_ex - Hl) (ze q_in - Hl)) with true
    by (symmetry; apply Rltb_true; lra).
  cbv zeta. set (Q := weir g cs cp (ze q_in - Hl) (ze q_ex - Hl)).
  cbn [fst snd]. destruct Ho as [Hx Hy]. unfold unit2 in Hu. num_R.
  rewrite !LLF_mass_same_ze by (assumption || reflexivity).
  unfold normal_part; cbn [qx qy]; rewrite Hx, Hy. split.
  - transitivity ((qx q_in * nx n_in + qy q_in * ny n_in + Q * (nx n_in * nx n_in + ny n_in * ny n_in)) / 2);
      [unfold Rdiv; ring | rewrite Hu; unfold Rdiv; ring].
  - transitivity ((qx q_ex * - nx n_in + qy q_ex * - ny n_in - Q * (nx n_in * nx n_in + ny n_in * ny n_in)) / 2);
      [unfold Rdiv; ring | rewrite Hu; unfold Rdiv; ring].
Qed.

Lemma levee_ex_to_in : forall g Hl cs cp wi we q_in q_ex a_in a_ex n_in n_ex,
  unit2 n_in -> opposite n_in n_ex -> sp a_in = 1 -> sp a_ex = 1 ->
  ~ levee_closed (ze q_in - Hl) (ze q_ex - Hl) -> ze q_in < ze q_ex ->
  let P := levee_point g Hl cs cp wi we q_in q_ex a_in a_ex n_in n_ex in
  let Q := weir g cs cp (ze q_ex - Hl) (ze q_in - Hl) in
  ze (fst P) = (normal_part q_in n_in - Q) / 2 /\
  ze (snd P) = (normal_part q_ex n_ex + Q) / 2.
Proof.
  intros until n_ex; intros Hu Ho Si Se Hc Hlt; unfold levee_point.
  change (nsub (ze q_in) Hl) with (ze q_in - Hl); change (nsub (ze q_ex) Hl) with (ze q_ex - Hl).
  rewrite (levee_branch_open _ _ Hc).
  replace (nltb (ze q_ex - Hl) (ze q_in - Hl)) with false
    by (symmetry; apply Rltb_false; lra).
  cbv zeta. set (Q := weir g cs cp (ze q_ex - Hl) (ze q_in - Hl)).
  cbn [fst snd]. destruct Ho as [Hx Hy]. unfold unit2 in Hu. num_R.
  rewrite !LLF_mass_same_ze by (assumption || reflexivity).
  unfold normal_part; cbn [qx qy]; rewrite Hx, Hy. split.
  - transitivity ((qx q_in * nx n_in + qy q_in * ny n_in - Q * (nx n_in * nx n_in + ny n_in * ny n_in)) / 2);
      [unfold Rdiv; ring | rewrite Hu; unfold Rdiv; ring].
  - transitivity ((qx q_ex * - nx n_in + qy q_ex * - ny n_in + Q * (nx n_in * nx n_in + ny n_in * ny n_in)) / 2);
      [unfold Rdiv; ring | rewrite Hu; unfold Rdiv; ring].
Qed.

(** Exact mass defect of a levee: half the sum of the two outward interior
    discharges when it is overtopped, zero when it is closed. *)
Lemma levee_defect : forall g Hl cs cp wi we q_in q_ex a_in a_ex n_in n_ex,
  unit2 n_in -> opposite n_in n_ex -> sp a_in = 1 -> sp a_ex = 1 ->
  ~ levee_closed (ze q_in - Hl) (ze q_ex - Hl) ->
  let P := levee_point g Hl cs cp wi we q_in q_ex a_in a_ex n_in n_ex in
  ze (fst P) + ze (snd P) = (normal_part q_in n_in + normal_part q_ex n_ex) / 2.
Proof.
  intros until n_ex; intros Hu Ho Si Se Hc P.
  destruct (Rtotal_order (ze q_in) (ze q_ex)) as [H|[H|H]].
  - destruct (levee_ex_to_in g Hl cs cp wi we _ _ _ _ _ _ Hu Ho Si Se Hc H) as [A B].
    fold P in A, B. rewrite A, B. field.
  - exfalso; apply Hc; right. rewrite H. replace (ze q_ex - Hl - (ze q_ex - Hl)) with 0 by ring.
    rewrite Rabs_R0; lra.
  - destruct (levee_in_to_ex g Hl cs cp wi we _ _ _ _ _ _ Hu Ho Si Se Hc H) as [A B].
    fold P in A, B. rewrite A, B. field.
Qed.

Lemma levee_closed_sym : forall a b, levee_closed a b -> levee_closed b a.
Proof. intros a b [[A B]|C]; [left; auto | right; now rewrite Rabs_minus_sym]. Qed.

Lemma classic_levee : forall a b, levee_closed a b \/ ~ levee_closed a b.
Proof.
  intros a b; unfold levee_closed.
  destruct (Rle_dec a (1/100)), (Rle_dec b (1/100)), (Rle_dec (Rabs (a - b)) (1/100)); tauto.
Qed.

(** Distributed levees compute the serial fluxes. *)
Lemma dist_levee_in : forall g Hl cs cp wi we q_in q_ex a_in a_ex n_in n_ex,
  opposite n_in n_ex ->
  dist_levee_point g Hl cs cp wi q_in q_ex a_in n_in
  = fst (levee_point g Hl cs cp wi we q_in q_ex a_in a_ex n_in n_ex).
Proof.
  intros until n_ex; intros [Hx Hy]; unfold dist_levee_point, levee_point.
  destruct (_ || _)%bool; [reflexivity|].
  destruct (_ <? _)%num; cbn [fst]; [reflexivity|].
  f_equal. rewrite Hx, Hy. apply vec3_eq; cbn [ze qx qy]; num_R; [reflexivity | ring | ring].
Qed.

Lemma dist_levee_ex : forall g Hl cs cp wi we q_in q_ex a_in a_ex n_in n_ex,
  opposite n_in n_ex ->
  dist_levee_point g Hl cs cp we q_ex q_in a_ex n_ex
  = snd (levee_point g Hl cs cp wi we q_in q_ex a_in a_ex n_in n_ex).
Proof.
  intros until n_ex; intros [Hx Hy]; unfold dist_levee_point, levee_point.
  change (nsub (ze q_in) Hl) with (ze q_in - Hl); change (nsub (ze q_ex) Hl) with (ze q_ex - Hl).
  set (hi := ze q_in - Hl); set (he := ze q_ex - Hl).
  destruct (classic_levee hi he) as [H|H].
  - rewrite (levee_branch_closed _ _ H), (levee_branch_closed _ _ (levee_closed_sym _ _ H)). reflexivity.
  - rewrite (levee_branch_open _ _ H).
    rewrite (levee_branch_open he hi) by (intros C; apply H, levee_closed_sym, C).
    destruct (Rtotal_order hi he) as [L|[L|L]].
    + num_R. rewrite (Rltb_true hi he L), (Rltb_false he hi) by lra. reflexivity.
    + exfalso; apply H; right; rewrite L, Rminus_eq_0, Rabs_R0; lra.
    + num_R. rewrite (Rltb_true he hi L), (Rltb_false hi he) by lra. cbn [snd].
      f_equal. rewrite Hx, Hy. apply vec3_eq; cbn [ze qx qy]; [reflexivity | ring | ring].
Qed.

Lemma dist_levee_both : forall g H cs cp wi we q_in q_ex a_in a_ex n_in n_ex, opposite n_in n_ex ->
  (dist_levee_point g H cs cp wi q_in q_ex a_in n_in,
   dist_levee_point g H cs cp we q_ex q_in a_ex n_ex)
  = levee_point g H cs cp wi we q_in q_ex a_in a_ex n_in n_ex.
Proof.
  intros until n_ex; intros Ho.
  rewrite (dist_levee_in g H cs cp wi we q_in q_ex a_in a_ex n_in n_ex Ho),
          (dist_levee_ex g H cs cp wi we q_in q_ex a_in a_ex n_in n_ex Ho).
  symmetry; apply surjective_pairing.
Qed.

Lemma levee_closed_no_flow : forall g H cs cp wi we q_in q_ex a_in a_ex n_in n_ex,
  unit2 n_in -> unit2 n_ex -> sp a_in = 1 -> sp a_ex = 1 ->
  levee_closed (ze q_in - H) (ze q_ex - H) ->
  let P := levee_point g H cs cp wi we q_in q_ex a_in a_ex n_in n_ex in
  ze (fst P) = 0 /\ ze (snd P) = 0.
Proof.
  intros until n_ex; intros U1 U2 S1 S2 Hc P. unfold P. rewrite levee_closed_fluxes by assumption.
  cbn [fst snd]. split; apply land_flux_impermeable; assumption.
Qed.

Lemma levee_open_ex : ~ levee_closed (2 - 0) (1 - 0).
Proof. intros [[A B]|C]; [lra|]. rewrite Rabs_right in C; lra. Qed.

Lemma levee_mass_witness : exists g H cs cp q_in q_ex a n_in n_ex,
    0 < g /\ 0 <= cs /\ 0 <= cp /\ unit2 n_in /\ opposite n_in n_ex /\ sp a = 1 /\
    0 < ze q_in + bath a /\ 0 < ze q_ex + bath a /\
    let P := levee_point g H cs cp true true q_in q_ex a a n_in n_ex in
    ze (fst P) + ze (snd P) <> 0.
Proof.
  exists 1, 0, 1, 1, (V3 2 1 0), (V3 1 0 0), (Aux 1 1 1), (V2 1 0), (V2 (-1) 0).
  assert (U : unit2 (V2 1 0)) by (unfold unit2; cbn; ring).
  assert (O : opposite (V2 1 0) (V2 (-1) 0)) by (unfold opposite; cbn; split; ring).
  do 8 (split; [first [assumption | cbn; lra | reflexivity]|]).
  intros P. unfold P. rewrite levee_defect; try assumption; try reflexivity.
  - unfold normal_part; cbn; lra.
  - exact levee_open_ex.
Qed.

Lemma levee_still : forall g H cs cp wi we q_in q_ex a_in a_ex n_in n_ex,
  unit2 n_in -> opposite n_in n_ex -> sp a_in = 1 -> sp a_ex = 1 -> 0 <= cs -> 0 <= cp ->
  normal_part q_in n_in = 0 -> normal_part q_ex n_ex = 0 ->
  ~ levee_closed (ze q_in - H) (ze q_ex - H) ->
  let P := levee_point g H cs cp wi we q_in q_ex a_in a_ex n_in n_ex in
  ze (fst P) + ze (snd P) = 0 /\
  (ze q_ex < ze q_in -> 0 <= ze (fst P)) /\ (ze q_in < ze q_ex -> 0 <= ze (snd P)).
Proof.
  intros until n_ex; intros U O S1 S2 Cs Cp N1 N2 Hc P.
  split; [|split].
  - unfold P; rewrite levee_defect by assumption. rewrite N1, N2; field.
  - intros Hlt. destruct (levee_in_to_ex g H cs cp wi we _ _ _ _ _ _ U O S1 S2 Hc Hlt) as [A _].
    fold P in A. rewrite A, N1.
    assert (0 <= weir g cs cp (ze q_in - H) (ze q_ex - H)); [|lra].
    apply weir_nonneg; try assumption.
    destruct (Rle_dec 0 (ze q_in - H)); [assumption|]. exfalso; apply Hc; left; lra.
  - intros Hlt. destruct (levee_ex_to_in g H cs cp wi we _ _ _ _ _ _ U O S1 S2 Hc Hlt) as [_ A].
    fold P in A. rewrite A, N2.
    assert (0 <= weir g cs cp (ze q_ex - H) (ze q_in - H)); [|lra].
    apply weir_nonneg; try assumption.
    destruct (Rle_dec 0 (ze q_ex - H)); [assumption|]. exfalso; apply Hc; left; lra.
Qed.

Lemma levee_direction_witness : exists g H cs cp q_in q_ex a n_in n_ex,
    0 < g /\ 0 <= cs /\ 0 <= cp /\ unit2 n_in /\ opposite n_in n_ex /\ sp a = 1 /\
    0 < ze q_in + bath a /\ 0 < ze q_ex + bath a /\
    ~ levee_closed (ze q_in - H) (ze q_ex - H) /\ ze q_ex < ze q_in /\
    ze (fst (levee_point g H cs cp true true q_in q_ex a a n_in n_ex)) < 0.
Proof.
  exists 1, 0, 0, 0, (V3 2 (-1) 0), (V3 1 0 0), (Aux 1 1 1), (V2 1 0), (V2 (-1) 0).
  assert (U : unit2 (V2 1 0)) by (unfold unit2; cbn; ring).
  assert (O : opposite (V2 1 0) (V2 (-1) 0)) by (unfold opposite; cbn; split; ring).
  do 8 (split; [first [assumption | cbn; lra | reflexivity]|]).
  split; [exact levee_open_ex|]. split; [cbn; lra|].
  destruct (levee_in_to_ex 1 0 0 0 true true (V3 2 (-1) 0) (V3 1 0 0) (Aux 1 1 1) (Aux 1 1 1) (V2 1 0) (V2 (-1) 0)
    U O eq_refl eq_refl levee_open_ex ltac:(cbn; lra)) as [A _].
  rewrite A. unfold normal_part, weir; num_R; cbn [ze qx qy nx ny].
  destruct (Rltb_spec (2 * (2 - 0) / 3) (1 - 0)); [lra|].
  lra.
Qed.

From Coq Require Import ZArith List Bool Arith Lia.
From Coq.Floats Require Import SpecFloat.
From Verif Require Import Outcome ModelScrut SpecScrut.
Import ListNotations.

Lemma isnan_iff : forall x, isnan x = true <-> x = S754_nan.
Proof. intros x; destruct x; simpl; split; congruence. Qed.

Lemma add_nan_l : forall y, dadd S754_nan y = S754_nan.
Proof. intros y; destruct y; reflexivity. Qed.
Lemma add_nan_r : forall x, dadd x S754_nan = S754_nan.
Proof. intros x; destruct x; reflexivity. Qed.
Lemma mul_nan_l : forall y, dmul S754_nan y = S754_nan.
Proof. intros y; destruct y; reflexivity. Qed.
Lemma mul_nan_r : forall x, dmul x S754_nan = S754_nan.
Proof. intros x; destruct x; reflexivity. Qed.
Lemma leb_nan_l : forall y, dleb S754_nan y = false.
Proof. intros y; destruct y; reflexivity. Qed.
Lemma ltb_nan_l : forall y, dltb S754_nan y = false.
Proof. intros y; destruct y; reflexivity. Qed.
Lemma ltb_nan_r : forall x, dltb x S754_nan = false.
Proof. intros x; destruct x; reflexivity. Qed.

Lemma found_iff : forall ndof (q : coeffs) v,
  existsb (fun dof => isnan (q v dof)) (seq 0 ndof) = true <-> nan_in_row ndof q v.
Proof.
  intros ndof q v; rewrite existsb_exists; unfold nan_in_row; split.
  - intros (d & Hd & H); apply in_seq in Hd; apply isnan_iff in H; exists d; split; [lia | exact H].
  - intros (d & Hd & H); exists d; split; [apply in_seq; lia | apply isnan_iff; exact H].
Qed.

Lemma scrutinize_ok : forall ndof q,
  (scrutinize ndof q = None <-> ~ has_nan ndof q) /\
  (forall v, scrutinize ndof q = Some v <->
     v < 3 /\ nan_in_row ndof q v /\ forall w, w < v -> ~ nan_in_row ndof q w).
Proof.
  intros ndof q; unfold scrutinize.
  pose proof (found_iff ndof q 0) as F0; pose proof (found_iff ndof q 1) as F1; pose proof (found_iff ndof q 2) as F2.
  cbv zeta.
  destruct (existsb _ _) eqn:E0 in |- *; rewrite E0 in F0.
  { assert (N0 : nan_in_row ndof q 0) by (apply F0; reflexivity).
    split; [split; [discriminate | intros H; exfalso; apply H; exists 0; split; [lia | exact N0]] |].
    intros v; split.
    - intros E; inversion E; subst; split; [lia | split; [exact N0 | intros w Hw; lia]].
    - intros (Hv & Nv & Hm); destruct v; [reflexivity | exfalso; apply (Hm 0); [lia | exact N0]]. }
  assert (N0 : ~ nan_in_row ndof q 0) by (intros H; apply F0 in H; congruence).
  destruct (existsb (fun dof => isnan (q 1 dof)) _) eqn:E1 in |- *; rewrite E1 in F1.
  { assert (N1 : nan_in_row ndof q 1) by (apply F1; reflexivity).
    split; [split; [discriminate | intros H; exfalso; apply H; exists 1; split; [lia | exact N1]] |].
    intros v; split.
    - intros E; inversion E; subst; split; [lia | split; [exact N1 | intros w Hw; replace w with 0 by lia; exact N0]].
    - intros (Hv & Nv & Hm); destruct v as [|[|v]]; [contradiction | reflexivity | exfalso; apply (Hm 1); [lia | exact N1]]. }
  assert (N1 : ~ nan_in_row ndof q 1) by (intros H; apply F1 in H; congruence).
  destruct (existsb (fun dof => isnan (q 2 dof)) _) eqn:E2 in |- *; rewrite E2 in F2.
  { assert (N2 : nan_in_row ndof q 2) by (apply F2; reflexivity).
    split; [split; [discriminate | intros H; exfalso; apply H; exists 2; split; [lia | exact N2]] |].
    intros v; split.
    - intros E; inversion E; subst; split; [lia | split; [exact N2 |]].
      intros w Hw; assert (w = 0 \/ w = 1) as [-> | ->] by lia; assumption.
    - intros (Hv & Nv & Hm); destruct v as [|[|[|v]]]; [contradiction | contradiction | reflexivity | lia]. }
  assert (N2 : ~ nan_in_row ndof q 2) by (intros H; apply F2 in H; congruence).
  split.
  - split; [| reflexivity]. intros _ (v & Hv & Nv); destruct v as [|[|[|v]]]; [contradiction .. | lia].
  - intros v; split; [discriminate |]. intros (Hv & Nv & _); destruct v as [|[|[|v]]]; [contradiction .. | lia].
Qed.

(** ** The check of a stage *)
Definition checked (c : solver) (now : nat) (s : dstate) : bool :=
  existsb (fun e => match scrutinize (c_ndof c) (d_q s e now) with Some _ => true | None => false end) (seq 0 (c_n c)).

Lemma checked_false : forall c now s, checked c now s = false <-> clean (c_n c) (c_ndof c) (fun e => d_q s e now).
Proof.
  intros c now s; unfold checked, clean; split.
  - intros H e He Hn.
    assert (existsb (fun e => match scrutinize (c_ndof c) (d_q s e now) with Some _ => true | None => false end) (seq 0 (c_n c)) = true); [| congruence].
    apply existsb_exists; exists e; split; [apply in_seq; lia |].
    destruct (scrutinize (c_ndof c) (d_q s e now)) eqn:E; [reflexivity |].
    apply (proj1 (scrutinize_ok _ _)) in E; contradiction.
  - intros H. apply not_true_is_false; intros T; apply existsb_exists in T.
    destruct T as (e & He & Hm); apply in_seq in He.
    destruct (scrutinize (c_ndof c) (d_q s e now)) eqn:E; [| discriminate].
    apply (H e); [lia |]. apply (proj2 (scrutinize_ok _ _)) in E. destruct E as (Hv & Nv & _). exists n; auto.
Qed.

Lemma stage_clean : forall c t k s s', stage_serial c t k s = Running s' ->
  clean (c_n c) (c_ndof c) (fun e => d_q s' e (Nat.modulo (k + 1) (c_nstages c))).
Proof.
  intros c t k s s' H; unfold stage_serial in H.
  destruct (c_post c _ _) as [p | |] eqn:E; try discriminate.
  change (existsb _ _) with (checked c (Nat.modulo (k + 1) (c_nstages c)) p) in H.
  destruct (checked _ _ _) eqn:C; [discriminate |].
  inversion H; subst. apply checked_false in C; exact C.
Qed.

Lemma stages_app : forall f ks1 ks2 t s, stages f t (ks1 ++ ks2) s =
  match stages f t ks1 s with Running s' => stages f (t + length ks1) ks2 s' | x => x end.
Proof.
  induction ks1 as [|k r IH]; intros ks2 t s; simpl; [rewrite Nat.add_0_r; reflexivity |].
  destruct (f t k s); [| reflexivity | reflexivity]. rewrite IH. rewrite Nat.add_succ_r. reflexivity.
Qed.

Lemma stages_clean : forall c t s s', 1 <= c_nstages c ->
  stages (stage_serial c) t (all_stages c) s = Running s' ->
  clean (c_n c) (c_ndof c) (fun e => d_q s' e 0).
Proof.
  intros c t s s' Hn H; unfold all_stages in H.
  destruct (c_nstages c) as [|m] eqn:E; [lia |].
  rewrite seq_S, stages_app in H.
  destruct (stages _ t (seq 0 m) s) as [s1 | |]; try discriminate.
  simpl in H.
  destruct (stage_serial c _ m s1) as [s2 | |] eqn:G; try discriminate. inversion H; subst.
  apply stage_clean in G. rewrite E in G. replace (m + 1) with (S m) in G by lia.
  rewrite Nat.mod_same in G by lia. exact G.
Qed.

Lemma run_clean : forall step len (P : dstate -> Prop), (forall t s s', step t s = Running s' -> P s') ->
  forall n t s, exists ss, Forall P ss /\ fst (run step len t n s) = map (fun s' e => d_q s' e 0) ss /\
    length ss <= n /\
    (forall s', snd (run step len t n s) = Running s' -> length ss = n /\ (n = 0 -> s' = s) /\ (0 < n -> last ss s = s')).
Proof.
  intros step len P HP; induction n as [|n IH]; intros t s; simpl.
  - exists []; split; [constructor | split; [reflexivity | split; [simpl; lia |]]].
    intros s' E; inversion E; subst. split; [reflexivity | split; [reflexivity | lia]].
  - destruct (step t s) as [s1 | |] eqn:G.
    + destruct (IH (t + len) s1) as (ss & F & M & L & B).
      destruct (run step len (t + len) n s1) as [os x]; simpl in *.
      exists (s1 :: ss); split; [constructor; [eapply HP; eauto | exact F] |].
      split; [simpl; rewrite M; reflexivity | split; [simpl; lia |]].
      intros s' E; destruct (B s' E) as (B1 & B2 & B3); split; [simpl; lia | split; [lia |]].
      intros _. destruct n as [|n].
      * destruct ss; [| simpl in B1; lia]. simpl. symmetry; apply B2; reflexivity.
      * destruct ss as [|a ss]; [simpl in B1; lia |].
        rewrite <- (B3 ltac:(lia)). change (last (s1 :: a :: ss) s) with (last (a :: ss) s).
        clear; revert a; induction ss as [|b ss IH]; intros a; [reflexivity |].
        change (last (a :: b :: ss) s) with (last (b :: ss) s). change (last (a :: b :: ss) s1) with (last (b :: ss) s1). apply IH.
    + exists []; split; [constructor | split; [reflexivity | split; [simpl; lia | discriminate]]].
    + exists []; split; [constructor | split; [reflexivity | split; [simpl; lia | discriminate]]].
Qed.

Lemma written : forall c t n s, 1 <= c_nstages c ->
  Forall (clean (c_n c) (c_ndof c)) (fst (run (step_serial c) (c_nstages c) t n s)) /\
  (forall s', snd (run (step_serial c) (c_nstages c) t n s) = Running s' ->
     length (fst (run (step_serial c) (c_nstages c) t n s)) = n /\
     (0 < n -> clean (c_n c) (c_ndof c) (fun e => d_q s' e 0))).
Proof.
  intros c t n s Hn.
  destruct (run_clean (step_serial c) (c_nstages c) (fun s' => clean (c_n c) (c_ndof c) (fun e => d_q s' e 0))
              (fun t s s' => stages_clean c t s s' Hn) n t s) as (ss & F & M & L & B).
  rewrite M. split.
  - clear - F; induction F; constructor; auto.
  - intros s' E; destruct (B s' E) as (B1 & B2 & B3). rewrite map_length; split; [exact B1 |].
    intros H0; specialize (B3 H0). subst s'. destruct ss as [|a ss]; [simpl in B1; lia |].
    assert (X : In (last (a :: ss) s) (a :: ss)).
    { clear; revert a; induction ss as [|b ss IH]; intros a; [left; reflexivity |].
      change (last (a :: b :: ss) s) with (last (b :: ss) s). right; apply IH. }
    rewrite Forall_forall in F. exact (F _ X).
Qed.

Lemma gn_step_clean : forall c g t s s', 1 <= c_nstages c -> step_gn c g t s = Running s' ->
  clean (c_n c) (c_ndof c) (fun e => d_q s' e 0).
Proof.
  intros c g t s s' Hn H; unfold step_gn in H.
  destruct (stages _ t _ s) as [s1 | |]; try discriminate.
  destruct (stages _ (t + c_nstages c) _ s1) as [s2 | |]; try discriminate.
  eapply stages_clean; eauto.
Qed.

Lemma written_gn : forall c g len t n s, 1 <= c_nstages c ->
  Forall (clean (c_n c) (c_ndof c)) (fst (run (step_gn c g) len t n s)).
Proof.
  intros c g len t n s Hn.
  destruct (run_clean (step_gn c g) len (fun s' => clean (c_n c) (c_ndof c) (fun e => d_q s' e 0))
              (fun t s s' => gn_step_clean c g t s s' Hn) n t s) as (ss & F & M & L & B).
  rewrite M. clear - F; induction F; constructor; auto.
Qed.

(** ** What is found *)
Lemma fold_keeps_nan : forall A B dt (q sol : nat -> coeffs) v d l acc, acc v d = S754_nan ->
  fold_left (fun (acc : coeffs) s v d => dadd (acc v d) (dadd (dmul (A s) (q s v d)) (dmul (dmul dt (B s)) (sol s v d)))) l acc v d = S754_nan.
Proof.
  intros A B dt q sol v d; induction l as [|s r IH]; intros acc H; simpl; [exact H |].
  apply IH. rewrite H; apply add_nan_l.
Qed.

Lemma next_q_nan : forall A B dt stage (q sol : nat -> coeffs) v d s, s <= stage ->
  q s v d = S754_nan \/ sol s v d = S754_nan -> next_q A B dt stage q sol v d = S754_nan.
Proof.
  intros A B dt stage q sol v d s Hs H; unfold next_q; cbv zeta.
  assert (I : In s (seq 0 (stage + 1))) by (apply in_seq; lia).
  revert I. generalize (seq 0 (stage + 1)). generalize (fun _ _ : nat => S754_zero false) as acc.
  intros acc l; revert acc; induction l as [|a r IH]; intros acc I; [destruct I |]; simpl.
  destruct I as [-> | I]; [| apply IH; exact I].
  apply (fold_keeps_nan (fun s => nth s (nth stage A []) (S754_zero false)) (fun s => nth s (nth stage B []) (S754_zero false))).
  destruct H as [-> | ->]; rewrite mul_nan_r, ?add_nan_l, ?add_nan_r; reflexivity.
Qed.

(** The slot that is checked holds the new coefficients. *)
Lemma update_slot : forall c t k s e, k < c_nstages c ->
  d_q (update_all c t k s) e (Nat.modulo (k + 1) (c_nstages c)) =
  next_q (c_A c) (c_B c) (c_dt c) k (d_q s e) (put (d_sol s e) k (c_solution c t k s e)).
Proof.
  intros c t k s e Hk; unfold update_all; simpl.
  destruct (Nat.eqb_spec (k + 1) (c_nstages c)) as [E | E].
  - rewrite <- E. rewrite Nat.mod_same by lia. unfold put at 1.
    destruct (Nat.eqb_spec 0 (k + 1)); [lia |]. unfold put at 1. rewrite Nat.eqb_refl. unfold put at 1. rewrite Nat.eqb_refl. reflexivity.
  - rewrite Nat.mod_small by lia. unfold put at 1. rewrite Nat.eqb_refl. reflexivity.
Qed.

Lemma update_nan : forall c t k s e v d, k < c_nstages c ->
  c_solution c t k s e v d = S754_nan \/ (exists i, i <= k /\ d_q s e i v d = S754_nan) ->
  d_q (update_all c t k s) e (Nat.modulo (k + 1) (c_nstages c)) v d = S754_nan.
Proof.
  intros c t k s e v d Hk H; rewrite update_slot by exact Hk.
  destruct H as [H | (i & Hi & H)].
  - apply next_q_nan with (s := k); [lia | right]. unfold put; rewrite Nat.eqb_refl; exact H.
  - apply next_q_nan with (s := i); [exact Hi | left; exact H].
Qed.

Lemma abort_if : forall c t k s p e, e < c_n c ->
  c_post c (Nat.modulo (k + 1) (c_nstages c)) (update_all c t k s) = Ok p ->
  has_nan (c_ndof c) (d_q p e (Nat.modulo (k + 1) (c_nstages c))) -> stage_serial c t k s = Aborted.
Proof.
  intros c t k s p e He E H; unfold stage_serial; rewrite E.
  change (existsb _ _) with (checked c (Nat.modulo (k + 1) (c_nstages c)) p).
  destruct (checked _ _ _) eqn:C; [reflexivity |]. apply checked_false in C.
  exfalso; exact (C e He H).
Qed.

Lemma abort_only : forall c t k s, stage_serial c t k s = Aborted ->
  exists p e, e < c_n c /\ c_post c (Nat.modulo (k + 1) (c_nstages c)) (update_all c t k s) = Ok p /\
    has_nan (c_ndof c) (d_q p e (Nat.modulo (k + 1) (c_nstages c))).
Proof.
  intros c t k s H; unfold stage_serial in H.
  destruct (c_post c _ _) as [p | |] eqn:E; try discriminate.
  destruct (existsb _ _) eqn:C; [| discriminate].
  apply existsb_exists in C. destruct C as (e & He & C); apply in_seq in He.
  destruct (scrutinize _ _) as [v |] eqn:V; [| discriminate].
  exists p, e; split; [lia | split; [reflexivity |]].
  apply (proj2 (scrutinize_ok _ _)) in V. destruct V as (Hv & Nv & _). exists v; auto.
Qed.

Lemma detected : forall c t k s e v d, (forall i x, c_post c i x = Ok x) -> k < c_nstages c ->
  e < c_n c -> v < 3 -> d < c_ndof c ->
  c_solution c t k s e v d = S754_nan \/ (exists i, i <= k /\ d_q s e i v d = S754_nan) ->
  stage_serial c t k s = Aborted.
Proof.
  intros c t k s e v d HP Hk He Hv Hd H.
  eapply abort_if; [exact He | apply HP |].
  exists v; split; [exact Hv |]. exists d; split; [exact Hd |]. apply update_nan; assumption.
Qed.

Lemma detected_gn : forall c g t s s1 s2 e v d, (forall i x, c_post c i x = Ok x) -> 1 <= c_nstages c ->
  stages (stage_serial c) t (all_stages c) s = Running s1 ->
  stages (correction_stage g) (t + c_nstages c) (all_stages g) s1 = Running s2 ->
  e < c_n c -> v < 3 -> d < c_ndof c -> d_q s2 e 0 v d = S754_nan -> step_gn c g t s = Aborted.
Proof.
  intros c g t s s1 s2 e v d HP Hn E1 E2 He Hv Hd H; unfold step_gn; rewrite E1, E2.
  unfold all_stages; destruct (c_nstages c) as [|m] eqn:E; [lia |].
  simpl. erewrite detected; [reflexivity | exact HP | rewrite E; lia | exact He | exact Hv | exact Hd |].
  right; exists 0; split; [lia | exact H].
Qed.

(** ** Wetting and drying *)
Lemma dsum_nan : forall n f i, i < n -> f i = S754_nan -> dsum n f = S754_nan.
Proof.
  induction n as [|n IH]; intros f i Hi H; [lia |]; simpl.
  destruct (Nat.eq_dec i n) as [-> | Ne]; [rewrite H; apply add_nan_r |].
  rewrite (IH f i) by (lia || exact H). apply add_nan_l.
Qed.

Lemma to_linear_nan : forall ndof q row v, nan_in_row ndof q row -> to_linear ndof q row v = S754_nan.
Proof. intros ndof q row v (d & Hd & H); unfold to_linear. apply dsum_nan with (i := d); [exact Hd |]. rewrite H; apply mul_nan_l. Qed.
Lemma to_basis_nan : forall (qv : coeffs) row v dof, v < 3 -> qv row v = S754_nan -> to_basis qv row dof = S754_nan.
Proof. intros qv row v dof Hv H; unfold to_basis. apply dsum_nan with (i := v); [exact Hv |]. rewrite H; apply mul_nan_l. Qed.

Lemma wd_level : forall ndof h_o thr bath bath_min q wet, 3 <= ndof -> nan_in_row ndof q 0 ->
  exists q' wet', wetting_drying ndof h_o thr bath bath_min q wet = Ok (q', wet') /\ nan_in_row ndof q' 0.
Proof.
  intros ndof h_o thr bath bath_min q wet Hn H; unfold wetting_drying.
  destruct (Nat.ltb_spec ndof 3); [lia |]. cbv zeta.
  assert (Hh : forall v, depths ndof bath q v = S754_nan).
  { intros v; unfold depths; rewrite to_linear_nan by exact H; apply add_nan_l. }
  assert (D : forall lim, dry_count lim (depths ndof bath q) = 0).
  { intros lim; unfold dry_count; simpl; rewrite !Hh, !leb_nan_l; reflexivity. }
  rewrite D; simpl. destruct wet; [exists q, true; split; [reflexivity | exact H] |].
  unfold final_check. rewrite (to_linear_nan ndof q 0 _ H), ltb_nan_r.
  eexists _, _; split; [reflexivity |].
  exists 0; split; [lia |]. apply to_basis_nan with (v := 0); [lia |]. simpl. apply to_linear_nan; exact H.
Qed.

Lemma wd_discharge : forall ndof h_o thr bath bath_min q wet q' row,
  (row = 1 \/ row = 2) -> nan_in_row ndof q row ->
  wetting_drying ndof h_o thr bath bath_min q wet = Ok (q', true) ->
  dleb (mean_depth thr (depths ndof bath q)) (dadd h_o thr) = false ->
  nan_in_row ndof q' row.
Proof.
  intros ndof h_o thr bath bath_min q wet q' row Hr H E Hm; unfold wetting_drying in E.
  destruct (Nat.ltb_spec ndof 3); [discriminate |]. cbv zeta in E.
  destruct (Nat.eqb (dry_count _ _) 0) eqn:D0.
  { destruct wet; [inversion E; subst; exact H |].
    unfold final_check in E; destruct (dltb _ _); inversion E; subst; exact H. }
  destruct (Nat.eqb (dry_count _ _) 3) eqn:D3; [inversion E |].
  rewrite Hm in E.
  destruct (new_depths h_o _) as [h' | |]; try discriminate. simpl in E.
  destruct (move_discharge _ h' bath _) as [m | |] eqn:M; try discriminate. simpl in E.
  unfold final_check in E; destruct (dltb (dsub h_o bath_min) _); inversion E; subst; clear E.
  unfold move_discharge in M; cbv zeta in M.
  destruct (Nat.ltb_spec (dry_count (dadd h_o thr) h') 3) as [L |]; [| discriminate]. inversion M; subst; clear M.
  assert (W : exists v, v < 3 /\ dleb (h' v) (dadd h_o thr) = false).
  { unfold dry_count in L; simpl in L.
    destruct (dleb (h' 0) _) eqn:A0; [| exists 0; split; [lia | exact A0]].
    destruct (dleb (h' 1) _) eqn:A1; [| exists 1; split; [lia | exact A1]].
    destruct (dleb (h' 2) _) eqn:A2; [simpl in L; lia | exists 2; split; [lia | exact A2]]. }
  destruct W as (v & Hv & W).
  exists 0; split; [lia |]. apply to_basis_nan with (v := v); [exact Hv |].
  assert (T := to_linear_nan ndof q row v H).
  destruct Hr as [-> | ->]; cbv beta; rewrite W, T; destruct (dltb _ _); try reflexivity; apply add_nan_l.
Qed.

(** The kernel over the mesh: each element is treated once. *)
Lemma post_elements : forall ndof h_o thr bath bath_min k l s s', NoDup l ->
  ofold (fun s e =>
      do r <- wetting_drying ndof h_o thr (bath e) (bath_min e) (d_q s e k) (d_wet s e) ;
      Ok (DState (put (d_q s) e (put (d_q s e) k (fst r))) (d_sol s) (put (d_wet s) e (snd r)))) l s = Ok s' ->
  (forall e, ~ In e l -> d_q s' e = d_q s e /\ d_wet s' e = d_wet s e) /\
  (forall e, In e l -> wetting_drying ndof h_o thr (bath e) (bath_min e) (d_q s e k) (d_wet s e) = Ok (d_q s' e k, d_wet s' e)).
Proof.
  intros ndof h_o thr bath bath_min k; induction l as [|a r IH]; intros s s' ND E; simpl in E.
  - inversion E; subst; split; [auto | intros e []].
  - inversion ND as [|x y Na Nr]; subst.
    destruct (wetting_drying ndof h_o thr (bath a) (bath_min a) (d_q s a k) (d_wet s a)) as [[q' w'] | |] eqn:W; try discriminate.
    simpl in E. destruct (IH _ _ Nr E) as (I1 & I2); simpl in I1, I2. split.
    + intros e He. destruct (I1 e) as (J1 & J2); [intros X; apply He; right; exact X |].
      unfold put in J1, J2. assert (Ne : e <> a) by (intros ->; apply He; left; reflexivity). apply Nat.eqb_neq in Ne. rewrite Ne in J1, J2.
      split; assumption.
    + intros e [<- | He].
      * destruct (I1 a Na) as (J1 & J2). unfold put in J1, J2. rewrite Nat.eqb_refl in J1, J2.
        rewrite J1, J2, Nat.eqb_refl. exact W.
      * assert (Ne : e <> a) by (intros ->; contradiction).
        generalize (I2 e He). unfold put. apply Nat.eqb_neq in Ne. rewrite Ne. exact (fun x => x).
Qed.

(** ** Slope limiting *)
Lemma sub_nan_l : forall y, dsub S754_nan y = S754_nan.
Proof. intros y; destruct y; reflexivity. Qed.
Lemma sub_nan_r : forall x, dsub x S754_nan = S754_nan.
Proof. intros x; destruct x; reflexivity. Qed.
Lemma div_nan_l : forall y, ddiv S754_nan y = S754_nan.
Proof. intros y; destruct y; reflexivity. Qed.
Lemma dnorm_nan : forall w v, v < 3 -> w v = S754_nan -> dnorm w = S754_nan.
Proof.
  intros w v Hv H; unfold dnorm. rewrite (dsum_nan 3 _ v Hv); [reflexivity |]. rewrite H; apply mul_nan_l.
Qed.

Lemma limit_same : forall ndof delta q row v, v < 3 ->
  dsub (limited_vrtx delta (to_linear ndof q) row v) (to_linear ndof q row v) = S754_nan ->
  limit ndof delta q row = q row.
Proof.
  intros ndof delta q row v Hv H; unfold limit; cbv zeta.
  rewrite (dnorm_nan _ v Hv H), div_nan_l, ltb_nan_r. reflexivity.
Qed.

Lemma limit_keeps : forall ndof delta q row,
  nan_in_row ndof q row \/ (exists b, b < 3 /\ delta row b = S754_nan) -> limit ndof delta q row = q row.
Proof.
  intros ndof delta q row [H | (b & Hb & H)]; apply (limit_same ndof delta q row 0); try lia.
  - rewrite (to_linear_nan ndof q row 0 H); apply sub_nan_r.
  - unfold limited_vrtx. rewrite (dsum_nan 3 _ b Hb); [rewrite add_nan_r; apply sub_nan_l |].
    rewrite H; apply mul_nan_l.
Qed.

Lemma limit_post_row : forall n ndof active delta k s e row, nan_in_row ndof (d_q s e k) row ->
  nan_in_row ndof (d_q (limit_post n ndof active delta k s) e k) row.
Proof.
  intros n ndof active delta k s e row H; unfold limit_post; simpl.
  destruct ((e <? n) && active s e); [| exact H].
  unfold put; rewrite Nat.eqb_refl. destruct H as (d & Hd & H). exists d; split; [exact Hd |].
  rewrite limit_keeps; [exact H | left; exists d; auto].
Qed.

Lemma detected_post : forall c wd sl h_o thr bath bath_min active delta t k s e v d,
  c_post c = post_serial wd sl (c_n c) (c_ndof c) h_o thr bath bath_min active delta -> k < c_nstages c -> 3 <= c_ndof c ->
  e < c_n c -> v < 3 -> d < c_ndof c ->
  c_solution c t k s e v d = S754_nan \/ (exists i, i <= k /\ d_q s e i v d = S754_nan) ->
  forall s', stage_serial c t k s = Running s' ->
  wd = true /\ v <> 0 /\ (d_wet s' e = false \/
    dleb (mean_depth thr (depths (c_ndof c) (bath e)
      (next_q (c_A c) (c_B c) (c_dt c) k (d_q s e) (put (d_sol s e) k (c_solution c t k s e))))) (dadd h_o thr) = true).
Proof.
  intros c wd sl h_o thr bath bath_min active delta t k s e v d HP Hk Hn He Hv Hd H s' R.
  set (now := Nat.modulo (k + 1) (c_nstages c)) in *.
  assert (U := update_nan c t k s e v d Hk H). fold now in U.
  assert (K := stage_clean c t k s s' R e He). fold now in K.
  unfold stage_serial in R. fold now in R.
  destruct (c_post c now (update_all c t k s)) as [p | |] eqn:E; try discriminate.
  destruct (existsb _ _); [discriminate |]. inversion R; subst p; clear R.
  rewrite HP in E. unfold post_serial in E.
  destruct (if wd then wet_dry_post _ _ _ _ _ _ now (update_all c t k s) else Ok (update_all c t k s)) as [s1 | |] eqn:E1; try discriminate.
  simpl in E. inversion E; subst s'; clear E.
  assert (NR : nan_in_row (c_ndof c) (d_q (update_all c t k s) e now) v) by (exists d; split; assumption).
  assert (K1 : forall row, row < 3 -> ~ nan_in_row (c_ndof c) (d_q s1 e now) row).
  { intros row Hr N. apply K. exists row; split; [exact Hr |].
    destruct sl; [apply limit_post_row; exact N | exact N]. }
  destruct wd; [| exfalso; inversion E1; subst; exact (K1 v Hv NR)].
  split; [reflexivity |].
  unfold wet_dry_post in E1.
  apply post_elements in E1; [| apply seq_NoDup]. destruct E1 as (_ & E1).
  specialize (E1 e). rewrite in_seq in E1. specialize (E1 (ltac:(lia))).
  rewrite <- update_slot by exact Hk. fold now.
  destruct (Nat.eq_dec v 0) as [-> | Nv].
  - exfalso. destruct (wd_level (c_ndof c) h_o thr (bath e) (bath_min e) _ (d_wet (update_all c t k s) e) Hn NR) as (q' & w' & W & N').
    rewrite W in E1. inversion E1; subst. apply (K1 0); [lia | exact N'].
  - split; [exact Nv |].
    replace (d_wet (if sl then limit_post (c_n c) (c_ndof c) active delta now s1 else s1) e) with (d_wet s1 e) by (destruct sl; reflexivity).
    destruct (d_wet s1 e) eqn:W; [right | left; reflexivity].
    destruct (dleb _ _) eqn:M; [reflexivity | exfalso].
    apply (K1 v Hv).
    eapply wd_discharge; [lia | exact NR | exact E1 | exact M].
Qed.

(** ** The implicit solver *)
Lemma found_none : forall n ndof (q : nat -> coeffs),
  existsb (fun e => match scrutinize ndof (q e) with Some _ => true | None => false end) (seq 0 n) = false <-> clean n ndof q.
Proof.
  intros n ndof q.
  exact (checked_false (Solver n ndof 0 [] [] S754_nan (fun _ _ _ _ _ _ => S754_nan) (fun _ s => Ok s)) 0
           (DState (fun e _ => q e) (fun _ _ _ _ => S754_nan) (fun _ => true))).
Qed.

Lemma implicit_clean : forall n ndof nst iterate sl active delta t s s', 1 <= nst ->
  step_implicit n ndof nst iterate sl active delta t s = Running s' -> clean n ndof (fun e => d_q s' e 0).
Proof.
  intros n ndof nst iterate sl active delta t s s' Hn H; unfold step_implicit in H.
  destruct nst as [|m]; [lia |]. rewrite seq_S, stages_app in H.
  destruct (stages _ t (seq 0 m) s) as [s1 | |]; try discriminate. simpl in H.
  unfold stage_implicit at 1 in H. cbv zeta in H.
  replace (m + 1) with (S m) in H by lia. rewrite Nat.mod_same in H by lia.
  destruct (existsb _ (seq 0 n)) eqn:C; [discriminate |]. inversion H; subst. apply (found_none n ndof) in C. exact C.
Qed.

Lemma written_implicit : forall n ndof nst iterate sl active delta len t m s, 1 <= nst ->
  Forall (clean n ndof) (fst (run (step_implicit n ndof nst iterate sl active delta) len t m s)).
Proof.
  intros n ndof nst iterate sl active delta len t m s Hn.
  destruct (run_clean (step_implicit n ndof nst iterate sl active delta) len (fun s' => clean n ndof (fun e => d_q s' e 0))
              (fun t s s' => implicit_clean n ndof nst iterate sl active delta t s s' Hn) m t s) as (ss & F & M & L & B).
  rewrite M. clear - F; induction F; constructor; auto.
Qed.

Lemma detected_implicit : forall n ndof iterate sl active delta t s e v d,
  e < n -> v < 3 -> d < ndof -> d_q (iterate t 0 s) e 1 v d = S754_nan ->
  step_implicit n ndof 1 iterate sl active delta t s = Aborted.
Proof.
  intros n ndof iterate sl active delta t s e v d He Hv Hd H.
  unfold step_implicit; simpl. unfold stage_implicit; cbv zeta. change (Nat.modulo (0 + 1) 1) with 0.
  set (s1 := swap_all 1 (iterate t 0 s)).
  assert (N1 : nan_in_row ndof (d_q s1 e 0) v) by (exists d; split; [exact Hd | exact H]).
  set (s2 := if sl then limit_post n ndof active delta 0 s1 else s1).
  assert (N2 : nan_in_row ndof (d_q s2 e 0) v) by (unfold s2; destruct sl; [apply limit_post_row |]; exact N1).
  destruct (existsb _ (seq 0 n)) eqn:C; [reflexivity |].
  apply (found_none n ndof (fun e => d_q s2 e 0)) in C.
  exfalso; apply (C e He). exists v; split; [exact Hv | exact N2].
Qed.

(** ** What wetting and drying hides *)
Lemma zero_rows : forall (qv : coeffs) row dof, (forall v, v < 3 -> qv row v = S754_zero false) ->
  exists sgn, to_basis qv row dof = S754_zero sgn.
Proof.
  intros qv row dof H; unfold to_basis. simpl. rewrite !H by lia.
  destruct dof as [|[|[|dof]]]; vm_compute; eexists; reflexivity.
Qed.

Lemma wd_hidden : forall ndof h_o thr bath bath_min q wet, 3 <= ndof ->
  let h := depths ndof bath q in
  dry_count (dadd h_o thr) h <> 0 ->
  dry_count (dadd h_o thr) h = 3 \/ dleb (mean_depth thr h) (dadd h_o thr) = true ->
  exists q' wet', wetting_drying ndof h_o thr bath bath_min q wet = Ok (q', wet') /\
    forall row dof, row = 1 \/ row = 2 -> exists sgn, q' row dof = S754_zero sgn.
Proof.
  intros ndof h_o thr bath bath_min q wet Hn h H0 H; unfold wetting_drying.
  destruct (Nat.ltb_spec ndof 3); [lia |]. cbv zeta. fold h.
  destruct (Nat.eqb_spec (dry_count (dadd h_o thr) h) 0); [contradiction |].
  assert (Z1 : forall x row dof, row = 1 \/ row = 2 -> exists sgn, to_basis (flat x bath) row dof = S754_zero sgn).
  { intros x row dof Hr; apply zero_rows; intros v _; destruct Hr as [-> | ->]; reflexivity. }
  assert (Z2 : forall p row dof, row = 1 \/ row = 2 -> exists sgn, to_basis (no_discharge p) row dof = S754_zero sgn).
  { intros p row dof Hr; apply zero_rows; intros v _; destruct Hr as [-> | ->]; reflexivity. }
  destruct (Nat.eqb_spec (dry_count (dadd h_o thr) h) 3) as [E3 | N3].
  - eexists _, _; split; [reflexivity | apply Z1].
  - destruct H as [H | H]; [contradiction |]. rewrite H. unfold final_check.
    destruct (dltb _ _); eexists _, _; (split; [reflexivity | first [apply Z1 | apply Z2]]).
Qed.

Lemma mean_nan : forall thr h v, v < 3 -> h v = S754_nan -> mean_depth thr h = S754_nan.
Proof.
  intros thr h v Hv H; unfold mean_depth; cbv zeta.
  assert (E : dadd (dadd (dadd (S754_zero false) (h 0)) (h 1)) (h 2) = S754_nan).
  { destruct v as [|[|[|v]]]; [| | | lia]; rewrite H, ?add_nan_r, ?add_nan_l; reflexivity. }
  rewrite E, div_nan_l, leb_nan_l. reflexivity.
Qed.

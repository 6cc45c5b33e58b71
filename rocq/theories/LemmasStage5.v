(** The stage described by [stage_of]. *)
From Coq Require Import Reals QArith Qreals List Bool Arith Lia Lra Permutation FunctionalExtensionality.
From Verif Require Import Num ModelSWE Outcome ModelShape ModelBasis ModelJac ModelStepper ModelWetDry ModelSlope ModelStep SpecSWE SpecShape SpecBasis SpecJac SpecStepper SpecWetDry SpecSlope SpecStep SpecStage
  LemmasSWE LemmasRK LemmasStep LemmasStage LemmasStage2 LemmasStage3 LemmasStage4.
Import ListNotations.
Open Scope R_scope.

Ltac conj_all := repeat match goal with |- _ /\ _ => split end; try reflexivity.

Lemma faces_small : forall m, faces_once m ->
  (forall f, In f (m_intfaces m) -> ((i_in f < m_n m)%nat /\ (i_bin f < 3)%nat) /\ ((i_ex f < m_n m)%nat /\ (i_bex f < 3)%nat)) /\
  (forall b, In b (m_bounds m) -> (b_elt b < m_n m)%nat /\ (b_id b < 3)%nat).
Proof.
  intros m [_ F]. split.
  - intros f Hf. split; apply F; unfold all_sides; apply in_or_app; left; apply in_flat_map; exists f; (split; [exact Hf|]); [left|right; left]; reflexivity.
  - intros b Hb. apply F. unfold all_sides. apply in_or_app. right. apply in_map_iff. exists b. split; [reflexivity|exact Hb].
Qed.
Lemma seen_small : forall m e b e', faces_once m -> seen_across m e b e' -> (e' < m_n m)%nat.
Proof.
  intros m e b e' F [(f & Hf & H)|(f & Hf & <- & _ & ->)]; destruct (faces_small m F) as [F1 F2].
  - destruct (F1 f Hf). destruct H as [(_ & _ & <-)|(_ & _ & <-)]; tauto.
  - apply F2, Hf.
Qed.
Lemma rhs_view : forall m c t k st e, (e < m_n m)%nat ->
  view (rhs_kernels m c t k st) e = EV (ms_q st e) (upd (ms_rhs st e) k (ms_rhs (rhs_kernels m c t k st) e k)) (ms_sol st e) (ms_wet st e) (ms_cd st e).
Proof.
  intros m c t k st e He. destruct (rhs_same m c t k st) as (Q & S & W & C & _). unfold view. rewrite Q, S, W, C. f_equal.
  apply functional_extensionality. intros s. unfold upd. destruct (Nat.eqb_spec s k) as [->|D]; [reflexivity|].
  apply functional_extensionality. intros v. apply functional_extensionality. intros d.
  rewrite rhs_kernels_lists. destruct (rhs_lists_at m c t k st (seq 0 (m_n m)) (m_intfaces m) (m_bounds m) (seq_NoDup _ _)) as (_ & _ & O). apply O. exact D.
Qed.

Lemma stage_spec : forall m c nbr st stp, stage_ok m c -> (st_stage stp < st_nstages stp)%nat ->
  (forall e b, (e < m_n m)%nat -> (b < 3)%nat -> seen_across m e b (nbr e b)) ->
  exists st' wd, stage_serial m c (st, stp) = Ok (st', stepper_incr stp) /\ stage_of m c nbr stp st wd st'.
Proof.
  intros m c nbr st stp OK Hk Hn. destruct OK as [[Hp1 Hp2] Tri F Hb Ht Hh].
  destruct (stage_views m c nbr st stp Hp1 Ht Hh Hb (proj1 F)) as (st' & w & E & V).
  { intros e b He Hb'. split; [apply Hn; assumption|]. apply (seen_small m e b); [exact F|]. apply Hn; assumption. }
  set (k := st_stage stp) in *. set (slot := ((k + 1) mod st_nstages stp)%nat) in *. set (t := time_at_stage stp) in *.
  exists st', (fun e => EltWD (v_q (w e) slot) (v_rhs (w e) slot) (v_wet (w e)) (v_cd (w e))). split; [exact E|].
  unfold stage_of. fold k slot t. intros e He. destruct (V e He) as [V1 V2]. clear V.
  set (rhs := ms_rhs (rhs_kernels m c t k st) e k) in *.
  set (sol := apply_minv m e rhs). set (next := fun v i => shu_osher c (st_dt stp) k (ms_q st e) (upd (ms_sol st e) k sol) v i).
  exists rhs, sol, next.
  destruct (faces_small m F) as [F1 F2].
  assert (W2 : exists q2, upd_view m c (st_dt stp) (st_nstages stp) k e (view (rhs_kernels m c t k st) e) =
      EV q2 (upd (ms_rhs st e) k rhs) (upd (ms_sol st e) k sol) (ms_wet st e) (ms_cd st e) /\ q2 slot = next /\
      ((k + 1 < st_nstages stp)%nat -> forall s, s <> (k + 1)%nat -> q2 s = ms_q st e s)).
  { rewrite (rhs_view m c t k st e He). fold rhs. unfold upd_view. cbn [v_q v_rhs v_sol v_wet v_cd]. rewrite upd_same. fold sol.
    eexists. split; [reflexivity|]. cbv zeta.
    assert (N : (fun var dof => next_state (I := nat * nat) (c_A c) (c_B c) (st_dt stp) k (fun s i => ms_q st e s (fst i) (snd i)) (fun s i => upd (ms_sol st e) k sol s (fst i) (snd i)) (var, dof)) = next).
    { apply functional_extensionality. intros v. apply functional_extensionality. intros i. apply next_shu_osher. }
    rewrite N. unfold slot. destruct (Nat.eqb_spec (k + 1) (st_nstages stp)) as [E1|E1].
    - rewrite E1, Nat.mod_same by lia. split; [|lia]. rewrite upd_other by lia. rewrite upd_same, upd_same. reflexivity.
    - rewrite Nat.mod_small by lia. split; [apply upd_same|]. intros _ s Hs. apply upd_other. exact Hs. }
  destruct W2 as (q2 & W2 & N2 & O2). rewrite W2 in V1.
  (* after wetting and drying *)
  assert (W3 : (let before := EltWD next (upd (ms_rhs st e) k rhs slot) (ms_wet st e) (ms_cd st e) in
      let after := EltWD (v_q (w e) slot) (v_rhs (w e) slot) (v_wet (w e)) (v_cd (w e)) in
      if c_wd c then wetting_drying_kernel (m_p m) (c_h_o c) (c_thr c) (m_bath m e) (m_bath_min m e) before = Ok after else after = before) /\
      v_sol (w e) = upd (ms_sol st e) k sol /\ (forall s, s <> slot -> v_q (w e) s = q2 s)).
  { rewrite <- N2. destruct (c_wd c).
    - unfold wd_view in V1. cbn [v_q v_rhs v_sol v_wet v_cd] in V1. cbv zeta.
      destruct (wetting_drying_kernel _ _ _ _ _ _) as [r| |]; cbn [bind] in V1; try discriminate.
      assert (V : w e = EV (upd q2 slot (e_q r)) (upd (upd (ms_rhs st e) k rhs) slot (e_rhs r)) (upd (ms_sol st e) k sol) (e_wet r) (e_completely_dry r)) by congruence.
      rewrite V. cbn [v_q v_rhs v_sol v_wet v_cd]. rewrite !upd_same. split; [destruct r; reflexivity|]. split; [reflexivity|].
      intros s Hs. apply upd_other. exact Hs.
    - rewrite V1. cbn [v_q v_rhs v_sol v_wet v_cd]. cbv zeta. split; [reflexivity|]. split; reflexivity. }
  destruct W3 as (W3 & S3 & O3).
  (* after limiting *)
  assert (W4 : v_sol (view st' e) = v_sol (w e) /\ v_wet (view st' e) = v_wet (w e) /\ v_cd (view st' e) = v_cd (w e) /\
    (forall s, s <> slot -> v_q (view st' e) s = v_q (w e) s) /\
    (let s := m_sl m e in
     if c_sl c then slope_limiting_kernel (m_p m) (SlIn (sl_g s) (sl_M s) (sl_nu s) (sl_med s) (sl_al s) (sl_rs s) (sl_bath s) (fun b => centre_value (v_q (w (nbr e b)) slot)))
         (v_wet (w e)) (map (fun b => v_wet (w (nbr e b))) [0; 1; 2]%nat) (v_q (w e) slot) = Ok (v_q (view st' e) slot)
     else v_q (view st' e) slot = v_q (w e) slot)).
  { cbv zeta. destruct (c_sl c).
    - unfold sl_of, sl_view in V2. cbv zeta in V2. cbn [seq] in V2. destruct (slope_limiting_kernel _ _ _ _ _) as [q| |]; cbn [bind] in V2; try discriminate.
      assert (V : view st' e = EV (upd (v_q (w e)) slot q) (v_rhs (w e)) (v_sol (w e)) (v_wet (w e)) (v_cd (w e))) by congruence.
      rewrite V. cbn [v_q v_rhs v_sol v_wet v_cd]. rewrite upd_same. conj_all. intros s Hs. apply upd_other. exact Hs.
    - rewrite V2. conj_all. }
  destruct W4 as (S4 & Wt4 & Cd4 & O4 & L4).
  split; [|split; [|split; [|split; [|split; [|split; [|split; [|split]]]]]]].
  - intros v i. apply weak_form_model; [exact He|apply Tri; exact He| |].
    + intros f Hf. destruct (F1 f Hf). tauto.
    + intros b Hb'. apply F2, Hb'.
  - apply mass_solve; [exact Hp2|]. apply jdet_ok, Tri, He.
  - change (ms_sol st' e) with (v_sol (view st' e)). congruence.
  - reflexivity.
  - exact W3.
  - exact Wt4.
  - exact Cd4.
  - exact L4.
  - intros H s Hs. change (ms_q st' e s) with (v_q (view st' e) s).
    assert (D : s <> slot) by (unfold slot; rewrite Nat.mod_small by lia; exact Hs).
    rewrite (O4 s D), (O3 s D). apply O2; assumption.
Qed.

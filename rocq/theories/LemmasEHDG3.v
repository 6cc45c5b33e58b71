(** Mass matrix, stage update, wetting, drying and limiting after any right-hand side. *)
From Coq Require Import Reals QArith Qreals List Bool Arith Lia Lra FunctionalExtensionality.
From Verif Require Import Num ModelSWE Outcome ModelShape ModelBasis ModelJac ModelStepper ModelWetDry ModelSlope ModelStep ModelIHDG ModelEHDG
  SpecSWE SpecShape SpecBasis SpecJac SpecStepper SpecWetDry SpecSlope SpecStep SpecStage SpecEHDG
  LemmasSWE LemmasRK LemmasHDG LemmasRest1 LemmasStep LemmasStage LemmasStage2 LemmasStage3 LemmasStage4 LemmasStage5 LemmasJac3 LemmasJac LemmasShape LemmasBasis4 LemmasWetDry LemmasSlope LemmasPart LemmasRK2 LemmasStepper LemmasEHDG1 LemmasEHDG2.
Import ListNotations.
Open Scope R_scope.

Lemma finish_views : forall m c nbr st1 stp, (1 <= m_p m)%nat -> 0 <= c_thr c -> 0 <= c_h_o c ->
  (forall e v, (v < 3)%nat -> m_bath_min m e <= m_bath m e v) -> NoDup (all_sides m) ->
  (forall e b, (e < m_n m)%nat -> (b < 3)%nat -> seen_across m e b (nbr e b) /\ (nbr e b < m_n m)%nat) ->
  let k := st_stage stp in
  let slot := ((k + 1) mod st_nstages stp)%nat in
  exists st' w, finish m c st1 stp = Ok st' /\ forall e, (e < m_n m)%nat ->
    let w2 := upd_view m c (st_dt stp) (st_nstages stp) k e (view st1 e) in
    (if c_wd c then wd_view m c slot e w2 = Ok (w e) else w e = w2) /\
    (if c_sl c then sl_of m w (nbr e) slot e = Ok (view st' e) else view st' e = w e).
Proof.
  intros m c nbr st1 stp Hp Ht Hh Hb ND Hn k slot. unfold finish.
  destruct (incr_stage stp) as (I1 & _). fold k in I1. fold slot in I1. rewrite I1. fold k.
  set (l := seq 0 (m_n m)). assert (NDl : NoDup l) by apply seq_NoDup.
  destruct (local_fold _ _ (update_local m c (st_dt stp) (st_nstages stp) k) l st1 (fun e => upd_view m c (st_dt stp) (st_nstages stp) k e (view st1 e)) NDl) as (st2 & E2 & V2 & O2 & M2).
  { reflexivity. }
  rewrite ofold_ok in E2. injection E2 as E2. cbv zeta. rewrite E2.
  assert (S3 : exists st3, (if c_wd c then ofold (wd_kernel m c slot) l st2 else Ok st2) = Ok st3 /\
    (forall e, (e < m_n m)%nat -> if c_wd c then wd_view m c slot e (upd_view m c (st_dt stp) (st_nstages stp) k e (view st1 e)) = Ok (view st3 e)
       else view st3 e = upd_view m c (st_dt stp) (st_nstages stp) k e (view st1 e))).
  { destruct (c_wd c).
    - destruct (local_fold _ _ (wd_local m c slot) l st2 (fun e => oget (view st2 e) (wd_view m c slot e (view st2 e))) NDl) as (st3 & E3 & V3 & _).
      { intros e _. apply oget_ok, wd_view_total; auto. }
      exists st3. split; [exact E3|]. intros e He. assert (Ie : In e l) by (apply in_seq; lia). rewrite (V3 e Ie), (V2 e Ie). apply oget_ok, wd_view_total; auto.
    - exists st2. split; [reflexivity|]. intros e He. apply V2, in_seq. lia. }
  destruct S3 as (st3 & E3 & V3). rewrite E3. cbn [bind].
  destruct (c_sl c) eqn:SL.
  - destruct (local_fold _ _ (sl_local m slot) l (sl_prepare m slot st3) (fun e => oget (view st3 e) (sl_of m (view st3) (nbr e) slot e)) NDl) as (st4 & E4 & V4 & _).
    { intros e Ie. apply in_seq in Ie. unfold sl_prepare at 1 2. cbn [ms_slm]. change (view (sl_prepare m slot st3) e) with (view st3 e).
      pose proof (prepared m slot st3 (nbr e) e Hp ND (fun b Hb' => proj1 (Hn e b ltac:(lia) Hb'))) as P. cbv zeta in P. rewrite P.
      apply oget_ok, sl_view_total. exact Hp. }
    exists st4, (view st3). split; [exact E4|]. intros e He. split; [apply V3; exact He|].
    rewrite (V4 e) by (apply in_seq; lia). apply oget_ok, sl_view_total. exact Hp.
  - exists st3, (view st3). split; [reflexivity|]. intros e He. split; [apply V3; exact He|reflexivity].
Qed.

Lemma kept_view : forall st st1 k e, same_state st1 st -> (forall e s v d, s <> k -> ms_rhs st1 e s v d = ms_rhs st e s v d) ->
  view (st1) e = EV (ms_q st e) (upd (ms_rhs st e) k (ms_rhs (st1) e k)) (ms_sol st e) (ms_wet st e) (ms_cd st e).
Proof.
  intros st st1 k e (Q & S & W & C & _) O. unfold view. rewrite Q, S, W, C. f_equal.
  apply functional_extensionality. intros s. unfold upd. destruct (Nat.eqb_spec s k) as [->|D]; [reflexivity|].
  apply functional_extensionality. intros v. apply functional_extensionality. intros d. apply O. exact D.
Qed.
Lemma finish_spec : forall m c nbr st st1 stp (form : nat -> nat -> nat -> R), stage_ok m c -> (st_stage stp < st_nstages stp)%nat ->
  (forall e b, (e < m_n m)%nat -> (b < 3)%nat -> seen_across m e b (nbr e b)) ->
  same_state st1 st -> (forall e s v d, s <> st_stage stp -> ms_rhs st1 e s v d = ms_rhs st e s v d) ->
  (forall e v i, (e < m_n m)%nat -> ms_rhs st1 e (st_stage stp) v i = form e v i) ->
  exists st' wd, finish m c st1 stp = Ok st' /\ stage_with form m c nbr stp st wd st'.
Proof.
  intros m c nbr st st1 stp form OK Hk Hn Sm Ho Hform. destruct OK as [[Hp1 Hp2] Tri F Hb Ht Hh].
  destruct (finish_views m c nbr st1 stp Hp1 Ht Hh Hb (proj1 F)) as (st' & w & E & V).
  { intros e b He Hb'. split; [apply Hn; assumption|]. apply (seen_small m e b); [exact F|]. apply Hn; assumption. }
  set (k := st_stage stp) in *. set (slot := ((k + 1) mod st_nstages stp)%nat) in *. set (t := time_at_stage stp) in *. fold k in Hform, Ho.
  exists st', (fun e => EltWD (v_q (w e) slot) (v_rhs (w e) slot) (v_wet (w e)) (v_cd (w e))). split; [exact E|].
  unfold stage_with. fold k slot t. intros e He. destruct (V e He) as [V1 V2]. clear V.
  set (rhs := ms_rhs (st1) e k) in *.
  set (sol := apply_minv m e rhs). set (next := fun v i => shu_osher c (st_dt stp) k (ms_q st e) (upd (ms_sol st e) k sol) v i).
  exists rhs, sol, next.
  destruct (faces_small m F) as [F1 F2].
  assert (W2 : exists q2, upd_view m c (st_dt stp) (st_nstages stp) k e (view (st1) e) =
      EV q2 (upd (ms_rhs st e) k rhs) (upd (ms_sol st e) k sol) (ms_wet st e) (ms_cd st e) /\ q2 slot = next /\
      ((k + 1 < st_nstages stp)%nat -> forall s, s <> (k + 1)%nat -> q2 s = ms_q st e s)).
  { rewrite (kept_view st st1 k e Sm Ho). fold rhs. unfold upd_view. cbn [v_q v_rhs v_sol v_wet v_cd]. rewrite upd_same. fold sol.
    eexists. split; [reflexivity|]. cbv zeta.
    assert (N : (fun var dof => next_state (I := nat * nat) (c_A c) (c_B c) (st_dt stp) k (fun s i => ms_q st e s (fst i) (snd i)) (fun s i => upd (ms_sol st e) k sol s (fst i) (snd i)) (var, dof)) = next).
    { apply functional_extensionality. intros v. apply functional_extensionality. intros i. apply next_shu_osher. }
    rewrite N. unfold slot. destruct (Nat.eqb_spec (k + 1) (st_nstages stp)) as [E1|E1].
    - rewrite E1, Nat.mod_same by lia. split; [|lia]. rewrite upd_other by lia. rewrite upd_same, upd_same. reflexivity.
    - rewrite Nat.mod_small by lia. split; [apply upd_same|]. intros _ s Hs. apply upd_other. exact Hs. }
  destruct W2 as (q2 & W2 & N2 & O2). rewrite W2 in V1.
  (* after wetting and drying *)
  assert (W3 : (let before := EltWD next (upd (ms_rhs st e) k rhs slot) (ms_wet st e) (ms_cd st e) in
      let after := EltWD (v_q (w e) slot) (v_rhs (w e) slot) (v_wet (w e)) (v_cd (w e)) in
      if c_wd c then wetting_drying_kernel (m_p m) (c_h_o c) (c_thr c) (m_bath m e) (m_bath_min m e) before = Ok after else after = before) /\
      v_sol (w e) = upd (ms_sol st e) k sol /\ (forall s, s <> slot -> v_q (w e) s = q2 s)).
  { rewrite <- N2. destruct (c_wd c).
    - unfold wd_view in V1. cbn [v_q v_rhs v_sol v_wet v_cd] in V1. cbv zeta.
      destruct (wetting_drying_kernel _ _ _ _ _ _) as [r| |]; cbn [bind] in V1; try discriminate.
      assert (V : w e = EV (upd q2 slot (e_q r)) (upd (upd (ms_rhs st e) k rhs) slot (e_rhs r)) (upd (ms_sol st e) k sol) (e_wet r) (e_completely_dry r)) by congruence.
      rewrite V. cbn [v_q v_rhs v_sol v_wet v_cd]. rewrite !upd_same. split; [destruct r; reflexivity|]. split; [reflexivity|].
      intros s Hs. apply upd_other. exact Hs.
    - rewrite V1. cbn [v_q v_rhs v_sol v_wet v_cd]. cbv zeta. split; [reflexivity|]. split; reflexivity. }
  destruct W3 as (W3 & S3 & O3).
  (* after limiting *)
  assert (W4 : v_sol (view st' e) = v_sol (w e) /\ v_wet (view st' e) = v_wet (w e) /\ v_cd (view st' e) = v_cd (w e) /\
    (forall s, s <> slot -> v_q (view st' e) s = v_q (w e) s) /\
    (let s := m_sl m e in
     if c_sl c then slope_limiting_kernel (m_p m) (SlIn (sl_g s) (sl_M s) (sl_nu s) (sl_med s) (sl_al s) (sl_rs s) (sl_bath s) (fun b => centre_value (v_q (w (nbr e b)) slot)))
         (v_wet (w e)) (map (fun b => v_wet (w (nbr e b))) [0; 1; 2]%nat) (v_q (w e) slot) = Ok (v_q (view st' e) slot)
     else v_q (view st' e) slot = v_q (w e) slot)).
  { cbv zeta. destruct (c_sl c).
    - unfold sl_of, sl_view in V2. cbv zeta in V2. cbn [seq] in V2. destruct (slope_limiting_kernel _ _ _ _ _) as [q| |]; cbn [bind] in V2; try discriminate.
      assert (V : view st' e = EV (upd (v_q (w e)) slot q) (v_rhs (w e)) (v_sol (w e)) (v_wet (w e)) (v_cd (w e))) by congruence.
      rewrite V. cbn [v_q v_rhs v_sol v_wet v_cd]. rewrite upd_same. conj_all. intros s Hs. apply upd_other. exact Hs.
    - rewrite V2. conj_all. }
  destruct W4 as (S4 & Wt4 & Cd4 & O4 & L4).
  split; [|split; [|split; [|split; [|split; [|split; [|split; [|split]]]]]]].
  - intros v i. apply Hform. exact He.
  - apply mass_solve; [exact Hp2|]. apply jdet_ok, Tri, He.
  - change (ms_sol st' e) with (v_sol (view st' e)). congruence.
  - reflexivity.
  - exact W3.
  - exact Wt4.
  - exact Cd4.
  - exact L4.
  - intros H s Hs. change (ms_q st' e s) with (v_q (view st' e) s).
    assert (D : s <> slot) by (unfold slot; rewrite Nat.mod_small by lia; exact Hs).
    rewrite (O4 s D), (O3 s D). apply O2; assumption.
Qed.

Lemma finish_balance : forall m c st st1 stp, hdg_mesh_ok m -> 0 <= c_thr c -> 0 <= c_h_o c -> (st_stage stp < st_nstages stp)%nat -> same_state st1 st ->
  let k := st_stage stp in
  let dt := st_dt stp in
  let slot := ((k + 1) mod st_nstages stp)%nat in
  exists st', finish m c st1 stp = Ok st' /\
  production m st' k = mass m k st1 /\
  volume m st' slot = rsum (S k) (fun s => Q2R (entry (c_A c) k s) * volume m st s + dt * Q2R (entry (c_B c) k s) * production m st' s)
                      + lifted m c dt k st st' /\
  (forall s, s <> k -> production m st' s = production m st s) /\
  ((k + 1 < st_nstages stp)%nat -> forall s, s <> (k + 1)%nat -> volume m st' s = volume m st s).
Proof.
  intros m c st st1 stp OK Ht Hh Hk S1 k dt slot. unfold finish. fold k. destruct S1 as (Q1 & So1 & W1 & _).
  pose proof (update_loop m c (st_dt stp) (st_nstages stp) k (m_n m) st1 Hk) as U. cbv zeta in U.
  set (st2 := fold_left (update_kernel m c (st_dt stp) (st_nstages stp) k) (seq 0 (m_n m)) st1) in *.
  destruct U as [U1 [_ [U3 U4]]].
  destruct (incr_stage stp) as [I1 [I2 I3]]. rewrite I1. fold k slot.
  assert (WD : exists st3, (if c_wd c then ofold (wd_kernel m c slot) (seq 0 (m_n m)) st2 else Ok st2) = Ok st3 /\ same_but slot st3 st2 /\
     forall e, (e < m_n m)%nat -> ms_q st3 e slot 0%nat 0%nat = ms_q st2 e slot 0%nat 0%nat + if c_wd c then
       Rmax 0 (c_thr c - (ms_q st2 e slot 0%nat 0%nat + (m_bath m e 0%nat + m_bath m e 1%nat + m_bath m e 2%nat) / 3)) else 0).
  { destruct (c_wd c).
    - destruct (wd_loop m c slot (hk_order m OK) Ht Hh (hk_bath m OK) (m_n m) st2) as [s [E [Sb [A _]]]]. exists s. auto.
    - exists st2. split; [reflexivity|]. split; [split; reflexivity|]. intros; ring. }
  destruct WD as [st3 [-> [[B1 B2] B3]]]. cbn [bind].
  assert (SL : exists st4, (if c_sl c then ofold (sl_kernel m slot) (seq 0 (m_n m)) (sl_prepare m slot st3) else Ok st3) = Ok st4 /\
     same_but slot st4 st3 /\ forall e, ms_q st4 e slot 0%nat 0%nat = ms_q st3 e slot 0%nat 0%nat).
  { destruct (c_sl c).
    - destruct (sl_loop m slot (hk_order m OK) (m_n m) (sl_prepare m slot st3)) as [s [E [Sb A]]]. exists s.
      split; [exact E|]. split; [exact Sb|exact A].
    - exists st3. split; [reflexivity|]. split; [split; reflexivity|]. reflexivity. }
  destruct SL as [st4 [-> [[C1 C2] C3]]]. exists st4. split; [reflexivity|].
  assert (Sol : forall e, (e < m_n m)%nat -> ms_sol st4 e = newsol m k st1 e) by (intros e He; rewrite C1, B1; apply U1; exact He).
  assert (P : production m st4 k = mass m k st1).
  { unfold production, mass. apply rsum_ext. intros e He. rewrite Sol by exact He. unfold newsol. rewrite upd_same.
    rewrite apply_minv_00, area_jdet by (apply jdet_ok, (hk_triangles m OK), He). field.
    apply Rabs_no_R0, jdet_ok, (hk_triangles m OK), He. }
  split; [|split; [|split]].
  - exact P.
  - assert (N : forall e, (e < m_n m)%nat -> ms_q st2 e slot 0%nat 0%nat = combined c dt k st st4 e).
    { intros e He. destruct (U1 e He) as [_ [E2 _]]. fold slot in E2. rewrite E2. unfold newrow. rewrite next_state_sum. unfold combined. cbn [fst snd].
      apply rsum_ext. intros s Hs. rewrite Q1, Sol by exact He. reflexivity. }
    assert (V : volume m st4 slot = rsum (m_n m) (fun e => tri_area (m_nodes m e) * combined c dt k st st4 e) + lifted m c dt k st st4).
    { unfold volume, lifted. destruct (c_wd c) eqn:Wd.
      - rewrite <- rsum_plus. apply rsum_ext. intros e He. rewrite C3, B3, N by exact He. unfold combined_depth. ring.
      - rewrite Rplus_0_r. apply rsum_ext. intros e He. rewrite C3, B3, N by exact He. ring. }
    rewrite V. f_equal. unfold volume, production, combined.
    rewrite (rsum_ext (m_n m) _ (fun e => rsum (S k) (fun s => tri_area (m_nodes m e) * (Q2R (entry (c_A c) k s) * ms_q st e s 0%nat 0%nat +
       dt * Q2R (entry (c_B c) k s) * ms_sol st4 e s 0%nat 0%nat)))) by (intros e _; rewrite rsum_scal; reflexivity).
    rewrite rsum_swap. apply rsum_ext. intros s _. rewrite <- !rsum_scal, <- rsum_plus. apply rsum_ext. intros e _. ring.
  - intros s Hs. unfold production. apply rsum_ext. intros e He. rewrite Sol by exact He. unfold newsol. rewrite upd_other by exact Hs. rewrite So1. reflexivity.
  - intros Hn s Hs. unfold volume. apply rsum_ext. intros e He.
    assert (Sl : slot = (k + 1)%nat) by (apply Nat.mod_small; exact Hn).
    rewrite C2, B2 by (rewrite Sl; exact Hs). destruct (U1 e He) as [_ [_ E]]. rewrite E, Q1 by assumption. reflexivity.
Qed.

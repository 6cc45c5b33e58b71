(** The explicit HDG stage as a whole; water balance of stages, steps and runs. *)
From Coq Require Import Reals QArith Qreals List Bool Arith Lia Lra.
From Verif Require Import Num ModelSWE Outcome ModelShape ModelBasis ModelJac ModelStepper ModelWetDry ModelSlope ModelStep ModelIHDG ModelEHDG
  SpecSWE SpecShape SpecBasis SpecJac SpecStepper SpecWetDry SpecSlope SpecStep SpecStage SpecEHDG
  LemmasSWE LemmasRK LemmasRK2 LemmasStepper LemmasPart LemmasHDG LemmasStep LemmasStage LemmasStage3 LemmasStage4 LemmasStage5 LemmasEHDG1 LemmasEHDG2 LemmasEHDG3.
Import ListNotations.
Open Scope R_scope.

Lemma rsum_lsum : forall (A : Type) n (l : list A) (g : nat -> A -> R), rsum n (fun e => lsum l (g e)) = lsum l (fun x => rsum n (fun e => g e x)).
Proof.
  intros A n l g. induction l as [|x l IH]; [apply rsum_const0; reflexivity|]. rewrite lsum_cons, <- IH, <- rsum_plus. reflexivity.
Qed.
Lemma rsum_pick : forall n j x, (j < n)%nat -> rsum n (fun e => if Nat.eqb e j then x else 0) = x.
Proof.
  intros n j x H. rewrite (rsum_one n _ j H); [rewrite Nat.eqb_refl; reflexivity|]. intros i _ D. destruct (Nat.eqb_spec i j); [contradiction|reflexivity].
Qed.

Section Stage.
  Context (m : mesh) (c : config) (solve : nat -> (nat -> nat -> R) -> (nat -> R) -> nat -> R).

  Lemma ehdg_stage_eq : forall s stp, ehdg_stage m c solve (s, stp) =
    let k := st_stage stp in let t := time_at_stage stp in let s1 := global_step m c solve t k s in
    do st <- finish m c (local_rhs m c t k (es_F s1) (es_m s)) stp ; Ok (EState st (es_q s1) (es_F s1) (es_qh s1), stepper_incr stp).
  Proof. intros s stp. unfold ehdg_stage. cbv zeta. rewrite global_keep. reflexivity. Qed.

  Lemma ehdg_stage_spec : forall nbr s stp, stage_ok m c -> (st_stage stp < st_nstages stp)%nat ->
    (forall e b, (e < m_n m)%nat -> (b < 3)%nat -> seen_across m e b (nbr e b)) ->
    exists s' wd, ehdg_stage m c solve (s, stp) = Ok (s', stepper_incr stp) /\
      fluxes_of m c solve (time_at_stage stp) (st_stage stp) s s' /\
      stage_with (hdg_form m c (time_at_stage stp) (st_stage stp) (es_m s) (es_F s')) m c nbr stp (es_m s) wd (es_m s').
  Proof.
    intros nbr s stp OK Hk Hn. rewrite ehdg_stage_eq. cbv zeta.
    set (k := st_stage stp). set (t := time_at_stage stp). set (s1 := global_step m c solve t k s).
    destruct (local_at m c t k (es_m s) (es_F s1)) as (L1 & _ & L3).
    destruct (finish_spec m c nbr (es_m s) (local_rhs m c t k (es_F s1) (es_m s)) stp (hdg_form m c t k (es_m s) (es_F s1)) OK Hk Hn L1 L3) as (st' & wd & E & S).
    { intros e v i He. apply form_model; [apply (so_faces m c OK)|exact He|apply (so_triangles m c OK), He]. }
    exists (EState st' (es_q s1) (es_F s1) (es_qh s1)), wd. rewrite E. cbn [bind]. split; [reflexivity|]. split; [|exact S].
    destruct (fluxes_model m c solve t k s (so_faces m c OK)) as [A1 A2 A3 A4]. split; assumption.
  Qed.

  (** ** Water balance *)
  Lemma int_cancel : forall t k s s1 f, hdg_mesh_ok m -> fluxes_of m c solve t k s s1 -> In f (m_intfaces m) -> i_kind f = Internal ->
    ms_wet (es_m s) (i_in f) || ms_wet (es_m s) (i_ex f) = true ->
    rsum (ngp1 m) (fun gp => w1 m gp * ze (es_F s1 (i_in f) (i_bin f) gp)) + rsum (ngp1 m) (fun gp => w1 m gp * ze (es_F s1 (i_ex f) (i_bex f) gp)) = 0.
  Proof.
    intros t k s s1 f OK Fl Hf Ki W. rewrite <- (rsum_rev (ngp1 m) (fun gp => w1 m gp * ze (es_F s1 (i_ex f) (i_bex f) gp))). rewrite <- rsum_plus.
    apply rsum_const0. intros gp Hg.
    assert (Wt : w1 m (ngp1 m - 1 - gp) = w1 m gp) by exact (hk_weights m OK gp Hg). rewrite Wt, <- Rmult_plus_distr_l.
    pose proof (fl_internal m c solve t k s s1 Fl f gp Hf Ki W Hg) as E. change (length (m_rule1 m)) with (ngp1 m) in E.
    assert (E1 := f_equal fst E). assert (E2 := f_equal snd E). cbn [fst snd] in E1, E2. rewrite E1, E2.
    assert (Z : ze (fst (interface_point m c k (es_m s) f gp)) + ze (snd (interface_point m c k (es_m s) f gp)) = 0); [|rewrite Z; ring].
    destruct (faces_small m (hk_faces m OK)) as [F1 _]. destruct (F1 f Hf) as [[H1 H2] _].
    destruct (normal_unit m (i_in f) (i_bin f) (hk_triangles m OK _ H1) H2) as [U1 U2].
    unfold interface_point. cbv zeta. destruct (_ && _); [cbn [fst snd neg3 ze]; ring|].
    match goal with |- context [ehdg_wd_point ?g ?wi ?we ?p ?q ?qh ?a ?n ?n' ?F (neg3 ?F)] =>
      pose proof (ehdg_wd_mass g wi we p q qh a n n' F U1 U2) as M end.
    cbv zeta in M. exact M.
  Qed.
  Lemma local_mass : forall t k s s1, hdg_mesh_ok m -> fluxes_of m c solve t k s s1 ->
    mass m k (local_rhs m c t k (es_F s1) (es_m s)) = rain m t (es_m s) - hdg_levee_loss m (es_F s1) (es_m s) - hdg_outflow m (es_F s1) (es_m s).
  Proof.
    intros t k s s1 OK Fl. destruct (faces_small m (hk_faces m OK)) as [F1 F2]. set (F := es_F s1). set (st := es_m s).
    destruct (local_at m c t k st F) as (_ & E & _). unfold mass.
    rewrite (rsum_ext _ _ _ (fun e He => E e 0%nat 0%nat He)). rewrite !rsum_plus, !rsum_lsum.
    assert (V : rsum (m_n m) (fun e => hvol_at m c k st e 0%nat 0%nat) = 0).
    { apply rsum_const0. intros e _. unfold hvol_at. destruct (ms_wet st e); [|reflexivity]. cbv zeta. rewrite !integration_dphi_0 by tauto. ring. }
    assert (S : rsum (m_n m) (fun e => if ms_wet st e then integration_phi m e (source_at m c t k st e) 0%nat 0%nat else 0) = rain m t st).
    { unfold rain. destruct (m_fs m) as [f|] eqn:Fs.
      - apply rsum_ext. intros e He. destruct (ms_wet st e); [|reflexivity]. rewrite integration_phi_0. f_equal. apply rsum_ext. intros gp _.
        rewrite source_ze, Fs. reflexivity.
      - apply rsum_const0. intros e He. destruct (ms_wet st e); [|reflexivity]. rewrite integration_phi_0, rsum_const0; [ring|]. intros gp _.
        rewrite source_ze, Fs. ring. }
    assert (I : lsum (m_intfaces m) (fun f => rsum (m_n m) (fun e => hint_con m st F f e 0%nat 0%nat)) = - hdg_levee_loss m F st).
    { unfold hdg_levee_loss. rewrite <- lsum_opp. apply lsum_ext. intros f Hf. destruct (F1 f Hf) as [[H1 _] [H2 _]].
      unfold hint_con. pose proof (int_cancel t k s s1 f OK Fl Hf) as Z. fold st F in Z.
      destruct (ms_wet st (i_in f) || ms_wet st (i_ex f)); [|rewrite rsum_0; destruct (i_kind f); ring].
      rewrite rsum_plus, !rsum_pick, !integration_face_0 by assumption. destruct (i_kind f).
      - specialize (Z eq_refl eq_refl).
        match goal with |- - (?h * ?a) + - (?h * ?b) = _ => replace (- (h * a) + - (h * b)) with (- (h * (a + b))) by ring end. rewrite Z. ring.
      - unfold ngp1, w1. ring. }
    assert (B : lsum (m_bounds m) (fun b => rsum (m_n m) (fun e => hbnd_con m st F b e 0%nat 0%nat)) = - hdg_outflow m F st).
    { unfold hdg_outflow. rewrite <- lsum_opp. apply lsum_ext. intros b Hb. destruct (F2 b Hb) as [H1 _]. unfold hbnd_con.
      rewrite rsum_pick by exact H1. destruct (ms_wet st (b_elt b)); [|ring]. rewrite integration_face_0. unfold ngp1, w1. ring. }
    rewrite V, S, I, B. ring.
  Qed.
  Lemma ehdg_stage_balance : forall s stp, hdg_mesh_ok m -> 0 <= c_thr c -> 0 <= c_h_o c -> (st_stage stp < st_nstages stp)%nat ->
    let k := st_stage stp in
    let dt := st_dt stp in
    let slot := ((k + 1) mod st_nstages stp)%nat in
    exists s', ehdg_stage m c solve (s, stp) = Ok (s', stepper_incr stp) /\
    fluxes_of m c solve (time_at_stage stp) k s s' /\
    production m (es_m s') k = hdg_inflow m (es_F s') (s, stp) /\
    volume m (es_m s') slot = rsum (S k) (fun i => Q2R (entry (c_A c) k i) * volume m (es_m s) i + dt * Q2R (entry (c_B c) k i) * production m (es_m s') i)
                        + lifted m c dt k (es_m s) (es_m s') /\
    (forall i, i <> k -> production m (es_m s') i = production m (es_m s) i) /\
    ((k + 1 < st_nstages stp)%nat -> forall i, i <> (k + 1)%nat -> volume m (es_m s') i = volume m (es_m s) i).
  Proof.
    intros s stp OK Ht Hh Hk k dt slot. rewrite ehdg_stage_eq. cbv zeta. fold k. set (t := time_at_stage stp). set (s1 := global_step m c solve t k s).
    destruct (local_at m c t k (es_m s) (es_F s1)) as (L1 & _ & _).
    destruct (finish_balance m c (es_m s) (local_rhs m c t k (es_F s1) (es_m s)) stp OK Ht Hh Hk L1) as (st' & E & B1 & B2 & B3 & B4). fold k dt slot in B1, B2, B3, B4.
    assert (Fl : fluxes_of m c solve t k s s1) by (apply fluxes_model, hk_faces, OK).
    exists (EState st' (es_q s1) (es_F s1) (es_qh s1)). rewrite E. cbn [bind es_m es_F]. split; [reflexivity|]. split.
    { destruct Fl as [A1 A2 A3 A4]. split; assumption. }
    split; [|split; [exact B2|split; [exact B3|exact B4]]]. rewrite B1. unfold hdg_inflow. cbn [fst snd]. apply local_mass; assumption.
  Qed.

  Lemma ehdg_stages_S : forall j x, ehdg_stages m c solve (S j) x = bind (ehdg_stages m c solve j x) (ehdg_stage m c solve).
  Proof.
    intros j x. unfold ehdg_stages. rewrite seq_S, ofold_app. destruct (ofold _ (seq 0 j) x) as [y| |]; cbn [bind ofold]; [|reflexivity|reflexivity].
    destruct (ehdg_stage m c solve y); reflexivity.
  Qed.
  Lemma ehdg_trace : forall s stp, hdg_mesh_ok m -> 0 <= c_thr c -> 0 <= c_h_o c -> (0 < st_nstages stp)%nat -> st_stage stp = 0%nat ->
    let n := st_nstages stp in
    let x := (s, stp) in
    let A j := hdg_after m c solve x j in
    let v j := volume m (es_m (fst (A j))) (j mod n)%nat in
    let P j := hdg_inflow_at m c solve x j in
    forall j, (j <= n)%nat ->
    ehdg_stages m c solve j x = Ok (A j) /\ st_stage (snd (A j)) = (j mod n)%nat /\
    st_nstages (snd (A j)) = n /\ st_dt (snd (A j)) = st_dt stp /\
    ((j < n)%nat -> (forall i, (i <= j)%nat -> volume m (es_m (fst (A j))) i = v i) /\
                    (forall i, (i < j)%nat -> production m (es_m (fst (A j))) i = P i)) /\
    (forall k, j = S k -> fluxes_of m c solve (time_at_stage (snd (A k))) k (fst (A k)) (fst (A j)) /\
      v j = rsum (S k) (fun i => Q2R (entry (c_A c) k i) * v i + st_dt stp * Q2R (entry (c_B c) k i) * P i) + hdg_lifted_at m c solve x k).
  Proof.
    intros s stp OK Ht Hh Hn H0 n x A v P j. induction j as [|j IH]; intros Hj.
    - assert (A0 : A 0%nat = x) by reflexivity. rewrite A0. split; [reflexivity|].
      rewrite Nat.mod_0_l by lia. unfold x. cbn [snd fst].
      split; [exact H0|]. split; [reflexivity|]. split; [reflexivity|]. split; [|discriminate].
      intros _. split; [|lia]. intros i Hi. assert (i = 0)%nat as -> by lia. unfold v. rewrite A0, Nat.mod_0_l by lia. reflexivity.
    - destruct (IH ltac:(lia)) as (I1 & I2 & I3 & I4 & I5 & _). clear IH.
      destruct (I5 ltac:(lia)) as [IV IP]. clear I5.
      rewrite Nat.mod_small in I2 by lia.
      destruct (A j) as [s1 stp1] eqn:Ej. cbn [fst snd] in *.
      destruct (ehdg_stage_balance s1 stp1 OK Ht Hh ltac:(lia)) as [s2 [E [B0 [B1 [B2 [B3 B4]]]]]].
      rewrite I2, I3 in B2, B4. rewrite I2 in B0, B1, B3. rewrite I4 in B2.
      assert (SE : ehdg_stages m c solve (S j) x = Ok (s2, stepper_incr stp1)) by (rewrite ehdg_stages_S, I1; exact E).
      assert (AS : A (S j) = (s2, stepper_incr stp1)) by (unfold A, hdg_after; rewrite SE; reflexivity).
      rewrite AS. cbn [fst snd]. destruct (incr_stage stp1) as [J1 [J2 J3]].
      assert (PJ : P j = hdg_inflow m (es_F s2) (s1, stp1)) by (unfold P, hdg_inflow_at; fold (A (S j)) (A j); rewrite AS, Ej; reflexivity).
      assert (VS : v (S j) = volume m (es_m s2) ((j + 1) mod n)%nat) by (unfold v; rewrite AS; cbn [fst]; rewrite Nat.add_1_r; reflexivity).
      split; [exact SE|]. rewrite J1, J2, J3, I2, I3. split; [rewrite Nat.add_1_r; reflexivity|]. split; [reflexivity|]. split; [exact I4|].
      split.
      + intros Hlt. split.
        * intros i Hi. destruct (Nat.eq_dec i (S j)) as [->|D].
          -- rewrite VS, Nat.mod_small, Nat.add_1_r by lia. reflexivity.
          -- rewrite B4 by lia. apply IV. lia.
        * intros i Hi. destruct (Nat.eq_dec i j) as [->|D]; [rewrite B1, PJ; reflexivity|]. rewrite B3 by exact D. apply IP. lia.
      + intros k Ek. assert (k = j) as -> by lia. rewrite Ej. cbn [fst snd]. split; [exact B0|]. rewrite VS, B2. unfold hdg_lifted_at. fold (A (S j)) (A j). rewrite Ej, AS. cbn [fst snd]. f_equal.
        apply rsum_ext. intros i Hi. f_equal; f_equal; [apply IV; lia|].
        destruct (Nat.eq_dec i j) as [->|D]; [rewrite B1, PJ; reflexivity|]. rewrite B3 by exact D. apply IP. lia.
  Qed.

  Lemma ehdg_step_balance : forall s stp p, hdg_mesh_ok m -> 0 <= c_thr c -> 0 <= c_h_o c -> st_stage stp = 0%nat ->
    rk_table (st_nstages stp) p = Some (c_A c, c_B c) ->
    let n := st_nstages stp in
    let x := (s, stp) in
    let V0 := volume m (es_m s) 0 in
    exists s' stp' (r : R) (w : nat -> R) created,
    ehdg_step m c solve x = Ok (s', stp') /\ st_stage stp' = 0%nat /\ st_nstages stp' = n /\
    Rabs (r - 1) <= Q2R (1 # 10000000000000) /\ (In (n, p) [(1, 1); (2, 2); (3, 3); (4, 3); (6, 3); (7, 4); (8, 4)]%nat -> r = 1) /\
    (forall k, (k < n)%nat -> 0 <= w k) /\ Rabs (rsum n w - 1) <= Q2R (1 # 10000000000) /\
    volume m (es_m s') 0 = r * V0 + st_dt stp * rsum n (fun k => w k * hdg_inflow_at m c solve x k) + created /\
    0 <= created /\ ((forall k, (k < n)%nat -> hdg_lifted_at m c solve x k = 0) -> created = 0).
  Proof.
    intros s stp p OK Ht Hh H0 E n x V0.
    pose proof (table_pos _ _ _ _ E) as Hn.
    pose proof (ehdg_trace s stp OK Ht Hh Hn H0) as T. cbv zeta in T. fold n x in T.
    set (A := fun j => hdg_after m c solve x j).
    set (v := fun k => volume m (es_m (fst (A k))) (k mod n)%nat).
    set (P := fun k => hdg_inflow_at m c solve x k).
    destruct (T n (le_n _)) as (T1 & T2 & T3 & _). rewrite Nat.mod_same in T2 by (unfold n; lia).
    destruct (hdg_after m c solve x n) as [s' stp'] eqn:An. cbn [snd] in T2, T3.
    pose proof (defect (entry (c_A c)) (entry (c_B c)) (st_dt stp) n v P (hdg_lifted_at m c solve x)
      (fun k i Hk Hi => proj1 (coef_ok n p _ _ E k i Hk Hi)) (fun k _ => lifted_nonneg m c (st_dt (snd x)) k (es_m (fst (A k))) (es_m (fst (A (S k)))))) as D.
    assert (Rec : forall k, (k < n)%nat -> v (S k) = rsum (S k) (fun i => Q2R (entry (c_A c) k i) * v i + st_dt stp * Q2R (entry (c_B c) k i) * P i) + hdg_lifted_at m c solve x k).
    { intros k Hk. destruct (T (S k) ltac:(lia)) as (_ & _ & _ & _ & _ & R). exact (proj2 (R k eq_refl)). }
    destruct (D Rec n (le_n _)) as [D1 D2]. clear D Rec.
    assert (Vn : v n = volume m (es_m s') 0) by (unfold v, A; rewrite An, Nat.mod_same by (unfold n; lia); reflexivity).
    assert (V0e : v 0%nat = V0) by (unfold v; rewrite Nat.mod_0_l by (unfold n; lia); reflexivity).
    rewrite Vn, V0e in D1. rewrite Vn, V0e in D2.
    exists s', stp', (Q2R (br (entry (c_A c)) (entry (c_B c)) n n)), (fun j => Q2R (bM (entry (c_A c)) (entry (c_B c)) n n j)),
      (volume m (es_m s') 0 - bform (entry (c_A c)) (entry (c_B c)) (st_dt stp) n V0 P n).
    split; [exact T1|]. split; [exact T2|]. split; [exact T3|]. split.
    { pose proof (Q2R_abs_le _ _ (rowsum_ok n p _ _ E n (le_n _))) as G. rewrite Q2R_minus, RMicromega.Q2R_1 in G. exact G. }
    split; [intros HI; apply (br_exact n p); [exact E|exact HI]|].
    split; [intros k Hk; apply (bM_nonneg n p); [exact E|lia|exact Hk]|].
    split; [exact (weights_sum n p _ _ E)|].
    split; [unfold bform, P; ring|]. split; [lra|]. intros Z. specialize (D2 Z). lra.
  Qed.

  (** ** Closed basins *)
  Lemma wall_mass : forall q n b, unit2 n -> ze (hdg_flux c q (wall_trace n q) b n) = 0.
  Proof.
    intros q n b U. unfold unit2 in U. unfold hdg_flux, wall_trace, flux_x, flux_y, row. cbv zeta. cbn [ze qx qy].
    set (tau := sqrt _ + Rabs _).
    match goal with |- ?l = _ => replace l with ((qx q * nx n + qy q * ny n) * (1 - (nx n * nx n + ny n * ny n))) by ring end.
    rewrite U. ring.
  Qed.
  Lemma hdg_closed_inflow : forall t k s s1 stp, hdg_mesh_ok m -> closed m -> fluxes_of m c solve t k s s1 -> hdg_inflow m (es_F s1) (s, stp) = 0.
  Proof.
    intros t k s s1 stp OK [C1 [C2 C3]] Fl. unfold hdg_inflow. cbn [fst snd].
    assert (R0 : rain m (time_at_stage stp) (es_m s) = 0) by (unfold rain; rewrite C1; reflexivity).
    assert (L0 : hdg_levee_loss m (es_F s1) (es_m s) = 0).
    { unfold hdg_levee_loss. rewrite (lsum_ext _ _ _ (fun _ => 0)) by (intros f Hf; rewrite (C3 f Hf); reflexivity). apply lsum_zero. }
    assert (O0 : hdg_outflow m (es_F s1) (es_m s) = 0).
    { unfold hdg_outflow. rewrite (lsum_ext _ _ _ (fun _ => 0)); [apply lsum_zero|].
      intros b Hb. destruct (ms_wet (es_m s) (b_elt b)) eqn:W; [|reflexivity]. rewrite rsum_const0; [ring|].
      intros gp Hg. destruct (faces_small m (hk_faces m OK)) as [_ F2]. destruct (F2 b Hb) as [H1 H2].
      pose proof (fl_land m c solve t k s s1 Fl b gp Hb (C2 b Hb) W Hg) as E. cbv zeta in E. rewrite E, wall_mass; [ring|].
      apply (normal_unit m); [apply (hk_triangles m OK), H1|exact H2]. }
    rewrite R0, L0, O0. ring.
  Qed.
  Lemma hdg_no_lift : forall x k, c_wd c = false -> hdg_lifted_at m c solve x k = 0.
  Proof. intros x k H. unfold hdg_lifted_at, lifted. rewrite H. reflexivity. Qed.
  Lemma ehdg_closed_step : forall s stp p, hdg_mesh_ok m -> closed m -> 0 <= c_thr c -> 0 <= c_h_o c -> st_stage stp = 0%nat ->
    rk_table (st_nstages stp) p = Some (c_A c, c_B c) ->
    let n := st_nstages stp in
    let x := (s, stp) in
    let V0 := volume m (es_m s) 0 in
    let exact_row := In (n, p) [(1, 1); (2, 2); (3, 3); (4, 3); (6, 3); (7, 4); (8, 4)]%nat in
    exists s' stp', ehdg_step m c solve x = Ok (s', stp') /\ st_stage stp' = 0%nat /\ st_nstages stp' = n /\
    V0 - Q2R (1 # 10000000000000) * Rabs V0 <= volume m (es_m s') 0 /\ (exact_row -> V0 <= volume m (es_m s') 0) /\
    ((forall k, (k < n)%nat -> hdg_lifted_at m c solve x k = 0) ->
       Rabs (volume m (es_m s') 0 - V0) <= Q2R (1 # 10000000000000) * Rabs V0 /\ (exact_row -> volume m (es_m s') 0 = V0)).
  Proof.
    intros s stp p OK Cl Ht Hh H0 E n x V0 ex.
    destruct (ehdg_step_balance s stp p OK Ht Hh H0 E) as (s' & stp' & r & w & cr & S1 & S2 & S3 & R1 & R2 & _ & _ & B & C0 & C1).
    exists s', stp'. split; [exact S1|]. split; [exact S2|]. split; [exact S3|]. fold n x V0 in B, C1, R2.
    pose proof (ehdg_trace s stp OK Ht Hh (table_pos _ _ _ _ E) H0) as T. cbv zeta in T. fold n x in T.
    rewrite rsum_const0 in B.
    2:{ intros k Hk. destruct (T (S k) ltac:(lia)) as (_ & _ & _ & _ & _ & Fk). destruct (Fk k eq_refl) as [Fl _].
        unfold hdg_inflow_at. destruct (hdg_after m c solve x k) as [sk pk]. cbn [fst snd] in Fl. rewrite (hdg_closed_inflow _ _ _ _ pk OK Cl Fl). ring. }
    assert (G : Rabs ((r - 1) * V0) <= Q2R (1 # 10000000000000) * Rabs V0)
      by (rewrite Rabs_mult; apply Rmult_le_compat_r; [apply Rabs_pos|exact R1]).
    replace (volume m (es_m s') 0) with (V0 + (r - 1) * V0 + cr) by (rewrite B; ring).
    assert (L : - Rabs ((r - 1) * V0) <= (r - 1) * V0) by (pose proof (Rle_abs (- ((r - 1) * V0))); rewrite Rabs_Ropp in *; lra).
    split; [lra|]. split; [intros X; rewrite (R2 X); lra|]. intros Z. rewrite (C1 Z). split.
    - replace (V0 + (r - 1) * V0 + 0 - V0) with ((r - 1) * V0) by ring. exact G.
    - intros X. rewrite (R2 X). ring.
  Qed.
  Lemma ehdg_closed_run : forall stp p N, hdg_mesh_ok m -> closed m -> 0 <= c_thr c -> 0 <= c_h_o c -> st_stage stp = 0%nat ->
    rk_table (st_nstages stp) p = Some (c_A c, c_B c) -> In (st_nstages stp, p) [(1, 1); (2, 2); (3, 3); (4, 3); (6, 3); (7, 4); (8, 4)]%nat ->
    forall s, exists s' stp', ofold (fun x _ => ehdg_step m c solve x) (seq 0 N) (s, stp) = Ok (s', stp') /\
    volume m (es_m s) 0 <= volume m (es_m s') 0 /\ (c_wd c = false -> volume m (es_m s') 0 = volume m (es_m s) 0).
  Proof.
    intros stp p N OK Cl Ht Hh.
    assert (G : forall N stp a, st_stage stp = 0%nat -> rk_table (st_nstages stp) p = Some (c_A c, c_B c) -> In (st_nstages stp, p) exact_schemes ->
      forall s, exists s' stp', ofold (fun x _ => ehdg_step m c solve x) (seq a N) (s, stp) = Ok (s', stp') /\
      volume m (es_m s) 0 <= volume m (es_m s') 0 /\ (c_wd c = false -> volume m (es_m s') 0 = volume m (es_m s) 0)); [|exact (G N stp 0%nat)].
    clear N stp. induction N as [|N IH]; intros stp a H0 E HI s.
    - exists s, stp. cbn. split; [reflexivity|]. split; [lra|reflexivity].
    - cbn [seq ofold]. destruct (ehdg_closed_step s stp p OK Cl Ht Hh H0 E) as (s1 & p1 & S1 & S2 & S3 & _ & L & K).
      rewrite S1. cbn [bind]. destruct (IH p1 (S a) S2 ltac:(rewrite S3; exact E) ltac:(rewrite S3; exact HI) s1) as (s2 & p2 & T1 & T2 & T3).
      exists s2, p2. split; [exact T1|]. split; [specialize (L HI); lra|]. intros W. rewrite (T3 W).
      apply K; [|exact HI]. intros k _. apply hdg_no_lift. exact W.
  Qed.
End Stage.

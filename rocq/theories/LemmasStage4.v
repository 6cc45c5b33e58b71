(** The serial stage, element by element. *)
From Coq Require Import Reals QArith Qreals List Bool Arith Lia Lra Permutation FunctionalExtensionality.
From Verif Require Import Num ModelSWE Outcome ModelShape ModelBasis ModelJac ModelStepper ModelWetDry ModelSlope ModelStep SpecSWE SpecShape SpecBasis SpecJac SpecStepper SpecWetDry SpecSlope SpecStep SpecStage
  LemmasSWE LemmasRK LemmasShape LemmasJac LemmasJac3 LemmasPart LemmasBasis LemmasBasis3 LemmasBasis4 LemmasWetDry LemmasSlope LemmasStep LemmasStage LemmasStage2 LemmasStage3 LemmasRest1.
Import ListNotations.
Open Scope R_scope.

(** ** Mass solve *)
Lemma rsum_one : forall n f j, (j < n)%nat -> (forall i, (i < n)%nat -> i <> j -> f i = 0) -> rsum n f = f j.
Proof.
  induction n as [|n IH]; intros f j Hj Hz; [lia|]. cbn [rsum]. destruct (Nat.eq_dec j n) as [->|D].
  - rewrite rsum_const0; [ring|]. intros i Hi. apply Hz; lia.
  - rewrite (IH f j) by (try lia; intros; apply Hz; lia). rewrite (Hz n) by lia. ring.
Qed.
Lemma ndof_mono : forall p q, (p <= q)%nat -> (dubiner_ndof p <= dubiner_ndof q)%nat.
Proof. intros p q H. unfold dubiner_ndof. apply Nat.div_le_mono; [lia|]. nia. Qed.
Lemma mass_solve : forall m e rhs, (m_p m <= 298)%nat -> GetJdet (m_nodes m e) <> 0 -> solves_mass m e (apply_minv m e rhs) rhs.
Proof.
  intros m e rhs Hp HJ v i M Hi HM. set (nd := dubiner_ndof (m_p m)) in *.
  assert (Lt : forall j, (j < nd)%nat -> (j < dubiner_ndof 298)%nat) by (intros j Hj; pose proof (ndof_mono (m_p m) 298 Hp); unfold nd in Hj; lia).
  assert (EM : forall j, (j < nd)%nat -> M j = if Nat.eqb i j then / GetMinv i i else 0).
  { intros j Hj. destruct (orthogonality i j (Lt i Hi) (Lt j Hj)) as [I _]. exact (triangle_unique _ _ _ (HM j Hj) I). }
  destruct (orthogonality i i (Lt i Hi) (Lt i Hi)) as (_ & _ & Pos).
  rewrite (rsum_one nd _ i Hi).
  - rewrite (EM i Hi), Nat.eqb_refl, area_jdet. unfold apply_minv. change (ndof m) with nd. rewrite vmsum_rsum.
    rewrite (rsum_one nd _ i Hi).
    + unfold element_minv. assert (Rabs (GetJdet (m_nodes m e)) <> 0) by (apply Rabs_no_R0; exact HJ). field. split; lra.
    + intros j Hj D. destruct (orthogonality j i (Lt j Hj) (Lt i Hi)) as (_ & Z & _). unfold element_minv. rewrite (Z D). field. apply Rabs_no_R0. exact HJ.
  - intros j Hj D. rewrite (EM j Hj). destruct (Nat.eqb_spec i j); [congruence|]. ring.
Qed.

(** ** Shu-Osher combination *)
Lemma next_shu_osher : forall A B dt k (q sol : nat -> coeffs) v i,
  next_state (I := nat * nat) A B dt k (fun s x => q s (fst x) (snd x)) (fun s x => sol s (fst x) (snd x)) (v, i) =
  rsum (S k) (fun s => Q2R (entry A k s) * q s v i + dt * Q2R (entry B k s) * sol s v i).
Proof.
  intros A B dt k q sol v i. unfold next_state. replace (k + 1)%nat with (S k) by lia. generalize (S k) as n. intros n.
  induction n as [|n IH]; [reflexivity|]. rewrite seq_S, fold_left_app. cbn [fold_left plus rsum]. unfold rvadd at 1. rewrite IH.
  unfold rvadd, rvscale. cbn [fst snd]. ring.
Qed.

(** ** Neighbours *)
Lemma sides_sl_faces : forall m, flat_map face_sides (sl_faces m) = all_sides m.
Proof.
  intros m. unfold sl_faces, all_sides. rewrite flat_map_app. f_equal.
  - induction (m_intfaces m) as [|f l IH]; [reflexivity|]. cbn [map flat_map face_sides]. rewrite IH. reflexivity.
  - induction (m_bounds m) as [|f l IH]; [reflexivity|]. cbn [map flat_map face_sides app]. rewrite IH. reflexivity.
Qed.
Lemma seen_face : forall m e b e', NoDup (all_sides m) -> seen_across m e b e' ->
  exists f, In f (sl_faces m) /\ In (e, b) (face_sides f) /\ across f e b = e'.
Proof.
  intros m e b e' ND [(f & Hf & H)|(f & Hf & E1 & E2 & ->)].
  - exists (Intface (i_in f) (i_bin f) (i_ex f) (i_bex f)).
    assert (I : In (Intface (i_in f) (i_bin f) (i_ex f) (i_bex f)) (sl_faces m)).
    { unfold sl_faces. apply in_or_app. left. apply in_map_iff. exists f. split; [reflexivity|exact Hf]. }
    split; [exact I|]. destruct H as [(<- & <- & <-)|(<- & <- & <-)]; cbn [face_sides across In].
    + split; [left; reflexivity|]. rewrite !Nat.eqb_refl. reflexivity.
    + split; [right; left; reflexivity|]. destruct (Nat.eqb_spec (i_ex f) (i_in f)) as [E|E]; [|reflexivity].
      destruct (Nat.eqb_spec (i_bex f) (i_bin f)) as [E'|E']; cbn [andb]; [|reflexivity]. exfalso.
      apply in_split in Hf as (l1 & l2 & Hs). unfold all_sides in ND. rewrite Hs in ND.
      rewrite flat_map_app in ND. cbn [flat_map app] in ND. rewrite E, E' in ND. rewrite <- app_assoc in ND.
      assert (ND2 := ND). clear ND. induction (flat_map (fun f0 : intface => [(i_in f0, i_bin f0); (i_ex f0, i_bex f0)]) l1) as [|x l IH].
      * cbn in ND2. apply NoDup_cons_iff in ND2 as [N _]. apply N. left. reflexivity.
      * cbn in ND2. apply NoDup_cons_iff in ND2 as [_ N]. apply IH. exact N.
  - exists (Bound e b). split; [|split; [left; reflexivity|reflexivity]].
    unfold sl_faces. apply in_or_app. right. apply in_map_iff. exists f. split; [rewrite E1, E2; reflexivity|exact Hf].
Qed.
Lemma centre_model : forall m slot st e v, (1 <= m_p m)%nat -> centre_of m slot st e v = ms_q st e slot v 0%nat.
Proof.
  intros m slot st e v Hp. unfold centre_of.
  destruct (b2l (m_p m) (ms_q st e slot v) Hp) as [l [E L]]. rewrite E. apply u_baryctr_TB. exact L.
Qed.

(** ** The stage in terms of element views *)
Definition sl_of (m : mesh) (w : nat -> eview) (nbr : nat -> nat) (slot e : nat) : outcome eview :=
  sl_view m slot (fun b => centre_value (v_q (w (nbr b)) slot)) (map (fun b => v_wet (w (nbr b))) (seq 0 3)) e (w e).

Lemma prepared : forall m slot st nbr e, (1 <= m_p m)%nat -> NoDup (all_sides m) ->
  (forall b, (b < 3)%nat -> seen_across m e b (nbr b)) ->
  let sm := prepare_faces (ms_wet st) (centre_of m slot st) (ms_slm st) (sl_faces m) in
  sl_view m slot (n_q sm e) (map (n_wet sm e) (seq 0 3)) e (view st e) = sl_of m (view st) nbr slot e.
Proof.
  intros m slot st nbr e Hp ND Hn sm. unfold sl_of.
  assert (F : forall b, (b < 3)%nat -> n_wet sm e b = ms_wet st (nbr b) /\ (ms_wet st e = true -> ms_wet st (nbr b) = true -> n_q sm e b = centre_of m slot st (nbr b))).
  { intros b Hb. destruct (seen_face m e b (nbr b) ND (Hn b Hb)) as (f & I1 & I2 & I3). rewrite <- I3.
    apply prepare_ok; [rewrite sides_sl_faces; exact ND|exact I1|exact I2]. }
  apply sl_view_neigh.
  - apply map_ext_in. intros b Hb. apply in_seq in Hb. apply F. lia.
  - intros W Wn b Hb. cbn [view v_wet] in W. destruct (F b Hb) as [F1 F2].
    rewrite F2; [|exact W|].
    + apply functional_extensionality. intros v. rewrite centre_model by exact Hp. reflexivity.
    + rewrite <- F1. rewrite forallb_forall in Wn. apply Wn. apply in_map_iff. exists b. split; [reflexivity|]. apply in_seq. lia.
Qed.

Lemma stage_views : forall m c nbr st stp, (1 <= m_p m)%nat -> 0 <= c_thr c -> 0 <= c_h_o c ->
  (forall e v, (v < 3)%nat -> m_bath_min m e <= m_bath m e v) -> NoDup (all_sides m) ->
  (forall e b, (e < m_n m)%nat -> (b < 3)%nat -> seen_across m e b (nbr e b) /\ (nbr e b < m_n m)%nat) ->
  let k := st_stage stp in
  let slot := ((k + 1) mod st_nstages stp)%nat in
  exists st' w, stage_serial m c (st, stp) = Ok (st', stepper_incr stp) /\ forall e, (e < m_n m)%nat ->
    let w2 := upd_view m c (st_dt stp) (st_nstages stp) k e (view (rhs_kernels m c (time_at_stage stp) k st) e) in
    (if c_wd c then wd_view m c slot e w2 = Ok (w e) else w e = w2) /\
    (if c_sl c then sl_of m w (nbr e) slot e = Ok (view st' e) else view st' e = w e).
Proof.
  intros m c nbr st stp Hp Ht Hh Hb ND Hn k slot. unfold stage_serial.
  destruct (incr_stage stp) as (I1 & _). fold k in I1. fold slot in I1. rewrite I1. fold k.
  set (st1 := rhs_kernels m c (time_at_stage stp) k st).
  set (l := seq 0 (m_n m)). assert (NDl : NoDup l) by apply seq_NoDup.
  destruct (local_fold _ _ (update_local m c (st_dt stp) (st_nstages stp) k) l st1 (fun e => upd_view m c (st_dt stp) (st_nstages stp) k e (view st1 e)) NDl) as (st2 & E2 & V2 & O2 & M2).
  { reflexivity. }
  rewrite ofold_ok in E2. injection E2 as E2. cbv zeta. rewrite E2.
  assert (S3 : exists st3, (if c_wd c then ofold (wd_kernel m c slot) l st2 else Ok st2) = Ok st3 /\
    (forall e, (e < m_n m)%nat -> if c_wd c then wd_view m c slot e (upd_view m c (st_dt stp) (st_nstages stp) k e (view st1 e)) = Ok (view st3 e)
       else view st3 e = upd_view m c (st_dt stp) (st_nstages stp) k e (view st1 e))).
  { destruct (c_wd c).
    - destruct (local_fold _ _ (wd_local m c slot) l st2 (fun e => oget (view st2 e) (wd_view m c slot e (view st2 e))) NDl) as (st3 & E3 & V3 & _).
      { intros e _. apply oget_ok, wd_view_total; auto. }
      exists st3. split; [exact E3|]. intros e He. assert (Ie : In e l) by (apply in_seq; lia). rewrite (V3 e Ie), (V2 e Ie). apply oget_ok, wd_view_total; auto.
    - exists st2. split; [reflexivity|]. intros e He. apply V2, in_seq. lia. }
  destruct S3 as (st3 & E3 & V3). rewrite E3. cbn [bind].
  destruct (c_sl c) eqn:SL.
  - destruct (local_fold _ _ (sl_local m slot) l (sl_prepare m slot st3) (fun e => oget (view st3 e) (sl_of m (view st3) (nbr e) slot e)) NDl) as (st4 & E4 & V4 & _).
    { intros e Ie. apply in_seq in Ie. unfold sl_prepare at 1 2. cbn [ms_slm]. change (view (sl_prepare m slot st3) e) with (view st3 e).
      pose proof (prepared m slot st3 (nbr e) e Hp ND (fun b Hb' => proj1 (Hn e b ltac:(lia) Hb'))) as P. cbv zeta in P. rewrite P.
      apply oget_ok, sl_view_total. exact Hp. }
    rewrite E4. cbn [bind]. exists st4, (view st3). split; [reflexivity|]. intros e He. split; [apply V3; exact He|].
    rewrite (V4 e) by (apply in_seq; lia). apply oget_ok, sl_view_total. exact Hp.
  - cbn [bind]. exists st3, (view st3). split; [reflexivity|]. intros e He. split; [apply V3; exact He|reflexivity].
Qed.

Lemma mass_unique : forall m e sol sol' rhs, (m_p m <= 298)%nat ->
  orient (m_nodes m e 0%nat) (m_nodes m e 1%nat) (m_nodes m e 2%nat) <> 0 -> solves_mass m e sol rhs -> solves_mass m e sol' rhs ->
  forall v i, (i < dubiner_ndof (m_p m))%nat -> sol v i = sol' v i.
Proof.
  intros m e sol sol' rhs Hp Ho H H' v i Hi. set (nd := dubiner_ndof (m_p m)) in *.
  assert (Lt : forall j, (j < nd)%nat -> (j < dubiner_ndof 298)%nat) by (intros j Hj; pose proof (ndof_mono (m_p m) 298 Hp); unfold nd in Hj; lia).
  set (M := fun j => if Nat.eqb i j then / GetMinv i i else 0).
  assert (HM : forall j, (j < nd)%nat -> is_triangle_int (fun x y => GetPhi i (x, y) * GetPhi j (x, y)) (M j)).
  { intros j Hj. destruct (orthogonality i j (Lt i Hi) (Lt j Hj)) as [I _]. exact I. }
  destruct (orthogonality i i (Lt i Hi) (Lt i Hi)) as (_ & _ & Pos).
  assert (One : forall s, solves_mass m e s rhs -> tri_area (m_nodes m e) / 2 * / GetMinv i i * s v i = rhs v i).
  { intros s Hs. rewrite <- (Hs v i M Hi HM). fold nd. rewrite (rsum_one nd _ i Hi).
    - unfold M. rewrite Nat.eqb_refl. reflexivity.
    - intros j Hj D. unfold M. destruct (Nat.eqb_spec i j); [congruence|]. ring. }
  pose proof (One sol H) as A. pose proof (One sol' H') as B. rewrite <- B in A. apply Rmult_eq_reg_l in A; [exact A|].
  apply Rmult_integral_contrapositive_currified; [|apply Rinv_neq_0_compat; lra].
  unfold tri_area. pose proof (Rabs_no_R0 _ Ho). lra.
Qed.

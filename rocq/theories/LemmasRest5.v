(** Proofs: initial state, runs, depth, the spherical case. *)
From Coq Require Import Reals QArith Qreals Qabs List Bool Arith Lra Lia Permutation.
From Verif Require Import Num ModelSWE SpecSWE Outcome LemmasPart ModelShape SpecShape ModelBasis SpecBasis SpecStepper LemmasRK LemmasRK2 LemmasStepper LemmasSWE LemmasShape LemmasBasis4 ModelJac ModelStepper ModelWetDry SpecWetDry LemmasWetDry ModelSlope LemmasSlope ModelStep SpecStep LemmasStep ModelInit SpecRest LemmasRest1 LemmasRest2 LemmasRest3 LemmasRest4.
Import ListNotations.
Open Scope R_scope.

(** ** Initial state *)
Lemma initial_rest : forall i cfg junk c, conforming i -> in_ic i = V3 c 0 0 -> (c_wd cfg = true -> submerged i c (c_h_o cfg + c_thr cfg)) ->
  exists st, init_state i cfg junk = Ok st /\ calm i c 0 st.
Proof.
  intros i cfg junk c C Ic Sb. unfold init_state.
  set (st0 := MState _ _ _ _ _ _).
  assert (H0 : calm i c 0 st0).
  { intros e He. split; [|reflexivity]. intros var dof Hv Hd. unfold st0. cbn [ms_q]. rewrite upd_same, (init_resting i C e He) by exact Hd. rewrite Ic.
    destruct var as [|[|[|var]]]; [| | |lia]; destruct (Nat.eqb dof 0); reflexivity. }
  destruct (c_wd cfg) eqn:W; [|exists st0; split; [reflexivity|exact H0]]. specialize (Sb eq_refl).
  assert (K : forall j, (j <= in_n i)%nat -> exists st, ofold (fun st e =>
        do r <- init_wet_dry (in_p i) (c_h_o cfg) (c_thr cfg) (in_z i e) (EltWD (ms_q st e 0%nat) (ms_rhs st e 0%nat) (ms_wet st e) (ms_cd st e)) ;
        Ok (MState (upd (ms_q st) e (upd (ms_q st e) 0 (e_q r))) (upd (ms_rhs st) e (upd (ms_rhs st e) 0 (e_rhs r)))
              (ms_sol st) (upd (ms_wet st) e (e_wet r)) (upd (ms_cd st) e (e_completely_dry r)) (ms_slm st))) (seq 0 j) st0 = Ok st /\ calm i c 0 st).
  { induction j as [|j IH]; intros Hj; [exists st0; split; [reflexivity|exact H0]|]. destruct (IH ltac:(lia)) as [s [E H]].
    rewrite seq_S, ofold_app, E. cbn [bind ofold]. rewrite Nat.add_0_l. destruct (H j ltac:(lia)) as [R1 W1].
    assert (I : init_wet_dry (in_p i) (c_h_o cfg) (c_thr cfg) (in_z i j) (EltWD (ms_q s j 0%nat) (ms_rhs s j 0%nat) (ms_wet s j) (ms_cd s j)) =
      Ok (EltWD (ms_q s j 0%nat) (ms_rhs s j 0%nat) true (ms_cd s j))).
    { unfold init_wet_dry. cbn [e_q e_rhs e_wet e_completely_dry]. destruct (to_linear_ok (in_p i) (ms_q s j 0%nat) (proj1 (cf_order i C))) as [w [-> Wv]]. cbn [bind].
      assert (D : forall v, (v < 3)%nat -> Rleb (w 0%nat v + in_z i j v) (c_h_o cfg + c_thr cfg) = false).
      { intros v Hv. apply Rleb_false. rewrite Wv by lia. rewrite (proj1 (rest_vertex i C c _ v R1 Hv)). exact (Sb j v ltac:(lia) Hv). }
      rewrite !D by lia. reflexivity. }
    rewrite I. cbn [bind e_q e_rhs e_wet e_completely_dry]. eexists. split; [reflexivity|]. intros e He. cbn [ms_q ms_wet]. unfold upd.
    destruct (Nat.eqb_spec e j) as [->|N]; [split; [exact R1|reflexivity]|exact (H e He)]. }
  exact (K (in_n i) (le_n _)).
Qed.

(** ** Schemes *)
Lemma br_exact_all : forall n p A B, rk_table n p = Some (A, B) -> In (n, p) exact_schemes -> forall k, (k <= n)%nat -> Q2R (br (entry A) (entry B) n k) = 1.
Proof.
  intros n p A B E HI k Hk. unfold exact_schemes in HI.
  pose proof (scheme_forall (fun n p A B =>
        implb (existsb (fun np => Nat.eqb n (fst np) && Nat.eqb p (snd np))
           [(1, 1); (2, 2); (3, 3); (4, 3); (6, 3); (7, 4); (8, 4)]%nat)
         (forallb (fun k => Qeq_bool (br (entry A) (entry B) n k) 1) (seq 0 (S n)))) ltac:(vm_compute; reflexivity) n p A B E) as K.
  cbv beta in K. rewrite <- RMicromega.Q2R_1. apply Qeq_eqR, Qeq_bool_iff.
  replace (existsb _ _) with true in K.
  - cbn [implb] in K. rewrite forallb_forall in K. apply (K k). apply in_seq. lia.
  - symmetry. apply existsb_exists. exists (n, p). split; [assumption|]. cbn [fst snd]. rewrite !Nat.eqb_refl. reflexivity.
Qed.
Lemma br_rec : forall a b n c k, (k < n)%nat -> c * Q2R (br a b n (S k)) = rsum (S k) (fun s => Q2R (a k s) * (c * Q2R (br a b n s))).
Proof.
  intros a b n c k Hk. rewrite br_S, Q2R_qsum, <- rsum_scal by exact Hk. apply rsum_ext. intros s _. rewrite Q2R_mult. ring.
Qed.

Lemma step_exact : forall i cfg c st stp p, conforming i -> unforced i c -> (c_wd cfg = true -> submerged i c (c_h_o cfg + c_thr cfg)) ->
  rk_table (st_nstages stp) p = Some (c_A cfg, c_B cfg) -> In (st_nstages stp, p) exact_schemes -> st_stage stp = 0%nat -> calm i c 0 st ->
  exists st' stp', step_serial (init_mesh i) cfg (st, stp) = Ok (st', stp') /\ st_nstages stp' = st_nstages stp /\ st_stage stp' = 0%nat /\ calm i c 0 st'.
Proof.
  intros i cfg c st stp p C U Sb E HI E0 H. set (n := st_nstages stp) in *.
  assert (Rec : forall k, (k < n)%nat -> (fun _ => c) (S k) = rsum (S k) (fun s => Q2R (entry (c_A cfg) k s) * (fun _ : nat => c) s)).
  { intros k Hk. cbv beta. pose proof (br_rec (entry (c_A cfg)) (entry (c_B cfg)) n c k Hk) as B. rewrite (br_exact_all n p _ _ E HI) in B by lia.
    rewrite Rmult_1_r in B. refine (eq_trans B _). apply rsum_ext. intros s Hs. rewrite (br_exact_all n p _ _ E HI) by lia. ring. }
  exact (step_rest i C cfg n (fun _ => c) (table_pos _ _ _ _ E) (fun _ _ => U) (fun W _ _ => Sb W) Rec st stp eq_refl E0 H).
Qed.
Lemma run_exact : forall i cfg c p, conforming i -> unforced i c -> (c_wd cfg = true -> submerged i c (c_h_o cfg + c_thr cfg)) ->
  forall N a st stp, rk_table (st_nstages stp) p = Some (c_A cfg, c_B cfg) -> In (st_nstages stp, p) exact_schemes -> st_stage stp = 0%nat -> calm i c 0 st ->
  exists st' stp', ofold (fun s _ => step_serial (init_mesh i) cfg s) (seq a N) (st, stp) = Ok (st', stp') /\ st_nstages stp' = st_nstages stp /\ st_stage stp' = 0%nat /\ calm i c 0 st'.
Proof.
  intros i cfg c p C U Sb N. induction N as [|N IH]; intros a st stp E HI E0 H.
  - exists st, stp. split; [reflexivity|]. split; [reflexivity|]. split; [exact E0|exact H].
  - cbn [seq ofold]. destruct (step_exact i cfg c st stp p C U Sb E HI E0 H) as (s1 & p1 & S1 & N1 & K1 & H1). rewrite S1. cbn [bind].
    rewrite <- N1. apply IH; [rewrite N1; exact E|rewrite N1; exact HI|exact K1|exact H1].
Qed.
(** Any scheme, land boundaries. *)
Lemma step_land : forall i cfg c st stp p, conforming i -> (forall b, In b (in_bounds i) -> b_bc b = Land) -> in_fs i = None -> in_sph i = None ->
  (c_wd cfg = true -> forall r, Rabs (r - 1) <= 1 / 10 ^ 13 -> submerged i (c * r) (c_h_o cfg + c_thr cfg)) ->
  rk_table (st_nstages stp) p = Some (c_A cfg, c_B cfg) -> st_stage stp = 0%nat -> calm i c 0 st ->
  exists st' stp' r, step_serial (init_mesh i) cfg (st, stp) = Ok (st', stp') /\ st_nstages stp' = st_nstages stp /\ st_stage stp' = 0%nat /\
  Rabs (r - 1) <= 1 / 10 ^ 13 /\ calm i (c * r) 0 st'.
Proof.
  intros i cfg c st stp p C L F P Sb E E0 H. set (n := st_nstages stp) in *. set (rr := fun k => Q2R (br (entry (c_A cfg)) (entry (c_B cfg)) n k)).
  assert (T : forall k, (k <= n)%nat -> Rabs (rr k - 1) <= 1 / 10 ^ 13).
  { intros k Hk. pose proof (Q2R_abs_le _ _ (rowsum_ok n p _ _ E k Hk)) as G. rewrite Q2R_minus, RMicromega.Q2R_1 in G.
    replace (1 / 10 ^ 13) with (Q2R tol13); [exact G|]. unfold tol13, Q2R. cbn [Qnum Qden]. lra. }
  assert (U : forall k, (k < n)%nat -> unforced i (c * rr k)).
  { intros k _. constructor; [|exact F|exact P]. intros b Hb. rewrite (L b Hb). exact I. }
  destruct (step_rest i C cfg n (fun k => c * rr k) (table_pos _ _ _ _ E) U (fun W k Hk => Sb W (rr k) (T k Hk))
    (fun k Hk => br_rec (entry (c_A cfg)) (entry (c_B cfg)) n c k Hk) st stp eq_refl E0) as (st' & stp' & S1 & N1 & K1 & H1).
  - unfold rr. rewrite br_0, RMicromega.Q2R_1, Rmult_1_r. exact H.
  - exists st', stp', (rr n). split; [exact S1|]. split; [exact N1|]. split; [exact K1|]. split; [apply T; lia|exact H1].
Qed.

(** ** Depth *)
Definition inside (z : point) : Prop := -1 <= fst z /\ -1 <= snd z /\ fst z + snd z <= 0.
Lemma interp_pos : forall i c d e z, submerged i c d -> (e < in_n i)%nat -> inside z -> d < c + B i e (fst z) (snd z).
Proof.
  intros i c d e [x y] Sb He (I1 & I2 & I3). cbn [fst snd] in *. pose proof (Sb e 0%nat He ltac:(lia)) as A0. pose proof (Sb e 1%nat He ltac:(lia)) as A1. pose proof (Sb e 2%nat He ltac:(lia)) as A2.
  unfold B. cbn [vmsum GetPsi fst snd].
  replace (c + (0 + in_z i e 0%nat * (- (x + y) / 2) + in_z i e 1%nat * ((1 + x) / 2) + in_z i e 2%nat * ((1 + y) / 2)))
    with ((c + in_z i e 0%nat) * (- (x + y) / 2) + (c + in_z i e 1%nat) * ((1 + x) / 2) + (c + in_z i e 2%nat) * ((1 + y) / 2)) by field.
  set (a := c + in_z i e 0%nat) in *. set (b := c + in_z i e 1%nat) in *. set (f := c + in_z i e 2%nat) in *.
  set (mn := Rmin a (Rmin b f)). assert (M : d < mn) by (repeat apply Rmin_glb_lt; assumption).
  assert (Ma : mn <= a) by apply Rmin_l. assert (Mb : mn <= b) by (eapply Rle_trans; [apply Rmin_r|apply Rmin_l]). assert (Mf : mn <= f) by (eapply Rle_trans; [apply Rmin_r|apply Rmin_r]).
  pose proof (Rmult_le_compat_r (- (x + y) / 2) _ _ ltac:(lra) Ma). pose proof (Rmult_le_compat_r ((1 + x) / 2) _ _ ltac:(lra) Mb).
  pose proof (Rmult_le_compat_r ((1 + y) / 2) _ _ ltac:(lra) Mf).
  assert (mn * (- (x + y) / 2) + mn * ((1 + x) / 2) + mn * ((1 + y) / 2) = mn) by field. lra.
Qed.
Lemma depth_positive : forall i c d e z q, conforming i -> submerged i c d -> (e < in_n i)%nat -> resting (in_p i) c q -> inside z ->
  d < ze (expand (init_mesh i) q z) + value_at i (bath_dofs i e) z.
Proof.
  intros i c d e z q C Sb He Hq Hz. rewrite (expand_rest i C c q z Hq). cbn [ze].
  rewrite (value_bath i C e z He); [apply interp_pos; assumption|].
  destruct z as [x y], Hz as (I1 & I2 & I3). cbn [fst snd] in *. unfold ok_point. cbn [snd]. destruct (Req_dec y 1) as [->|N]; [right|left; exact N]. f_equal. lra.
Qed.
Lemma whole_run : forall i cfg c junk p N stp, conforming i -> unforced i c -> in_ic i = V3 c 0 0 ->
  (c_wd cfg = true -> submerged i c (c_h_o cfg + c_thr cfg)) ->
  st_stage stp = 0%nat -> rk_table (st_nstages stp) p = Some (c_A cfg, c_B cfg) -> In (st_nstages stp, p) exact_schemes ->
  exists st st' stp', init_state i cfg junk = Ok st /\ ofold (fun s _ => step_serial (init_mesh i) cfg s) (seq 0 N) (st, stp) = Ok (st', stp') /\ calm i c 0 st'.
Proof.
  intros i cfg c junk p N stp C U Ic Sb E0 E HI. destruct (initial_rest i cfg junk c C Ic Sb) as [st [A H]].
  destruct (run_exact i cfg c p C U Sb N 0 st stp E HI E0 H) as (st' & stp' & R1 & _ & _ & H1). exists st, st', stp'. tauto.
Qed.

(** A lake at rest under the explicit HDG solver. *)
From Coq Require Import Reals QArith Qreals List Bool Arith Lia Lra Permutation.
From Verif Require Import Num ModelSWE Outcome ModelShape ModelBasis ModelJac ModelStepper ModelWetDry ModelSlope ModelStep ModelInit ModelIHDG ModelEHDG
  SpecSWE SpecShape SpecBasis SpecJac SpecStepper SpecWetDry SpecSlope SpecStep SpecStage SpecRest SpecEHDG
  LemmasSWE LemmasRK LemmasRK2 LemmasStepper LemmasPart LemmasHDG LemmasStep LemmasStage LemmasStage3 LemmasStage4 LemmasStage5
  LemmasRest1 LemmasRest2 LemmasRest3 LemmasRest4 LemmasRest5 LemmasEHDG1 LemmasEHDG2 LemmasEHDG3 LemmasEHDG4.
Import ListNotations.
Open Scope R_scope.

Lemma nodup_prod : forall (A B : Type) (l : list A) (l' : list B), NoDup l -> NoDup l' -> NoDup (list_prod l l').
Proof.
  intros A B l l' H H'. induction H as [|x l N H IH]; [constructor|]. cbn [list_prod].
  assert (G : forall l1, NoDup l1 -> forall l2 : list (A * B), NoDup l2 -> (forall y, ~ In (x, y) l2) -> NoDup (map (fun y => (x, y)) l1 ++ l2)).
  { intros l1 H1. induction H1 as [|y l1 N1 H1 IH1]; intros l2 H2 D; [exact H2|]. cbn [map app]. constructor; [|apply IH1; assumption].
    intros X. apply in_app_or in X. destruct X as [X|X]; [|exact (D y X)]. apply in_map_iff in X. destruct X as (z & E & Z). inversion E. subst z. contradiction. }
  apply G; [exact H'|exact IH|]. intros y X. apply in_prod_iff in X. tauto.
Qed.
Lemma conforming_once : forall i, conforming i -> faces_once (init_mesh i).
Proof.
  intros i C. pose proof (cf_faces i C) as P. unfold faces_once, all_sides. cbn [m_intfaces m_bounds m_n init_mesh]. fold (sides (in_intfaces i) (in_bounds i)). split.
  - apply (Permutation_NoDup (Permutation_sym P)). apply nodup_prod; apply seq_NoDup.
  - intros e b. exact (side_in i C (e, b)).
Qed.

Lemma hdg_rest : forall c x b n, hdg_flux c (V3 x 0 0) (V3 x 0 0) b n = V3 0 (pressure (c_g c) x b * nx n) (pressure (c_g c) x b * ny n).
Proof.
  intros c x b n. unfold hdg_flux, flux_x, flux_y, row. cbv zeta. cbn [ze qx qy]. set (tau := sqrt _ + Rabs _). unfold Rdiv. apply vec3_eq; cbn [ze qx qy]; ring.
Qed.
Lemma wall_rest : forall n x, wall_trace n (V3 x 0 0) = V3 x 0 0.
Proof. intros n x. unfold wall_trace. cbv zeta. cbn [ze qx qy]. apply vec3_eq; cbn [ze qx qy]; ring. Qed.
Lemma mean_rest : forall x, mean_state (V3 x 0 0) (V3 x 0 0) = V3 x 0 0.
Proof. intros x. unfold mean_state. cbn [ze qx qy]. apply vec3_eq; cbn [ze qx qy]; field. Qed.

Section Rest.
  Context (i : input) (C : conforming i) (cfg : config).
  Context (solve : nat -> (nat -> nat -> R) -> (nat -> R) -> nat -> R).
  Context (HL : forall b, In b (in_bounds i) -> b_bc b = Land) (HI : forall f, In f (in_intfaces i) -> i_kind f = Internal).
  Context (Fs : in_fs i = None) (Sp : in_sph i = None).
  Notation m := (init_mesh i).

  Lemma unforced_land : forall c, unforced i c.
  Proof. intros c. constructor; [|exact Fs|exact Sp]. intros b Hb. rewrite (HL b Hb). exact I. Qed.
  Lemma rest_value : forall c k st e b gp, calm i c k st -> (e < in_n i)%nat -> face_value m k st e b gp = V3 c 0 0.
  Proof. intros c k st e b gp H He. unfold face_value. rewrite <- value_model. apply (expand_rest i C). exact (proj1 (H e He)). Qed.
  Lemma rest_point : forall c k st f gp, calm i c k st -> In f (in_intfaces i) -> (gp < length (in_rule1 i))%nat ->
    interface_point m cfg k st f gp = point_flux m cfg k st f gp.
  Proof.
    intros c k st f gp H Hf Hg. destruct (intface_in i C f Hf) as (H1 & H2 & H3 & H4).
    unfold interface_point, point_flux. cbv zeta. rewrite !(rest_value c k st) by assumption. rewrite (proj2 (H _ H1)), (proj2 (H _ H3)), mean_rest, hdg_rest. cbn [andb].
    rewrite (HI f Hf). cbn [m_rule1 init_mesh].
    pose proof (segment_bath i C f gp Hf (HI f Hf) H2 H4 Hg) as S. cbv zeta in S.
    assert (Hx : (length (in_rule1 i) - 1 - gp < length (in_rule1 i))%nat) by lia.
    rewrite (faux_at i C c (unforced_land c) _ _ gp H1 H2 Hg), (faux_at i C c (unforced_land c) _ _ _ H3 H4 Hx).
    replace (length (in_rule1 i) - 1 - gp)%nat with (length (in_rule1 i) - gp - 1)%nat by lia. rewrite <- S.
    set (b := B i _ _ _). cbn [bath]. replace ((b + b) / 2) with b by field.
    unfold internal_point. rewrite (LLF_rest cfg c). cbn [ze]. destruct (small_rest 0 0) as [S1 S2]. rewrite S1, S2. reflexivity.
  Qed.
  Lemma rest_forms : forall c t k s s1, calm i c k (es_m s) -> fluxes_of m cfg solve t k s s1 -> forall e v d, (e < in_n i)%nat ->
    hdg_form m cfg t k (es_m s) (es_F s1) e v d = weak_form m cfg t k (es_m s) e v d.
  Proof.
    intros c t k s s1 H Fl e v d He. unfold hdg_form, weak_form. f_equal; [f_equal|].
    - rewrite (proj2 (H e He)). unfold hdg_interior, interior. f_equal. apply rsum_ext. intros gp Hg. destruct (nth gp (m_rule2 m) (0, (0, 0))) as [w z].
      cbv zeta. cbn [m_rule2 init_mesh] in Hg. assert (S1 : sp (m_aux m e gp) = 1) by (rewrite (aux_at i C c (unforced_land c) e gp He Hg); reflexivity).
      rewrite S1. reflexivity.
    - apply lsum_ext. intros f Hf. cbn [m_intfaces init_mesh] in Hf. destruct (intface_in i C f Hf) as (H1 & H2 & H3 & H4).
      unfold hdg_interface_load, interface_load. rewrite (proj2 (H _ H1)). cbn [orb]. cbv zeta.
      assert (Pt : forall gp, (gp < length (in_rule1 i))%nat ->
        (es_F s1 (i_in f) (i_bin f) gp, es_F s1 (i_ex f) (i_bex f) (length (in_rule1 i) - 1 - gp)%nat) = point_flux m cfg k (es_m s) f gp).
      { intros gp Hg. rewrite <- (rest_point c k (es_m s) f gp H Hf Hg). apply (fl_internal m cfg solve t k s s1 Fl f gp Hf (HI f Hf)); [|exact Hg].
        rewrite (proj2 (H _ H1)). reflexivity. }
      f_equal.
      + destruct (Nat.eqb e (i_in f)); [|reflexivity]. unfold face_integral. f_equal. apply rsum_ext. intros gp Hg. cbn [m_rule1 init_mesh] in *.
        destruct (nth gp (in_rule1 i) (0, 0)) as [w z]. rewrite <- (Pt gp Hg). reflexivity.
      + destruct (Nat.eqb e (i_ex f)); [|reflexivity]. unfold face_integral. f_equal. apply rsum_ext. intros gp Hg. cbn [m_rule1 init_mesh] in *.
        destruct (nth gp (in_rule1 i) (0, 0)) as [w z]. rewrite <- (Pt (length (in_rule1 i) - 1 - gp)%nat ltac:(lia)). cbn [snd].
        replace (length (in_rule1 i) - 1 - (length (in_rule1 i) - 1 - gp))%nat with gp by lia. reflexivity.
    - apply lsum_ext. intros b Hb. cbn [m_bounds init_mesh] in Hb. destruct (bound_in i C b Hb) as [H1 H2].
      unfold hdg_boundary_load, boundary_load. destruct (Nat.eqb_spec e (b_elt b)) as [->|]; [|reflexivity]. rewrite (proj2 (H _ H1)). cbn [andb].
      unfold face_integral. f_equal. apply rsum_ext. intros gp Hg. cbn [m_rule1 init_mesh] in *. destruct (nth gp (in_rule1 i) (0, 0)) as [w z]. cbv zeta.
      pose proof (fl_land m cfg solve t k s s1 Fl b gp Hb (HL b Hb) (proj2 (H _ H1)) Hg) as E. cbv zeta in E. rewrite E, (HL b Hb).
      rewrite (rest_value c k (es_m s)) by assumption. rewrite wall_rest, hdg_rest.
      rewrite (faux_at i C c (unforced_land c) _ _ gp H1 H2 Hg). cbn [bath]. unfold land_flux. rewrite land_ex_rest, (LLF_rest cfg c). reflexivity.
  Qed.
  Lemma rest_rhs : forall c t k s s1, calm i c k (es_m s) -> fluxes_of m cfg solve t k s s1 -> forall e v d, (e < in_n i)%nat -> (v < 3)%nat -> (d < dofs i)%nat ->
    ms_rhs (local_rhs m cfg t k (es_F s1) (es_m s)) e k v d = 0.
  Proof.
    intros c t k s s1 H Fl e v d He Hv Hd. pose proof (cf_triangles i C e He) as O.
    rewrite form_model; [|exact (conforming_once i C)|exact He|cbn [m_nodes init_mesh]; lra].
    rewrite (rest_forms c) by assumption. rewrite <- weak_form_model.
    - apply (rhs_zero i C cfg c (unforced_land c)); assumption.
    - exact He.
    - cbn [m_nodes init_mesh]. lra.
    - intros f Hf. destruct (intface_in i C f Hf). tauto.
    - intros b Hb. destruct (bound_in i C b Hb). tauto.
  Qed.
End Rest.

Section Steps.
  Context (i : input) (C : conforming i) (cfg : config) (n : nat) (cs : nat -> R).
  Context (solve : nat -> (nat -> nat -> R) -> (nat -> R) -> nat -> R).
  Context (HL : forall b, In b (in_bounds i) -> b_bc b = Land) (HI : forall f, In f (in_intfaces i) -> i_kind f = Internal).
  Context (Fs : in_fs i = None) (Sp : in_sph i = None).
  Context (Hn : (0 < n)%nat).
  Context (Sb : c_wd cfg = true -> forall k, (k <= n)%nat -> submerged i (cs k) (c_h_o cfg + c_thr cfg)).
  Context (Rec : forall k, (k < n)%nat -> cs (S k) = rsum (S k) (fun s => Q2R (entry (c_A cfg) k s) * cs s)).
  Notation m := (init_mesh i).
  Notation still := (still i cs).

  Lemma finish_rest : forall st st1 stp, st_nstages stp = n -> (st_stage stp < n)%nat -> let k := st_stage stp in still k st -> same_state st1 st ->
    (forall e var dof, (e < in_n i)%nat -> (var < 3)%nat -> (dof < dofs i)%nat -> ms_rhs st1 e k var dof = 0) ->
    exists st', finish m cfg st1 stp = Ok st' /\ calm i (cs (S k)) ((k + 1) mod n)%nat st' /\ ((S k < n)%nat -> still (S k) st').
  Proof.
    intros st st1 stp En Hk k H S1 Z. unfold finish. cbv zeta. fold k. fold k in Hk. destruct S1 as (Q1 & So1 & W1 & _).
    pose proof (update_loop m cfg (st_dt stp) (st_nstages stp) k (m_n m) st1 ltac:(rewrite En; exact Hk)) as Up. cbv zeta in Up.
    set (st2 := fold_left (update_kernel m cfg (st_dt stp) (st_nstages stp) k) (seq 0 (m_n m)) st1) in *.
    destruct Up as [U1 [_ [_ U4]]]. cbn [m_n init_mesh] in U1. rewrite En in U1.
    destruct (incr_stage stp) as [I1 _]. rewrite I1, En. fold k. set (slot := ((k + 1) mod n)%nat) in *.
    assert (Sol : forall e s var dof, (e < in_n i)%nat -> (s <= k)%nat -> (var < 3)%nat -> (dof < dofs i)%nat -> newsol m k st1 e s var dof = 0).
    { intros e s var dof He Hs Hv Hd. unfold newsol, upd. destruct (Nat.eqb_spec s k) as [->|N].
      - unfold apply_minv. rewrite vmsum_rsum. apply rsum_const0. intros d Hd'. unfold ndof in Hd'. cbn [m_p init_mesh] in Hd'. rewrite Z by assumption. ring.
      - rewrite So1. apply (H e He); [lia|exact Hv|exact Hd]. }
    assert (C2 : calm i (cs (S k)) slot st2).
    { intros e He. destruct (U1 e He) as [_ [E _]]. rewrite E, U4, W1. split; [|apply (H e He)]. intros var dof Hv Hd. unfold newrow. rewrite next_state_sum. cbn [fst snd].
      rewrite (rsum_ext _ _ (fun s => (if (Nat.eqb var 0 && Nat.eqb dof 0)%bool then 1 else 0) * (Q2R (entry (c_A cfg) k s) * cs s))).
      - rewrite rsum_scal, <- Rec by exact Hk. destruct (_ && _)%bool; ring.
      - intros s Hs. rewrite Q1, (Sol e s var dof He ltac:(lia) Hv Hd). destruct (H e He) as (_ & B & _). rewrite (B s ltac:(lia) var dof Hv Hd). destruct (_ && _)%bool; ring. }
    destruct (post_rest i C cfg (cs (S k)) slot st2 (fun W => Sb W (S k) ltac:(lia)) C2) as [st4 [E A]].
    exists st4. split; [exact E|]. split.
    - exact (alike_calm i (cs (S k)) slot st4 st2 A C2).
    - intros Hlt e He. assert (Sl : slot = S k) by (unfold slot; rewrite Nat.mod_small; lia).
      destruct (alike_calm i (cs (S k)) slot st4 st2 A C2 e He) as [R4 W4]. rewrite Sl in R4. destruct A as (AQ & AS & _). destruct (U1 e He) as [E1 [_ E3]]. destruct (H e He) as (_ & B & _).
      split; [exact W4|split].
      + intros s Hs. destruct (Nat.eq_dec s (S k)) as [->|N]; [exact R4|]. intros var dof Hv Hd. rewrite AQ, E3, Q1 by lia. apply B; [lia|exact Hv|exact Hd].
      + intros s var dof Hs Hv Hd. rewrite AS, E1. apply Sol; try assumption. lia.
  Qed.
  Lemma ehdg_stage_rest : forall s stp, st_nstages stp = n -> (st_stage stp < n)%nat -> let k := st_stage stp in still k (es_m s) ->
    exists s', ehdg_stage m cfg solve (s, stp) = Ok (s', stepper_incr stp) /\
    calm i (cs (S k)) ((k + 1) mod n)%nat (es_m s') /\ ((S k < n)%nat -> still (S k) (es_m s')).
  Proof.
    intros s stp En Hk k H. rewrite ehdg_stage_eq. cbv zeta. fold k. fold k in Hk. set (t := time_at_stage stp). set (s1 := global_step m cfg solve t k s).
    assert (Hc : calm i (cs k) k (es_m s)) by (intros e He; destruct (H e He) as (A & B & _); split; [apply B; lia|exact A]).
    destruct (local_at m cfg t k (es_m s) (es_F s1)) as (L1 & _ & _).
    assert (Fl : fluxes_of m cfg solve t k s s1) by (apply fluxes_model, conforming_once, C).
    destruct (finish_rest (es_m s) _ stp En Hk H L1 (rest_rhs i C cfg solve HL HI Fs Sp (cs k) t k s s1 Hc Fl)) as (st' & E & K1 & K2).
    rewrite E. cbn [bind]. eexists. split; [reflexivity|]. cbn [es_m]. split; [exact K1|exact K2].
  Qed.
  Lemma ehdg_stages_rest : forall s stp, st_nstages stp = n -> st_stage stp = 0%nat -> calm i (cs 0%nat) 0 (es_m s) -> forall j, (j < n)%nat ->
    exists s' stp', ehdg_stages m cfg solve j (s, stp) = Ok (s', stp') /\ st_nstages stp' = n /\ st_stage stp' = j /\ still j (es_m s').
  Proof.
    intros s stp En E0 H. induction j as [|j IH]; intros Hj.
    - exists s, stp. split; [reflexivity|]. split; [exact En|]. split; [exact E0|]. intros e He. destruct (H e He) as [A B]. split; [exact B|]. split; [|lia].
      intros s0 Hs. assert (s0 = 0)%nat as -> by lia. exact A.
    - destruct (IH ltac:(lia)) as (s1 & p1 & E1 & N1 & K1 & S1). rewrite ehdg_stages_S, E1. cbn [bind].
      destruct (ehdg_stage_rest s1 p1 N1 ltac:(lia)) as (s2 & E2 & _ & S2); [rewrite K1; exact S1|]. rewrite K1 in S2.
      exists s2, (stepper_incr p1). split; [exact E2|]. destruct (incr_stage p1) as [I1 [I2 _]]. rewrite I1, I2, N1, K1.
      split; [reflexivity|]. split; [rewrite Nat.mod_small; lia|apply S2; lia].
  Qed.
  Lemma ehdg_step_rest : forall s stp, st_nstages stp = n -> st_stage stp = 0%nat -> calm i (cs 0%nat) 0 (es_m s) ->
    exists s' stp', ehdg_step m cfg solve (s, stp) = Ok (s', stp') /\ st_nstages stp' = n /\ st_stage stp' = 0%nat /\ calm i (cs n) 0 (es_m s').
  Proof.
    intros s stp En E0 H. unfold ehdg_step. cbn [snd]. rewrite En. destruct (ehdg_stages_rest s stp En E0 H (n - 1) ltac:(lia)) as (s1 & p1 & E1 & N1 & K1 & S1).
    assert (En' : ehdg_stages m cfg solve n (s, stp) = ehdg_stages m cfg solve (S (n - 1)) (s, stp)) by (f_equal; lia).
    rewrite En', ehdg_stages_S, E1. cbn [bind].
    destruct (ehdg_stage_rest s1 p1 N1 ltac:(lia)) as (s2 & E2 & C2 & _); [rewrite K1; exact S1|]. rewrite K1 in C2. replace (n - 1 + 1)%nat with n in C2 by lia. rewrite Nat.mod_same in C2 by lia.
    replace (S (n - 1)) with n in C2 by lia. exists s2, (stepper_incr p1). split; [exact E2|]. destruct (incr_stage p1) as [I1 [I2 _]]. rewrite I1, I2, N1, K1.
    replace (n - 1 + 1)%nat with n by lia. rewrite Nat.mod_same by lia. split; [reflexivity|]. split; [reflexivity|exact C2].
  Qed.
End Steps.

Lemma ehdg_step_any : forall i cfg solve c s stp p, conforming i -> (forall b, In b (in_bounds i) -> b_bc b = Land) -> (forall f, In f (in_intfaces i) -> i_kind f = Internal) ->
  in_fs i = None -> in_sph i = None ->
  (c_wd cfg = true -> forall r, Rabs (r - 1) <= 1 / 10 ^ 13 -> submerged i (c * r) (c_h_o cfg + c_thr cfg)) ->
  rk_table (st_nstages stp) p = Some (c_A cfg, c_B cfg) -> st_stage stp = 0%nat -> calm i c 0 (es_m s) ->
  exists s' stp' r, ehdg_step (init_mesh i) cfg solve (s, stp) = Ok (s', stp') /\ st_nstages stp' = st_nstages stp /\ st_stage stp' = 0%nat /\
  Rabs (r - 1) <= 1 / 10 ^ 13 /\ calm i (c * r) 0 (es_m s').
Proof.
  intros i cfg solve c s stp p C HL HI Fs Sp Sb E E0 H. set (n := st_nstages stp) in *. set (rr := fun k => Q2R (br (entry (c_A cfg)) (entry (c_B cfg)) n k)).
  assert (T : forall k, (k <= n)%nat -> Rabs (rr k - 1) <= 1 / 10 ^ 13).
  { intros k Hk. pose proof (Q2R_abs_le _ _ (rowsum_ok n p _ _ E k Hk)) as G. rewrite Q2R_minus, RMicromega.Q2R_1 in G.
    replace (1 / 10 ^ 13) with (Q2R tol13); [exact G|]. unfold tol13, Q2R. cbn [Qnum Qden]. lra. }
  destruct (ehdg_step_rest i C cfg n (fun k => c * rr k) solve HL HI Fs Sp (table_pos _ _ _ _ E) (fun W k Hk => Sb W (rr k) (T k Hk))
    (fun k Hk => br_rec (entry (c_A cfg)) (entry (c_B cfg)) n c k Hk) s stp eq_refl E0) as (s' & stp' & S1 & N1 & K1 & H1).
  - unfold rr. rewrite br_0, RMicromega.Q2R_1, Rmult_1_r. exact H.
  - exists s', stp', (rr n). split; [exact S1|]. split; [exact N1|]. split; [exact K1|]. split; [apply T; lia|exact H1].
Qed.
Lemma ehdg_step_exact : forall i cfg solve c s stp p, conforming i -> (forall b, In b (in_bounds i) -> b_bc b = Land) -> (forall f, In f (in_intfaces i) -> i_kind f = Internal) ->
  in_fs i = None -> in_sph i = None -> (c_wd cfg = true -> submerged i c (c_h_o cfg + c_thr cfg)) ->
  rk_table (st_nstages stp) p = Some (c_A cfg, c_B cfg) -> In (st_nstages stp, p) exact_schemes -> st_stage stp = 0%nat -> calm i c 0 (es_m s) ->
  exists s' stp', ehdg_step (init_mesh i) cfg solve (s, stp) = Ok (s', stp') /\ st_nstages stp' = st_nstages stp /\ st_stage stp' = 0%nat /\ calm i c 0 (es_m s').
Proof.
  intros i cfg solve c s stp p C HL HI Fs Sp Sb E HE E0 H. set (n := st_nstages stp) in *.
  assert (Rec : forall k, (k < n)%nat -> (fun _ => c) (S k) = rsum (S k) (fun s => Q2R (entry (c_A cfg) k s) * (fun _ : nat => c) s)).
  { intros k Hk. cbv beta. pose proof (br_rec (entry (c_A cfg)) (entry (c_B cfg)) n c k Hk) as B. rewrite (br_exact_all n p _ _ E HE) in B by lia.
    rewrite Rmult_1_r in B. refine (eq_trans B _). apply rsum_ext. intros j Hs. rewrite (br_exact_all n p _ _ E HE) by lia. ring. }
  exact (ehdg_step_rest i C cfg n (fun _ => c) solve HL HI Fs Sp (table_pos _ _ _ _ E) (fun W _ _ => Sb W) Rec s stp eq_refl E0 H).
Qed.
Lemma ehdg_run_rest : forall i cfg solve c junk jq jF p N stp, conforming i -> (forall b, In b (in_bounds i) -> b_bc b = Land) -> (forall f, In f (in_intfaces i) -> i_kind f = Internal) ->
  in_fs i = None -> in_sph i = None -> in_ic i = V3 c 0 0 -> (c_wd cfg = true -> submerged i c (c_h_o cfg + c_thr cfg)) ->
  st_stage stp = 0%nat -> rk_table (st_nstages stp) p = Some (c_A cfg, c_B cfg) -> In (st_nstages stp, p) exact_schemes ->
  exists st s' stp', init_state i cfg junk = Ok st /\
  ofold (fun x _ => ehdg_step (init_mesh i) cfg solve x) (seq 0 N) (ehdg_start st jq jF, stp) = Ok (s', stp') /\ calm i c 0 (es_m s').
Proof.
  intros i cfg solve c junk jq jF p N stp C HL HI Fs Sp Ic Sb E0 E HE. destruct (initial_rest i cfg junk c C Ic Sb) as [st [A H]].
  assert (R : forall N a s stp, rk_table (st_nstages stp) p = Some (c_A cfg, c_B cfg) -> In (st_nstages stp, p) exact_schemes -> st_stage stp = 0%nat -> calm i c 0 (es_m s) ->
    exists s' stp', ofold (fun x _ => ehdg_step (init_mesh i) cfg solve x) (seq a N) (s, stp) = Ok (s', stp') /\ calm i c 0 (es_m s')).
  { clear - C HL HI Fs Sp Sb. induction N as [|N IH]; intros a s stp E HE E0 H; [exists s, stp; split; [reflexivity|exact H]|].
    cbn [seq ofold]. destruct (ehdg_step_exact i cfg solve c s stp p C HL HI Fs Sp Sb E HE E0 H) as (s1 & p1 & S1 & N1 & K1 & H1). rewrite S1. cbn [bind].
    apply IH; [rewrite N1; exact E|rewrite N1; exact HE|exact K1|exact H1]. }
  destruct (R N 0%nat (ehdg_start st jq jF) stp E HE E0 H) as (s' & stp' & R1 & R2). exists st, s', stp'. split; [exact A|]. split; [exact R1|exact R2].
Qed.

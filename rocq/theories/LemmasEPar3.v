(** Stages, runs and the start of the distributed explicit HDG solver. *)
From Coq Require Import Reals QArith NArith List Bool Arith Lia Lra Permutation FunctionalExtensionality.
From Verif Require Import Num ModelSWE Outcome ModelShape ModelBasis ModelJac ModelStepper ModelWetDry ModelSlope ModelStep ModelIHDG ModelEHDG ModelComm ModelPar ModelEPar
  SpecSWE SpecShape SpecStepper SpecWetDry SpecSlope SpecStep SpecStage SpecComm SpecEHDG SpecPar SpecEPar
  LemmasSWE LemmasHDG LemmasRK LemmasPart LemmasComm LemmasStep LemmasStage LemmasStage2 LemmasStage3 LemmasStage4 LemmasStage5
  LemmasEHDG1 LemmasEHDG2 LemmasEHDG3 LemmasPar LemmasPar2 LemmasPar3 LemmasPar4 LemmasPar5 LemmasEPar LemmasEPar2.
Import ListNotations.
Open Scope R_scope.

Lemma ehdg_stage_par_serial : forall m c solve subs cuts us fs s stp, stage_ok m c -> no_levees m -> decomposes m subs cuts -> (forall f, In f cuts -> fitting m f) ->
  sizes_fit_of EHDG m subs -> buffers_sized_of EHDG m subs us -> ehdg_distributes m subs cuts us fs s -> (st_stage stp < st_nstages stp)%nat ->
  exists s' us' fs', ehdg_stage m c solve (s, stp) = Ok (s', stepper_incr stp) /\ ehdg_stage_par m c solve subs (us, fs, stp) = Ok (us', fs', stepper_incr stp) /\
    ehdg_distributes m subs cuts us' fs' s' /\ buffers_sized_of EHDG m subs us'.
Proof.
  intros m c solve subs cuts us fs s stp OK NL D Cf Fit Sz (Hd & Hb & Hm) Hk. pose proof OK as [[Hp1 Hp2] Tri FO Hbm Ht Hh].
  set (k := st_stage stp) in *. set (slot := ((k + 1) mod st_nstages stp)%nat) in *. set (t := time_at_stage stp) in *.
  set (s1 := global_step m c solve t k s).
  destruct (finish_views m c (nbr_of m) (local_rhs m c t k (es_F s1) (es_m s1)) stp Hp1 Ht Hh Hbm (proj1 FO)) as (st' & w & E & V).
  { intros e b He Hb'. pose proof (nbr_seen m e b FO He Hb') as S. split; [exact S|]. apply (seen_small m e b); assumption. }
  fold k slot in V.
  exists (EState st' (es_q s1) (es_F s1) (es_qh s1)). unfold ehdg_stage_par. fold k t. destruct (incr_stage stp) as (I1 & _). fold k slot in I1.
  destruct (delivered_units EHDG m subs 2 bound_state eq_refl (face_message m k)) with (cuts := cuts) (us := us) as (us1 & E1 & Sz1 & U1 & A1); [|exact D|exact Fit|exact Sz|].
  { intros x d. rewrite message_length. cbn [capacity]. lia. }
  change (exchange subs (send_states_of EHDG 2 m k) us = Ok us1) in E1. rewrite E1. cbn [bind].
  assert (Hd1 : distributes subs us1 (es_m s)) by (intros i e Hi He; rewrite (U1 i Hi); apply Hd; assumption).
  assert (Arr : earrives m k subs us1 (delivered subs us1)).
  { intros i r j n Hi Hr Hj Hn rb d'. destruct (dc_partner _ _ _ D i r Hi Hr) as (P1 & _). fold rb in P1. rewrite (U1 _ P1).
    apply (A1 i r j n Hi Hr Hj). cbn [capacity]. lia. }
  set (w2 e := upd_view m c (st_dt stp) (st_nstages stp) k e (view (local_rhs m c t k (es_F s1) (es_m s1)) e)) in *.
  assert (Un : forall i, (i < length subs)%nat -> exists r, unit_stage m c solve t (st_dt stp) (st_nstages stp) k (sub subs i) (delivered subs us1 i) (u_st (us1 i)) (fs i) = Ok r /\
    (forall e, In e (su_elts (unit_at subs i)) -> view (fst r) e = w2 e) /\
    (forall j l b, nth_error (su_bounds (unit_at subs i)) j = Some b -> nth_error (m_bounds m) l = Some b ->
       fc_qh (snd r) j = es_qh s1 l /\ forall gp, (gp < ngp1 m)%nat -> fc_q (snd r) (b_elt b) (b_id b) gp = es_q s1 (b_elt b) (b_id b) gp) /\
    fc_bath (snd r) = fc_bath (fs i)).
  { intros i Hi. destruct (unit_ehdg m c solve t k subs cuts D FO NL Cf s us1 fs Hd1 Hb Hm _ Arr i (st_dt stp) (st_nstages stp) Hi) as (sa & fa & Ea & Va & Ba & Ta).
    exists (sa, fa). split; [exact Ea|]. split; [|split; [exact Ba|exact Ta]]. intros e He. cbn [fst]. rewrite (Va e He). unfold w2, s1. rewrite global_keep. reflexivity. }
  set (g i := oget (u_st (us1 i), fs i) (unit_stage m c solve t (st_dt stp) (st_nstages stp) k (sub subs i) (delivered subs us1 i) (u_st (us1 i)) (fs i))).
  destruct (for_all_ok _ (length subs) (fun i => unit_stage m c solve t (st_dt stp) (st_nstages stp) k (sub subs i) (delivered subs us1 i) (u_st (us1 i)) (fs i))
    (fun i => (u_st (us1 i), fs i)) g) as (h & Eh & Hh').
  { intros i Hi. destruct (Un i Hi) as (r & Er & _). unfold g. rewrite Er. reflexivity. }
  rewrite Eh. cbn [bind]. cbv zeta. rewrite I1.
  assert (U2 : forall i, (i < length subs)%nat -> (forall e, In e (su_elts (unit_at subs i)) -> view (fst (h i)) e = w2 e) /\
    (forall j l b, nth_error (su_bounds (unit_at subs i)) j = Some b -> nth_error (m_bounds m) l = Some b ->
       fc_qh (snd (h i)) j = es_qh s1 l /\ forall gp, (gp < ngp1 m)%nat -> fc_q (snd (h i)) (b_elt b) (b_id b) gp = es_q s1 (b_elt b) (b_id b) gp) /\
    fc_bath (snd (h i)) = fc_bath (fs i)).
  { intros i Hi. rewrite (Hh' i Hi). unfold g. destruct (Un i Hi) as (r & Er & P). rewrite Er. exact P. }
  destruct (finish_par_views EHDG 3 m c subs cuts (fun i => UState (fst (h i)) (u_send (us1 i))) slot w2 w st' eq_refl OK D Fit) as (us4 & E4 & D4 & Sz4).
  { apply (sized_same EHDG m subs us1); [exact Sz1|reflexivity]. }
  { intros i e Hi He. apply (proj1 (U2 i Hi) e He). }
  { exact V. }
  rewrite E4. cbn [bind]. exists us4, (fun i => snd (h i)). split; [unfold ehdg_stage; fold k t s1; rewrite E; reflexivity|]. split; [reflexivity|]. split; [|exact Sz4].
  split; [exact D4|]. split.
  - intros i j l b Hi Hj Hl. destruct (U2 i Hi) as (_ & U & _). exact (U j l b Hj Hl).
  - intros i f gp Hi Hf Hg. destruct (U2 i Hi) as (_ & _ & U). rewrite U. apply Hm; assumption.
Qed.

Lemma ehdg_stages_par_serial : forall m c solve subs cuts n us fs s stp, stage_ok m c -> no_levees m -> decomposes m subs cuts -> (forall f, In f cuts -> fitting m f) ->
  sizes_fit_of EHDG m subs -> buffers_sized_of EHDG m subs us -> ehdg_distributes m subs cuts us fs s -> (st_stage stp < st_nstages stp)%nat ->
  exists s' us' fs' stp', ehdg_stages m c solve n (s, stp) = Ok (s', stp') /\ ehdg_stages_par m c solve subs n (us, fs, stp) = Ok (us', fs', stp') /\
    ehdg_distributes m subs cuts us' fs' s' /\ buffers_sized_of EHDG m subs us' /\ (st_stage stp' < st_nstages stp')%nat /\ st_nstages stp' = st_nstages stp.
Proof.
  intros m c solve subs cuts n us fs s stp OK NL D Cf Fit Sz Hd Hk. induction n as [|n IH].
  - exists s, us, fs, stp. do 5 (split; [reflexivity || assumption|]). reflexivity.
  - destruct IH as (s1 & u1 & f1 & p1 & E1 & F1 & D1 & B1 & K1 & N1).
    destruct (ehdg_stage_par_serial m c solve subs cuts u1 f1 s1 p1 OK NL D Cf Fit B1 D1 K1) as (s2 & u2 & f2 & E2 & F2 & D2 & B2).
    exists s2, u2, f2, (stepper_incr p1). unfold ehdg_stages, ehdg_stages_par in *. rewrite seq_S, !ofold_app, E1, F1. cbn [bind plus ofold]. rewrite E2, F2. cbn [bind].
    destruct (incr_stage p1) as (I1 & _). rewrite incr_nstages. do 4 (split; [reflexivity || assumption|]). split; [|exact N1]. rewrite I1. apply Nat.mod_upper_bound. lia.
Qed.
Lemma ehdg_run_par_serial : forall m c solve subs cuts N us fs s stp, stage_ok m c -> no_levees m -> decomposes m subs cuts -> (forall f, In f cuts -> fitting m f) ->
  sizes_fit_of EHDG m subs -> buffers_sized_of EHDG m subs us -> ehdg_distributes m subs cuts us fs s -> (st_stage stp < st_nstages stp)%nat ->
  exists s' us' fs' stp', ofold (fun x _ => ehdg_step m c solve x) (seq 0 N) (s, stp) = Ok (s', stp') /\
    ofold (fun x _ => ehdg_step_par m c solve subs x) (seq 0 N) (us, fs, stp) = Ok (us', fs', stp') /\
    ehdg_distributes m subs cuts us' fs' s' /\ buffers_sized_of EHDG m subs us' /\ (st_stage stp' < st_nstages stp')%nat /\ st_nstages stp' = st_nstages stp.
Proof.
  intros m c solve subs cuts N us fs s stp OK NL D Cf Fit Sz Hd Hk. induction N as [|n IH].
  - exists s, us, fs, stp. do 5 (split; [reflexivity || assumption|]). reflexivity.
  - destruct IH as (s1 & u1 & f1 & p1 & E1 & F1 & D1 & B1 & K1 & N1).
    destruct (ehdg_stages_par_serial m c solve subs cuts (st_nstages p1) u1 f1 s1 p1 OK NL D Cf Fit B1 D1 K1) as (s2 & u2 & f2 & p2 & E2 & F2 & D2 & B2 & K2 & N2).
    exists s2, u2, f2, p2. rewrite seq_S, !ofold_app, E1, F1. cbn [bind plus ofold]. unfold ehdg_step, ehdg_step_par. cbn [snd]. rewrite E2, F2. cbn [bind].
    do 5 (split; [reflexivity || assumption|]). congruence.
Qed.

(** ** Preprocessing *)
Lemma mirrored_at : forall m msg gp, (gp < ngp1 m)%nat -> mirrored m msg gp = nth (ngp1 m - 1 - gp) msg 0.
Proof.
  intros m msg gp H. unfold mirrored. set (N := ngp1 m) in *. assert (G : forall n, (n <= N)%nat -> forall x, (x < N)%nat -> (N - n <= x)%nat ->
    fold_left (fun b g => upd b (N - g - 1)%nat (nth g msg 0)) (seq 0 n) (fun _ => 0) x = nth (N - 1 - x) msg 0).
  { induction n as [|n IH]; intros Hn x Hx Hge; [lia|]. rewrite seq_S, fold_left_app. cbn [fold_left plus].
    destruct (Nat.eq_dec x (N - n - 1)) as [->|Ne].
    - rewrite upd_same. f_equal. lia.
    - rewrite upd_other by exact Ne. apply IH; lia. }
  apply G; lia.
Qed.
Lemma bath_length : forall m d, length (bath_message m d) = ngp1 m.
Proof. intros m d. unfold bath_message. rewrite map_length, seq_length. reflexivity. Qed.
Lemma bath_nth : forall m d gp, (gp < ngp1 m)%nat -> nth gp (bath_message m d) 0 = bath (m_faux m (df_elt d) (df_id d) gp).
Proof.
  intros m d gp H. unfold bath_message. rewrite (nth_indep _ 0 (bath (m_faux m (df_elt d) (df_id d) 0%nat))) by (rewrite map_length, seq_length; exact H).
  rewrite (map_nth (fun g => bath (m_faux m (df_elt d) (df_id d) g))). rewrite seq_nth by exact H. reflexivity.
Qed.

Section Start.
  Context (m : mesh) (subs : list submesh) (cuts : list intface) (D : decomposes m subs cuts) (FO : faces_once m).
  Definition barrives (recv : nat -> nat -> list (list R)) : Prop :=
    forall i r j, (i < length subs)%nat -> (r < length (su_rankbs (unit_at subs i)))%nat -> (j < length (rb_faces (rankb_at subs i r)))%nat ->
      let rb := rankb_at subs i r in
      receive (offsets_of EHDG m rb) 1 j (ngp1 m) (recv i r) = Ok (bath_message m (face_of (rankb_at subs (rb_unit rb) (rb_index rb)) j)).
  Context (recv : nat -> nat -> list (list R)) (Arr : barrives recv).

  Lemma bath_step : forall i x fc, (i < length subs)%nat -> In x (su_visit (unit_at subs i)) ->
    exists fc' f, receive_bath m (unit_at subs i) (recv i) fc x = Ok fc' /\ fc_q fc' = fc_q fc /\ fc_F fc' = fc_F fc /\ fc_qh fc' = fc_qh fc /\ In f cuts /\ In (pos_side subs i x) (sides_of f) /\
      (forall e b, (e, b) <> pos_side subs i x -> fc_bath fc' e b = fc_bath fc e b) /\
      forall gp, (gp < ngp1 m)%nat ->
        (pos_side subs i x = (i_in f, i_bin f) -> fc_bath fc' (i_in f) (i_bin f) gp = mean_bath m f gp) /\
        (pos_side subs i x = (i_ex f, i_bex f) -> fc_bath fc' (i_ex f) (i_bex f) gp = mean_bath m f (ngp1 m - 1 - gp)%nat).
  Proof.
    intros i [r j] fc Hi Hx. destruct (visit_pos m subs cuts D i r j Hi Hx) as [Hr Hj]. unfold receive_bath, pos_side. cbn [fst snd].
    change (rank_of (unit_at subs i) r) with (rankb_at subs i r). set (rb := rankb_at subs i r). set (d := face_of rb j). set (d' := face_of (rankb_at subs (rb_unit rb) (rb_index rb)) j).
    destruct (dc_partner _ _ _ D i r Hi Hr) as (P1 & P2 & P3 & P4). fold rb in P1, P2, P3, P4.
    assert (Ed : nth_error (rb_faces rb) j = Some d) by (apply nth_error_nth'; exact Hj).
    assert (Ed' : nth_error (rb_faces (rankb_at subs (rb_unit rb) (rb_index rb))) j = Some d') by (apply nth_error_nth'; rewrite P3; exact Hj).
    destruct (P4 j d d' Ed Ed') as (f & Hf & M). pose proof (Arr i r j Hi Hr Hj) as A. cbv zeta in A. fold rb in A. fold d' in A. cbv zeta. rewrite A. cbn [bind].
    eexists. exists f. split; [reflexivity|]. do 3 (split; [reflexivity|]). split; [exact Hf|].
    assert (Sd : ((df_elt d, df_id d) = (i_in f, i_bin f) /\ (df_elt d', df_id d') = (i_ex f, i_bex f)) \/ ((df_elt d, df_id d) = (i_ex f, i_bex f) /\ (df_elt d', df_id d') = (i_in f, i_bin f))).
    { destruct M as [(E1 & E2 & _)|(E1 & E2 & _)]; [left|right]; split; assumption. }
    split; [destruct Sd as [[-> _]|[-> _]]; [left|right; left]; reflexivity|]. split.
    { intros e b N. cbn [fc_bath]. unfold set2. destruct (Nat.eqb_spec (df_elt d) e) as [<-|]; [|reflexivity]. destruct (Nat.eqb_spec (df_id d) b) as [<-|]; [contradiction|reflexivity]. }
    intros gp Hg. pose proof (cuts_nodup m subs cuts D FO) as ND. cbn [fc_bath]. unfold set2.
    assert (Nd : (i_in f, i_bin f) <> (i_ex f, i_bex f)) by (apply (sides_differ cuts ND f Hf)).
    split; intros Ep; destruct Sd as [[E1 E2]|[E1 E2]]; try (exfalso; congruence); injection E1 as E1 E1'; injection E2 as E2 E2'; rewrite E1, E1', !Nat.eqb_refl; cbn [andb];
      rewrite mirrored_at by exact Hg; rewrite bath_nth by lia; rewrite E2, E2'; unfold mean_bath; fold (ngp1 m); try reflexivity.
    replace (ngp1 m - 1 - (ngp1 m - 1 - gp))%nat with gp by lia. f_equal. ring.
  Qed.
  Lemma bath_fold : forall i, (i < length subs)%nat -> forall l fc, incl l (su_visit (unit_at subs i)) -> NoDup (map (pos_side subs i) l) ->
    exists fc', ofold (receive_bath m (unit_at subs i) (recv i)) l fc = Ok fc' /\ fc_q fc' = fc_q fc /\ fc_F fc' = fc_F fc /\ fc_qh fc' = fc_qh fc /\
      (forall e b, ~ In (e, b) (map (pos_side subs i) l) -> fc_bath fc' e b = fc_bath fc e b) /\
      forall x f gp, In x l -> In f cuts -> (gp < ngp1 m)%nat ->
        (pos_side subs i x = (i_in f, i_bin f) -> fc_bath fc' (i_in f) (i_bin f) gp = mean_bath m f gp) /\
        (pos_side subs i x = (i_ex f, i_bex f) -> fc_bath fc' (i_ex f) (i_bex f) gp = mean_bath m f (ngp1 m - 1 - gp)%nat).
  Proof.
    intros i Hi l. induction l as [|x l IH]; intros fc Hl Nd.
    - exists fc. do 4 (split; [reflexivity|]). split; [reflexivity|]. intros x f gp [].
    - cbn [map] in Nd. apply NoDup_cons_iff in Nd as [N1 N2].
      destruct (bath_step i x fc Hi (Hl x (or_introl eq_refl))) as (fa & f & Ea & Qa & Fa & Ha & Hf & Is & Oa & Va).
      destruct (IH fa (fun y Hy => Hl y (or_intror Hy)) N2) as (fc' & E' & Q' & F' & H' & O' & V').
      exists fc'. cbn [ofold]. rewrite Ea. cbn [bind]. split; [exact E'|]. do 3 (split; [congruence|]). split.
      + intros e b N. cbn [map] in N. rewrite O' by (intro; apply N; right; assumption). apply Oa. intros E. apply N. left. congruence.
      + intros y g gp [<-|Iy] Hgc Hg.
        * assert (Same : In (pos_side subs i x) (sides_of g) -> g = f) by (intros Ig; apply (flat_once _ _ sides_of cuts g f _ (cuts_nodup m subs cuts D FO) Hgc Hf Ig Is)).
          split; intros Ep; rewrite O' by (rewrite <- Ep; exact N1); (rewrite Same in * by (rewrite Ep; first [left; reflexivity | right; left; reflexivity])); apply (Va gp Hg); exact Ep.
        * apply (V' y g gp Iy Hgc Hg).
  Qed.
End Start.

Lemma ehdg_init_known : forall m subs cuts us q F b, decomposes m subs cuts -> faces_once m -> sizes_fit_of EHDG m subs -> buffers_sized_of EHDG m subs us ->
  exists us' fs', ehdg_init_par m subs us q F b = Ok (us', fs') /\ buffers_sized_of EHDG m subs us' /\ (forall i, (i < length subs)%nat -> u_st (us' i) = u_st (us i)) /\
    baths_known m subs cuts fs' /\ forall i, (i < length subs)%nat -> fc_q (fs' i) = q i /\ fc_qh (fs' i) = fun _ _ _ => 0.
Proof.
  intros m subs cuts us q F b D FO Fit Sz. unfold ehdg_init_par.
  destruct (delivered_units EHDG m subs 1 init_global_prob eq_refl (fun _ => bath_message m)) with (cuts := cuts) (us := us) as (us1 & E1 & Sz1 & U1 & A1); [|exact D|exact Fit|exact Sz|].
  { intros x d. rewrite bath_length. cbn [capacity]. lia. }
  change (exchange subs (send_baths m) us = Ok us1) in E1. rewrite E1. cbn [bind].
  assert (Arr : barrives m subs (delivered subs us1)).
  { intros i r j Hi Hr Hj rb. destruct (A1 i r j (ngp1 m) Hi Hr Hj) as (w & Ew & Cw); [cbn [capacity]; lia|]. fold rb in Ew, Cw. rewrite Ew. f_equal.
    apply (carries_all _ _ _ Cw), bath_length. }
  set (fs i := Faces (q i) (F i) (fun _ _ _ => 0) (b i)).
  assert (Un : forall i, (i < length subs)%nat -> exists fc', ofold (receive_bath m (sub subs i) (delivered subs us1 i)) (su_visit (sub subs i)) (fs i) = Ok fc' /\ fc_q fc' = q i /\ fc_qh fc' = (fun _ _ _ => 0) /\
    forall x f gp, In x (su_visit (unit_at subs i)) -> In f cuts -> (gp < ngp1 m)%nat ->
        (pos_side subs i x = (i_in f, i_bin f) -> fc_bath fc' (i_in f) (i_bin f) gp = mean_bath m f gp) /\
        (pos_side subs i x = (i_ex f, i_bex f) -> fc_bath fc' (i_ex f) (i_bex f) gp = mean_bath m f (ngp1 m - 1 - gp)%nat)).
  { intros i Hi. destruct (bath_fold m subs cuts D FO _ Arr i Hi (su_visit (unit_at subs i)) (fs i) (incl_refl _) (visit_nodup m subs cuts D FO i Hi)) as (fc' & E & Q & _ & H & _ & V).
    exists fc'. split; [exact E|]. split; [exact Q|]. split; [exact H|]. exact V. }
  destruct (for_all_ok _ (length subs) (fun i => ofold (receive_bath m (sub subs i) (delivered subs us1 i)) (su_visit (sub subs i)) (fs i)) fs
    (fun i => oget (fs i) (ofold (receive_bath m (sub subs i) (delivered subs us1 i)) (su_visit (sub subs i)) (fs i)))) as (fs' & Ef & Hf).
  { intros i Hi. destruct (Un i Hi) as (r & Er & _). rewrite Er. reflexivity. }
  exists us1, fs'. split; [cbv zeta; transitivity (do fs1 <- (Ok fs' : outcome (nat -> faces)) ; Ok (us1, fs1)); [rewrite <- Ef; reflexivity|reflexivity]|]. split; [exact Sz1|]. split; [exact U1|]. split.
  - intros i f gp Hi Hc Hg. rewrite (Hf i Hi). destruct (Un i Hi) as (r & Er & _ & _ & V). rewrite Er. cbn [oget].
    split; intros I; rewrite <- positions_sides in I; apply in_map_iff in I as (x & Ex & Ix); (eapply Permutation_in in Ix; [|apply Permutation_sym, (dc_visit _ _ _ D), unit_in, Hi]);
      destruct (V x f gp Ix Hc Hg) as [V1 V2]; [apply V1|apply V2]; exact Ex.
  - intros i Hi. rewrite (Hf i Hi). destruct (Un i Hi) as (r & Er & Q & H & _). rewrite Er. split; assumption.
Qed.

(** From the buffers and face data created at the start. *)
Lemma ehdg_run_par_start : forall m c solve subs cuts N us q qs F Fs b st stp, stage_ok m c -> no_levees m -> decomposes m subs cuts -> (forall f, In f cuts -> fitting m f) ->
  sizes_fit_of EHDG m subs ->
  (forall i r, (i < length subs)%nat -> (r < length (su_rankbs (unit_at subs i)))%nat -> u_send (us i) r = init_send_of EHDG m subs i r) ->
  distributes subs us st -> (forall i x, (i < length subs)%nat -> In x (su_bounds (unit_at subs i)) -> forall gp, (gp < length (m_rule1 m))%nat -> q i (b_elt x) (b_id x) gp = qs (b_elt x) (b_id x) gp) ->
  (st_stage stp < st_nstages stp)%nat ->
  exists us1 fs1 s' us' fs' stp', ehdg_init_par m subs us q F b = Ok (us1, fs1) /\
    ofold (fun x _ => ehdg_step m c solve x) (seq 0 N) (ehdg_start st qs Fs, stp) = Ok (s', stp') /\
    ofold (fun x _ => ehdg_step_par m c solve subs x) (seq 0 N) (us1, fs1, stp) = Ok (us', fs', stp') /\ ehdg_distributes m subs cuts us' fs' s'.
Proof.
  intros m c solve subs cuts N us q qs F Fs b st stp OK NL D Cf Fit Hs Hd Hq Hk.
  destruct (ehdg_init_known m subs cuts us q F b D (so_faces _ _ OK) Fit (init_sized EHDG m subs us Hs)) as (us1 & fs1 & E1 & Sz1 & U1 & B1 & Q1).
  destruct (ehdg_run_par_serial m c solve subs cuts N us1 fs1 (ehdg_start st qs Fs) stp OK NL D Cf Fit Sz1) as (s' & us' & fs' & stp' & E & E' & D' & _); [|exact Hk|].
  - split; [intros i e Hi He; rewrite (U1 i Hi); apply Hd; assumption|]. split; [|exact B1].
    intros i j l x Hi Hj Hl. destruct (Q1 i Hi) as [-> ->]. split; [reflexivity|]. intros gp Hg. apply Hq; [exact Hi|apply nth_error_In in Hj; exact Hj|exact Hg].
  - exists us1, fs1, s', us', fs', stp'. split; [exact E1|]. split; [exact E|]. split; [exact E'|exact D'].
Qed.

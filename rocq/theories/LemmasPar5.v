(** The distributed stage, step and run against the serial ones. *)
From Coq Require Import Reals QArith NArith List Bool Arith Lia Lra Permutation FunctionalExtensionality.
From Verif Require Import Num ModelSWE Outcome ModelShape ModelBasis ModelJac ModelStepper ModelWetDry ModelSlope ModelStep ModelComm ModelPar
  SpecSWE SpecShape SpecStepper SpecWetDry SpecSlope SpecStep SpecStage SpecComm SpecPar
  LemmasSWE LemmasHDG LemmasRK LemmasPart LemmasComm LemmasSlope LemmasStep LemmasStage LemmasStage2 LemmasStage3 LemmasStage4 LemmasStage5 LemmasPar LemmasPar2 LemmasPar3 LemmasPar4.
Import ListNotations.
Open Scope R_scope.

Lemma on_units_ok : forall subs (f : nat -> mstate -> outcome mstate) us (P : nat -> mstate -> Prop),
  (forall i, (i < length subs)%nat -> exists s, f i (u_st (us i)) = Ok s /\ P i s) ->
  exists us', on_units subs f us = Ok us' /\ forall i, (i < length subs)%nat -> P i (u_st (us' i)) /\ u_send (us' i) = u_send (us i).
Proof.
  intros subs f us P H. set (g i := UState (oget (u_st (us i)) (f i (u_st (us i)))) (u_send (us i))).
  destruct (for_all_ok _ (length subs) (fun i => do st <- f i (u_st (us i)) ; Ok (UState st (u_send (us i)))) us g) as (us' & E & Hu).
  { intros i Hi. destruct (H i Hi) as (s & Es & _). unfold g. rewrite Es. reflexivity. }
  exists us'. split; [exact E|]. intros i Hi. rewrite (Hu i Hi). unfold g. cbn [u_st u_send]. destruct (H i Hi) as (s & Es & Ps). rewrite Es. split; [exact Ps|reflexivity].
Qed.
Lemma sized_same : forall sch m subs us us', buffers_sized_of sch m subs us -> (forall i, (i < length subs)%nat -> u_send (us' i) = u_send (us i)) -> buffers_sized_of sch m subs us'.
Proof. intros sch m subs us us' H E i r Hi Hr. rewrite (E i Hi). apply H; assumption. Qed.

(** The neighbour across a face. *)
Definition nbr_of (m : mesh) (e b : nat) : nat :=
  match find (fun f => existsb (side_eqb (e, b)) (face_sides f)) (sl_faces m) with Some f => across f e b | None => e end.
Lemma nbr_seen : forall m e b, faces_once m -> (e < m_n m)%nat -> (b < 3)%nat -> seen_across m e b (nbr_of m e b).
Proof.
  intros m e b [_ F] He Hb. assert (I : In (e, b) (all_sides m)) by (apply F; split; assumption). rewrite <- sides_sl_faces in I.
  apply in_flat_map in I as (f & Hf & I). unfold nbr_of. destruct (find _ (sl_faces m)) as [g|] eqn:E.
  - apply find_some in E as [Hg E]. apply existsb_exists in E as (s & Is & E). destruct (side_eqb_spec (e, b) s) as [<-|]; [|discriminate].
    unfold sl_faces in Hg. apply in_app_or in Hg as [Hg|Hg]; apply in_map_iff in Hg as (x & <- & Hx); cbn in Is |- *.
    + left. exists x. split; [exact Hx|]. destruct (Nat.eqb_spec e (i_in x)) as [E1|N1]; [destruct (Nat.eqb_spec b (i_bin x)) as [E2|N2]|]; cbn [andb].
      * left. repeat split; congruence.
      * destruct Is as [Is|[Is|[]]]; injection Is as E3 E4; [congruence|]. right. repeat split; congruence.
      * destruct Is as [Is|[Is|[]]]; injection Is as E3 E4; [congruence|]. right. repeat split; congruence.
    + right. exists x. destruct Is as [Is|[]]. injection Is as E1 E2. repeat split; congruence.
  - exfalso. pose proof (find_none _ _ E f Hf) as N. cbn beta in N. assert (T : existsb (side_eqb (e, b)) (face_sides f) = true).
    { apply existsb_exists. exists (e, b). split; [exact I|]. destruct (side_eqb_spec (e, b) (e, b)); [reflexivity|contradiction]. }
    congruence.
Qed.

Lemma centre_length : forall m slot s d, length (centre_message m slot s d) = (1 + 3 + ngp1 m)%nat.
Proof.
  intros m slot s d. unfold centre_message. cbn [length]. destruct (ms_wet s (df_elt d)).
  - rewrite app_length, !map_length, !seq_length. lia.
  - rewrite repeat_length. lia.
Qed.

(** Wetting and drying and limiting of the units against those of the whole mesh. *)
Lemma finish_par_views : forall sch cc m c subs cuts us2 slot (w2 w : nat -> eview) st', nth_error (comms sch) cc = Some baryctr_state ->
  stage_ok m c -> decomposes m subs cuts -> sizes_fit_of sch m subs -> buffers_sized_of sch m subs us2 ->
  (forall i e, (i < length subs)%nat -> In e (su_elts (unit_at subs i)) -> view (u_st (us2 i)) e = w2 e) ->
  (forall e, (e < m_n m)%nat -> (if c_wd c then wd_view m c slot e (w2 e) = Ok (w e) else w e = w2 e) /\
    (if c_sl c then sl_of m w (nbr_of m e) slot e = Ok (view st' e) else view st' e = w e)) ->
  exists us4, finish_par m c subs sch cc slot us2 = Ok us4 /\ distributes subs us4 st' /\ buffers_sized_of sch m subs us4.
Proof.
  intros sch cc m c subs cuts us2 slot w2 w st' Hcc OK D Fit Sz U2 V. destruct OK as [[Hp1 Hp2] Tri FO Hb Ht Hh]. unfold finish_par.
  (* wetting and drying *)
  assert (S3 : exists us3, (if c_wd c then on_units subs (fun i => ofold (wd_kernel m c slot) (su_elts (sub subs i))) us2 else Ok us2) = Ok us3 /\
    forall i, (i < length subs)%nat -> (forall e, In e (su_elts (unit_at subs i)) -> view (u_st (us3 i)) e = w e) /\ u_send (us3 i) = u_send (us2 i)).
  { assert (V3 : forall i e, (i < length subs)%nat -> In e (su_elts (unit_at subs i)) -> if c_wd c then wd_view m c slot e (w2 e) = Ok (w e) else w e = w2 e).
    { intros i e Hi He. destruct (V e (unit_elt_small m subs cuts D i e Hi He)) as [V1 _]. exact V1. }
    destruct (c_wd c).
    - destruct (on_units_ok subs (fun i => ofold (wd_kernel m c slot) (su_elts (sub subs i))) us2 (fun i s => forall e, In e (su_elts (unit_at subs i)) -> view s e = w e)) as (us3 & E3 & U3).
      { intros i Hi. destruct (local_fold _ _ (wd_local m c slot) (su_elts (unit_at subs i)) (u_st (us2 i)) w (unit_elts_nodup m subs cuts D i Hi)) as (s3 & Es & Vs & _).
        - intros e He. rewrite (U2 i e Hi He). apply (V3 i); assumption.
        - exists s3. split; [exact Es|exact Vs]. }
      exists us3. split; [exact E3|]. exact U3.
    - exists us2. split; [reflexivity|]. intros i Hi. split; [|reflexivity].
      intros e He. rewrite (V3 i e Hi He). apply U2; assumption. }
  destruct S3 as (us3 & E3 & U3). rewrite E3. cbn [bind].
  assert (Sz3 : buffers_sized_of sch m subs us3) by (apply (sized_same sch m subs us2); [exact Sz|intros i Hi; apply U3; exact Hi]).
  destruct (c_sl c) eqn:SL.
  - set (st3 := MState (fun e => v_q (w e)) (fun e => v_rhs (w e)) (fun e => v_sol (w e)) (fun e => v_wet (w e)) (fun e => v_cd (w e)) (ms_slm st')).
    assert (Hv : forall e, view st3 e = w e) by (intros e; unfold view, st3; cbn; destruct (w e); reflexivity).
    assert (Hd3 : distributes subs us3 st3) by (intros i e Hi He; apply same_view; rewrite Hv; apply U3; assumption).
    destruct (delivered_units sch m subs cc baryctr_state Hcc (centre_message m slot)) with (cuts := cuts) (us := us3) as (us4 & E4 & Sz4 & U4 & A4); [|exact D|exact Fit|exact Sz3|].
    { intros s d. rewrite centre_length. cbn [capacity]. lia. }
    change (exchange subs (send_centres_of sch cc m slot) us3 = Ok us4) in E4. rewrite E4. cbn [bind].
    assert (Hd4 : distributes subs us4 st3) by (intros i e Hi He; rewrite (U4 i Hi); apply Hd3; assumption).
    assert (Arr4 : centres_arrive sch cc m subs slot us4 (delivered subs us4)).
    { intros i r j n Hi Hr Hj Hn rb d'. destruct (dc_partner _ _ _ D i r Hi Hr) as (P1 & _). fold rb in P1. rewrite (U4 _ P1).
      apply (A4 i r j n Hi Hr Hj). cbn [capacity]. lia. }
    destruct (on_units_ok subs (fun i => unit_limit_of sch cc m slot (sub subs i) (delivered subs us4 i)) us4
      (fun i s => forall e, In e (su_elts (unit_at subs i)) -> view s e = view st' e)) as (us5 & E5 & U5).
    { intros i Hi. destruct (unit_prepared sch cc m subs cuts slot D FO Hp1 st3 us4 Hd4 _ Arr4 i Hi) as (s2 & Es & P).
      unfold unit_limit_of. cbv zeta. change (sub subs i) with (unit_at subs i). fold (unit_faces (unit_at subs i)). rewrite Es. cbn [bind].
      destruct (local_fold _ _ (sl_local m slot) (su_elts (unit_at subs i))
        (MState (ms_q (u_st (us4 i))) (ms_rhs (u_st (us4 i))) (ms_sol (u_st (us4 i))) (ms_wet (u_st (us4 i))) (ms_cd (u_st (us4 i))) s2) (view st') (unit_elts_nodup m subs cuts D i Hi)) as (s5 & E5 & V5 & _).
      - intros e He. cbn [ms_slm]. change (view (MState _ _ _ _ _ s2) e) with (view (u_st (us4 i)) e).
        pose proof (unit_elt_small m subs cuts D i e Hi He) as Hn. destruct (V e Hn) as [_ V2]. rewrite <- V2. unfold sl_of.
        assert (Ve : view (u_st (us4 i)) e = w e) by (rewrite <- (Hv e); apply same_view, Hd4; assumption). rewrite Ve.
        apply sl_view_neigh3.
        + apply map_ext_in. intros b Hb'. apply in_seq in Hb'. destruct (P e b (nbr_of m e b) He) as [P1 _]; [lia|apply nbr_seen; [exact FO|exact Hn|lia]|]. exact P1.
        + intros W Wn b v Hb' Hv'. destruct (P e b (nbr_of m e b) He Hb') as [P1 P2]; [apply nbr_seen; assumption|].
          rewrite P2; [|exact W| |exact Hv'].
          * rewrite centre_model by exact Hp1. reflexivity.
          * rewrite <- P1. rewrite forallb_forall in Wn. apply Wn. apply in_map_iff. exists b. split; [reflexivity|]. apply in_seq. lia.
      - exists s5. split; [exact E5|exact V5]. }
    rewrite E5. exists us5. split; [reflexivity|]. split.
    + intros i e Hi He. apply same_view, U5; assumption.
    + apply (sized_same sch m subs us4); [exact Sz4|]. intros i Hi. apply U5. exact Hi.
  - exists us3. split; [reflexivity|]. split; [|exact Sz3].
    intros i e Hi He. apply same_view. destruct (V e (unit_elt_small m subs cuts D i e Hi He)) as [_ ->]. apply U3; assumption.
Qed.

Lemma stage_par_serial : forall m c subs cuts us st stp, stage_ok m c -> decomposes m subs cuts -> (forall f, In f cuts -> conforming m f) -> sizes_fit m subs ->
  buffers_sized m subs us -> distributes subs us st -> (st_stage stp < st_nstages stp)%nat ->
  exists st' us', stage_serial m c (st, stp) = Ok (st', stepper_incr stp) /\ stage_par m c subs (us, stp) = Ok (us', stepper_incr stp) /\
    distributes subs us' st' /\ buffers_sized m subs us'.
Proof.
  intros m c subs cuts us st stp OK D Cf Fit Sz Hd Hk. pose proof OK as [[Hp1 Hp2] Tri FO Hb Ht Hh].
  destruct (stage_views m c (nbr_of m) st stp Hp1 Ht Hh Hb (proj1 FO)) as (st' & w & E & V).
  { intros e b He Hb'. pose proof (nbr_seen m e b FO He Hb') as S. split; [exact S|]. apply (seen_small m e b); assumption. }
  set (k := st_stage stp) in *. set (slot := ((k + 1) mod st_nstages stp)%nat) in *. set (t := time_at_stage stp) in *.
  exists st'. unfold stage_par. fold k t. destruct (incr_stage stp) as (I1 & _). fold k in I1. fold slot in I1.
  (* states of the faces *)
  destruct (delivered_units RKDG m subs 1 bound_state eq_refl (face_message m k)) with (cuts := cuts) (us := us) as (us1 & E1 & Sz1 & U1 & A1); [|exact D|exact Fit|exact Sz|].
  { intros s d. rewrite message_length. cbn [capacity]. lia. }
  change (exchange subs (send_states m k) us = Ok us1) in E1. rewrite E1. cbn [bind].
  assert (Hd1 : distributes subs us1 st) by (intros i e Hi He; rewrite (U1 i Hi); apply Hd; assumption).
  assert (Arr : arrives m k subs us1 (delivered subs us1)).
  { intros i r j n Hi Hr Hj Hn rb d'. destruct (dc_partner _ _ _ D i r Hi Hr) as (P1 & _). fold rb in P1. rewrite (U1 _ P1).
    apply (A1 i r j n Hi Hr Hj). cbn [capacity]. lia. }
  (* update *)
  set (w2 e := upd_view m c (st_dt stp) (st_nstages stp) k e (view (rhs_kernels m c t k st) e)) in *.
  destruct (on_units_ok subs (fun i => unit_update m c t (st_dt stp) (st_nstages stp) k (sub subs i) (delivered subs us1 i)) us1
    (fun i s => forall e, In e (su_elts (unit_at subs i)) -> view s e = w2 e)) as (us2 & E2 & U2).
  { intros i Hi. apply (unit_updated m c t k subs cuts D st us1 Hd1 _ Arr FO Cf i (st_dt stp) (st_nstages stp) Hi). }
  rewrite E2. cbn [bind]. cbv zeta. rewrite I1.
  destruct (finish_par_views RKDG 2 m c subs cuts us2 slot w2 w st' eq_refl OK D Fit) as (us4 & E4 & D4 & Sz4).
  { apply (sized_same RKDG m subs us1); [exact Sz1|intros i Hi; apply U2; exact Hi]. }
  { intros i e Hi He. apply U2; assumption. }
  { exact V. }
  rewrite E4. cbn [bind]. exists us4. split; [exact E|]. split; [reflexivity|]. split; assumption.
Qed.

Lemma incr_nstages : forall stp, st_nstages (stepper_incr stp) = st_nstages stp.
Proof. intros stp. destruct (incr_stage stp) as (_ & H & _). exact H. Qed.
Lemma stages_par_serial : forall m c subs cuts n us st stp, stage_ok m c -> decomposes m subs cuts -> (forall f, In f cuts -> conforming m f) -> sizes_fit m subs ->
  buffers_sized m subs us -> distributes subs us st -> (st_stage stp < st_nstages stp)%nat ->
  exists st' us' stp', stages m c n (st, stp) = Ok (st', stp') /\ stages_par m c subs n (us, stp) = Ok (us', stp') /\
    distributes subs us' st' /\ buffers_sized m subs us' /\ (st_stage stp' < st_nstages stp')%nat /\ st_nstages stp' = st_nstages stp.
Proof.
  intros m c subs cuts n us st stp OK D Cf Fit Sz Hd Hk. induction n as [|n IH].
  - exists st, us, stp. do 5 (split; [reflexivity || assumption|]). reflexivity.
  - destruct IH as (s1 & u1 & p1 & E1 & F1 & D1 & B1 & K1 & N1).
    destruct (stage_par_serial m c subs cuts u1 s1 p1 OK D Cf Fit B1 D1 K1) as (s2 & u2 & E2 & F2 & D2 & B2).
    exists s2, u2, (stepper_incr p1). unfold stages, stages_par in *. rewrite seq_S, !ofold_app, E1, F1. cbn [bind plus ofold]. rewrite E2, F2. cbn [bind].
    destruct (incr_stage p1) as (I1 & _). rewrite incr_nstages. do 4 (split; [reflexivity || assumption|]). split; [|exact N1]. rewrite I1. apply Nat.mod_upper_bound. lia.
Qed.
Lemma run_par_serial : forall m c subs cuts N us st stp, stage_ok m c -> decomposes m subs cuts -> (forall f, In f cuts -> conforming m f) -> sizes_fit m subs ->
  buffers_sized m subs us -> distributes subs us st -> (st_stage stp < st_nstages stp)%nat ->
  exists st' us' stp', ofold (fun s _ => step_serial m c s) (seq 0 N) (st, stp) = Ok (st', stp') /\
    ofold (fun s _ => step_par m c subs s) (seq 0 N) (us, stp) = Ok (us', stp') /\
    distributes subs us' st' /\ buffers_sized m subs us' /\ (st_stage stp' < st_nstages stp')%nat /\ st_nstages stp' = st_nstages stp.
Proof.
  intros m c subs cuts N us st stp OK D Cf Fit Sz Hd Hk. induction N as [|n IH].
  - exists st, us, stp. do 5 (split; [reflexivity || assumption|]). reflexivity.
  - destruct IH as (s1 & u1 & p1 & E1 & F1 & D1 & B1 & K1 & N1).
    destruct (stages_par_serial m c subs cuts (st_nstages p1) u1 s1 p1 OK D Cf Fit B1 D1 K1) as (s2 & u2 & p2 & E2 & F2 & D2 & B2 & K2 & N2).
    exists s2, u2, p2. rewrite seq_S, !ofold_app, E1, F1. cbn [bind plus ofold]. unfold step_serial, step_par. cbn [snd]. rewrite E2, F2. cbn [bind].
    do 5 (split; [reflexivity || assumption|]). congruence.
Qed.
(** Buffers as created at the start have the right sizes. *)
Lemma init_sized : forall sch m subs us, (forall i r, (i < length subs)%nat -> (r < length (su_rankbs (unit_at subs i)))%nat -> u_send (us i) r = init_send_of sch m subs i r) -> buffers_sized_of sch m subs us.
Proof.
  intros sch m subs us H i r Hi Hr. rewrite (H i r Hi Hr). unfold init_send_of, buffers. rewrite map_map.
  change (rank_of (nth i subs (SubMesh [] [] [] [] [])) r) with (rankb_at subs i r). change (ngp1 m) with (length (m_rule1 m)).
  rewrite <- (map_id (snd _)) at 2. apply map_ext. intros n. rewrite repeat_length, N2Nat.id. reflexivity.
Qed.

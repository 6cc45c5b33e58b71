(** The stage of a unit of the distributed explicit HDG solver against the serial stage. *)
From Coq Require Import Reals QArith NArith List Bool Arith Lia Lra Permutation FunctionalExtensionality.
From Verif Require Import Num ModelSWE Outcome ModelShape ModelBasis ModelJac ModelStepper ModelWetDry ModelSlope ModelStep ModelIHDG ModelEHDG ModelComm ModelPar ModelEPar
  SpecSWE SpecShape SpecStepper SpecWetDry SpecSlope SpecStep SpecStage SpecComm SpecEHDG SpecPar SpecEPar
  LemmasSWE LemmasHDG LemmasRK LemmasPart LemmasComm LemmasStep LemmasStage LemmasStage2 LemmasStage3 LemmasStage4 LemmasStage5
  LemmasEHDG1 LemmasEHDG2 LemmasEHDG3 LemmasPar LemmasPar2 LemmasPar3 LemmasPar4 LemmasPar5 LemmasEPar.
Import ListNotations.
Open Scope R_scope.

(** ** Right-hand sides over lists *)
Section Lists.
  Context (m : mesh) (c : config) (t : R) (k : nat) (st0 : mstate) (F : nat -> nat -> nat -> vec3 R).
  Lemma unit_local_at : forall su, NoDup (su_elts su) -> let s' := unit_local m c t k su F st0 in
    same_state s' st0 /\
    (forall e v d, In e (su_elts su) -> ms_rhs s' e k v d =
       hvol_at m c k st0 e v d + (if ms_wet st0 e then integration_phi m e (source_at m c t k st0 e) v d else 0) +
       lsum (su_intfaces su) (fun f => hint_con m st0 F f e v d) + lsum (su_bounds su) (fun b => hbnd_con m st0 F b e v d)) /\
    (forall e s v d, s <> k -> ms_rhs s' e s v d = ms_rhs st0 e s v d).
  Proof.
    intros su ND. unfold unit_local. cbv zeta.
    destruct (hvol_fold m c k st0 (su_elts su) st0 (same_refl st0)) as (S1 & A1 & B1).
    destruct (adds_fold _ _ _ _ _ (source_adds m c t k st0) (su_elts su) _ S1) as (S2 & E2).
    destruct (adds_fold _ _ _ _ _ (hint_adds m k st0 F) (su_intfaces su) _ S2) as (S3 & E3).
    destruct (adds_fold _ _ _ _ _ (hbnd_adds m k st0 F) (su_bounds su) _ S3) as (S4 & E4).
    split; [exact S4|]. split.
    - intros e v d I. rewrite E4, E3, E2, Nat.eqb_refl, (A1 e k v d I eq_refl), (src_sum m c t k st0 e v d (su_elts su) ND I). ring.
    - intros e s v d H. rewrite E4, E3, E2. rewrite (B1 e s v d) by (right; exact H). destruct (Nat.eqb_spec s k); [contradiction|]. ring.
  Qed.
End Lists.

(** ** Contributions of the cut faces by side *)
Section Cuts.
  Context (m : mesh) (cuts : list intface) (st : mstate) (F : nat -> nat -> nat -> vec3 R).
  Definition hcut_val (s : nat * nat) : coeffs :=
    match find (fun f => existsb (side_eqb s) (sides_of f)) cuts with
    | Some f => fun v d => if ms_wet st (i_in f) || ms_wet st (i_ex f) then - integration_face m (fst s) (snd s) (snd s) (F (fst s) (snd s)) v d else 0
    | None => fun _ _ => 0
    end.
  Definition hside_con (s : nat * nat) (e v d : nat) : R := if Nat.eqb e (fst s) then hcut_val s v d else 0.
  Context (ND : NoDup (flat_map sides_of cuts)) (Fit : forall f, In f cuts -> fitting m f).
  Lemma hcuts_sum : forall e v d, lsum cuts (fun f => hint_con m st F f e v d) = lsum (flat_map sides_of cuts) (fun s => hside_con s e v d).
  Proof.
    intros e v d. rewrite lsum_flat_map. apply lsum_ext. intros f Hf. unfold sides_of. rewrite !lsum_cons. unfold hside_con. cbn [fst snd lsum map fold_right]. unfold hcut_val.
    rewrite (cut_found cuts ND f (i_in f, i_bin f) Hf) by (left; reflexivity). rewrite (cut_found cuts ND f (i_ex f, i_bex f) Hf) by (right; left; reflexivity). cbn [fst snd].
    assert (E : integration_face m (i_ex f) (i_bex f) (i_bex f) (F (i_ex f) (i_bex f)) v d = integration_face m (i_in f) (i_bin f) (i_bex f) (F (i_ex f) (i_bex f)) v d).
    { unfold integration_face. rewrite !half_side_J, (proj2 (Fit f Hf)). reflexivity. }
    rewrite E. unfold hint_con. destruct (_ || _); destruct (Nat.eqb e (i_in f)), (Nat.eqb e (i_ex f)); ring.
  Qed.
End Cuts.

Section Unit.
  Context (m : mesh) (c : config) (solve : nat -> (nat -> nat -> R) -> (nat -> R) -> nat -> R) (t : R) (k : nat) (subs : list submesh) (cuts : list intface).
  Context (D : decomposes m subs cuts) (FO : faces_once m) (NL : no_levees m) (Fit : forall f, In f cuts -> fitting m f).
  Context (s : estate) (us : nat -> ustate) (fs : nat -> faces).
  Context (Hd : distributes subs us (es_m s)) (Hb : boundaries_shared m subs fs s) (Hm : baths_known m subs cuts fs).
  Let s1 := global_step m c solve t k s.
  Let fc1 (i : nat) : faces := unit_global m c solve t k (unit_at subs i) (u_st (us i)) (fs i).

  Definition earrives (recv : nat -> nat -> list (list R)) : Prop :=
    forall i r j n, (i < length subs)%nat -> (r < length (su_rankbs (unit_at subs i)))%nat -> (j < length (rb_faces (rankb_at subs i r)))%nat ->
      (n <= 1 + 3 * ngp1 m)%nat ->
      let rb := rankb_at subs i r in
      let d' := face_of (rankb_at subs (rb_unit rb) (rb_index rb)) j in
      exists w, receive (offsets_of EHDG m rb) 2 j n (recv i r) = Ok w /\ carries w (face_message m k (u_st (us (rb_unit rb))) d') n.
  Context (recv : nat -> nat -> list (list R)) (Arr : earrives recv).

  (** The interface cut at a visited face, this side and the other. *)
  Lemma visited : forall i x, (i < length subs)%nat -> In x (su_visit (unit_at subs i)) ->
    exists f e' b', In f cuts /\ df_kind (face_of (rankb_at subs i (fst x)) (snd x)) = Internal /\
      ((pos_side subs i x = (i_in f, i_bin f) /\ (e', b') = (i_ex f, i_bex f)) \/ (pos_side subs i x = (i_ex f, i_bex f) /\ (e', b') = (i_in f, i_bin f))) /\
      In (fst (pos_side subs i x)) (su_elts (unit_at subs i)) /\
      (exists w, receive (offsets_of EHDG m (rankb_at subs i (fst x))) 2 (snd x) 1 (recv i (fst x)) = Ok w /\ decode_wet w = ms_wet (es_m s) e') /\
      (exists msg, receive (offsets_of EHDG m (rankb_at subs i (fst x))) 2 (snd x) (1 + 3 * ngp1 m) (recv i (fst x)) = Ok msg /\
         decode_wet msg = ms_wet (es_m s) e' /\ forall gp, (gp < ngp1 m)%nat -> decode_q_ex (ngp1 m) msg gp = q_face m (es_m s) k e' b' (ngp1 m - 1 - gp)%nat).
  Proof.
    intros i [r j] Hi Hx. destruct (visit_pos m subs cuts D i r j Hi Hx) as [Hr Hj]. unfold pos_side. cbn [fst snd].
    set (rb := rankb_at subs i r). set (d := face_of rb j). set (d' := face_of (rankb_at subs (rb_unit rb) (rb_index rb)) j).
    destruct (dc_partner _ _ _ D i r Hi Hr) as (P1 & P2 & P3 & P4). fold rb in P1, P2, P3, P4.
    assert (Ed : nth_error (rb_faces rb) j = Some d) by (apply nth_error_nth'; exact Hj).
    assert (Ed' : nth_error (rb_faces (rankb_at subs (rb_unit rb) (rb_index rb))) j = Some d') by (apply nth_error_nth'; rewrite P3; exact Hj).
    destruct (P4 j d d' Ed Ed') as (f & Hf & M). exists f, (df_elt d'), (df_id d').
    assert (Oe : In (df_elt d) (su_elts (unit_at subs i))) by (apply (cut_side_own m subs cuts D i r j); assumption).
    assert (Oe' : In (df_elt d') (su_elts (unit_at subs (rb_unit rb)))) by (apply (cut_side_own m subs cuts D); [assumption|assumption|rewrite P3; exact Hj]).
    pose proof (Hd _ _ P1 Oe') as Se'.
    pose proof (NL f (cut_intface m subs cuts D f Hf)) as Ki.
    split; [exact Hf|]. split; [destruct M as [(_ & _ & K)|(_ & _ & K)]; rewrite Ki in K; apply K|].
    split; [destruct M as [(E1 & E2 & _)|(E1 & E2 & _)]; [left|right]; split; assumption|]. split; [exact Oe|].
    destruct (Arr i r j 1%nat Hi Hr Hj ltac:(lia)) as (w & Ew & Cw). destruct (Arr i r j (1 + 3 * ngp1 m)%nat Hi Hr Hj ltac:(lia)) as (msg & Em & Cm).
    fold rb d' in Ew, Cw, Em, Cm. rewrite (message_same m k _ _ _ Se') in Cw, Cm.
    assert (Emsg : msg = face_message m k (es_m s) d') by (apply (carries_all _ _ _ Cm), message_length). subst msg. split.
    - exists w. split; [exact Ew|]. unfold decode_wet. change (nofZ 0%Z : R) with 0. change ($0 : R)%num with (IZR 0).
      rewrite (carries_nth _ _ _ 0%nat Cw) by (try rewrite message_length; lia).
      exact (decode_wet_message (ms_wet (es_m s) (df_elt d')) (ngp1 m) (q_face m (es_m s) k (df_elt d') (df_id d'))).
    - exists (face_message m k (es_m s) d'). split; [exact Em|]. split; [apply decode_wet_message|]. intros gp Hg. apply decode_q_message. exact Hg.
  Qed.

  (** The fluxes of the cut faces. *)
  Lemma edges_distributed : forall i, (i < length subs)%nat -> forall l fc, incl l (su_visit (unit_at subs i)) -> NoDup (map (pos_side subs i) l) ->
    fc_q fc = fc_q (fc1 i) -> fc_bath fc = fc_bath (fs i) ->
    exists fc', ofold (edge_distributed m c (unit_at subs i) (recv i) (u_st (us i))) l fc = Ok fc' /\
      fc_q fc' = fc_q fc /\ fc_qh fc' = fc_qh fc /\ fc_bath fc' = fc_bath fc /\
      (forall e b, ~ In (e, b) (map (pos_side subs i) l) -> fc_F fc' e b = fc_F fc e b) /\
      (forall x gp e b, In x l -> pos_side subs i x = (e, b) -> (gp < ngp1 m)%nat ->
         (exists f, In f cuts /\ In (e, b) (sides_of f) /\ ms_wet (es_m s) (i_in f) || ms_wet (es_m s) (i_ex f) = true) -> fc_F fc' e b gp = es_F s1 e b gp).
  Proof.
    intros i Hi l. induction l as [|x l IH]; intros fc Hl Nd Hq Hbt.
    - exists fc. do 4 (split; [reflexivity|]). split; [reflexivity|]. intros x gp e b [].
    - assert (Hx : In x (su_visit (unit_at subs i))) by (apply Hl; left; reflexivity).
      cbn [map] in Nd. apply NoDup_cons_iff in Nd as [N1 N2].
      destruct (visited i x Hi Hx) as (f & e' & b' & Hf & Kd & Sd & Own & _ & msg & Em & Wm & Qm).
      pose proof (NL f (cut_intface m subs cuts D f Hf)) as Ki. destruct (Fit f Hf) as [On _].
      pose proof (cut_q m c solve t k subs cuts D s us fs Hd i x) as Cq. fold (fc1 i) in Cq.
      assert (St : exists fc', edge_distributed m c (unit_at subs i) (recv i) (u_st (us i)) fc x = Ok fc' /\ fc_q fc' = fc_q fc /\ fc_qh fc' = fc_qh fc /\ fc_bath fc' = fc_bath fc /\
        (forall e b, (e, b) <> pos_side subs i x -> fc_F fc' e b = fc_F fc e b) /\
        (forall gp, (gp < ngp1 m)%nat -> ms_wet (es_m s) (i_in f) || ms_wet (es_m s) (i_ex f) = true ->
           fc_F fc' (fst (pos_side subs i x)) (snd (pos_side subs i x)) gp = es_F s1 (fst (pos_side subs i x)) (snd (pos_side subs i x)) gp)).
      { unfold edge_distributed. change (rank_of (unit_at subs i) (fst x)) with (rankb_at subs i (fst x)). cbv zeta. rewrite Kd, Em. cbn [bind]. rewrite Wm.
        unfold pos_side in *. cbn [fst snd] in *. set (d := face_of (rankb_at subs i (fst x)) (snd x)) in *.
        rewrite (own_wet subs s us Hd i (df_elt d) Hi Own).
        assert (Ww : ms_wet (es_m s) (df_elt d) || ms_wet (es_m s) e' = ms_wet (es_m s) (i_in f) || ms_wet (es_m s) (i_ex f)).
        { destruct Sd as [[E1 E2]|[E1 E2]]; injection E1 as -> _; injection E2 as -> _; [reflexivity|apply orb_comm]. }
        rewrite Ww. destruct (ms_wet (es_m s) (i_in f) || ms_wet (es_m s) (i_ex f)) eqn:W.
        - eexists. split; [reflexivity|]. do 3 (split; [reflexivity|]). split.
          + intros e b N. apply functional_extensionality. intros gp. cbn [fc_F]. apply set_face_other. exact N.
          + intros gp Hg _. cbn [fc_F]. rewrite set_face_same by exact Hg. rewrite Hq, Hbt. unfold fc1. rewrite (Qm gp Hg), (Cq gp Hi Hx Hg). cbn [fst snd]. clear Cq.
            destruct (global_pair m c solve t k s f gp (proj1 FO) (cut_intface m subs cuts D f Hf) Ki W Hg) as [G1 G2]. fold s1 in G1, G2.
            destruct (Hm i f gp Hi Hf Hg) as [B1 B2]. pose proof (visit_cut m subs cuts D i x Hi Hx) as Vc. unfold pos_side in Vc. fold d in Vc.
            destruct Sd as [[E1 E2]|[E1 E2]]; rewrite E1 in Vc; injection E1 as E1 E1'; injection E2 as E2 E2'; rewrite E1, E1', E2, E2'.
            * rewrite G1. apply (cut_pair m c k (es_m s) f gp (fc_bath (fs i) (i_in f) (i_bin f) gp) On Hg), B1, Vc.
            * rewrite G2. apply (cut_pair m c k (es_m s) f gp (fc_bath (fs i) (i_ex f) (i_bex f) gp) On Hg), B2, Vc.
        - exists fc. do 4 (split; [reflexivity|]). split; [reflexivity|]. discriminate. }
      destruct St as (fca & Ea & Qa & Ha & Ba & Oa & Va).
      destruct (IH fca (fun y Hy => Hl y (or_intror Hy)) N2 (eq_trans Qa Hq) (eq_trans Ba Hbt)) as (fc' & E' & Q' & H' & B' & O' & V').
      exists fc'. cbn [ofold]. rewrite Ea. cbn [bind]. split; [exact E'|]. split; [congruence|]. split; [congruence|]. split; [congruence|]. split.
      + intros e b N. cbn [map] in N. rewrite O' by (intro; apply N; right; assumption). apply Oa. intros E. apply N. left. congruence.
      + intros y gp e b [<-|Iy] Ey Hg (g & Hgc & Is & Wg).
        * rewrite O' by (rewrite <- Ey; exact N1). rewrite Ey in Va. cbn [fst snd] in Va. apply Va; [exact Hg|].
          assert (g = f) as <-; [|exact Wg]. apply (flat_once _ _ sides_of cuts g f (e, b) (cuts_nodup m subs cuts D FO) Hgc Hf Is).
          rewrite <- Ey. destruct Sd as [[-> _]|[-> _]]; [left|right; left]; reflexivity.
        * apply (V' y gp e b Iy Ey Hg). exists g. split; [exact Hgc|]. split; assumption.
  Qed.

  Definition hload (i : nat) (x : nat * nat) (e v d : nat) : R := hside_con m cuts (es_m s) (es_F s1) (pos_side subs i x) e v d.
  Lemma local_adds : forall i F st x, (i < length subs)%nat -> In x (su_visit (unit_at subs i)) -> same_state st (u_st (us i)) ->
    (forall gp e b, pos_side subs i x = (e, b) -> (gp < ngp1 m)%nat ->
         (exists f, In f cuts /\ In (e, b) (sides_of f) /\ ms_wet (es_m s) (i_in f) || ms_wet (es_m s) (i_ex f) = true) -> F e b gp = es_F s1 e b gp) ->
    exists st', local_distributed m k (unit_at subs i) (recv i) F st x = Ok st' /\ same_state st' st /\
      forall e q v d, ms_rhs st' e q v d = ms_rhs st e q v d + (if Nat.eqb q k then hload i x e v d else 0).
  Proof.
    intros i F st x Hi Hx S0 HF. destruct (visited i x Hi Hx) as (f & e' & b' & Hf & Kd & Sd & Own & (w & Ew & Ww) & _).
    unfold local_distributed. change (rank_of (unit_at subs i) (fst x)) with (rankb_at subs i (fst x)). cbv zeta. rewrite Ew. cbn [bind]. rewrite Ww.
    unfold hload, hside_con, hcut_val.
    assert (Is : In (pos_side subs i x) (sides_of f)) by (destruct Sd as [[-> _]|[-> _]]; [left|right; left]; reflexivity).
    rewrite (cut_found cuts (cuts_nodup m subs cuts D FO) f _ Hf Is).
    unfold pos_side in *. cbn [fst snd] in *. set (d := face_of (rankb_at subs i (fst x)) (snd x)) in *.
    destruct S0 as (Q0 & S0s & W0 & S0r). rewrite W0, (own_wet subs s us Hd i (df_elt d) Hi Own).
    assert (Wx : ms_wet (es_m s) (df_elt d) || ms_wet (es_m s) e' = ms_wet (es_m s) (i_in f) || ms_wet (es_m s) (i_ex f)).
    { destruct Sd as [[E1 E2]|[E1 E2]]; injection E1 as -> _; injection E2 as -> _; [reflexivity|apply orb_comm]. }
    rewrite Wx. destruct (ms_wet (es_m s) (i_in f) || ms_wet (es_m s) (i_ex f)) eqn:W.
    - eexists. split; [reflexivity|]. split; [apply same_set_rhs|]. intros e q v o. rewrite set_rhs_at. unfold csub.
      rewrite (integration_face_ext m (df_elt d) (df_id d) (df_id d) (F (df_elt d) (df_id d)) (es_F s1 (df_elt d) (df_id d))).
      + destruct (Nat.eqb_spec e (df_elt d)) as [->|]; destruct (Nat.eqb_spec q k) as [->|]; ring.
      + intros gp Hg. apply HF; [reflexivity|exact Hg|]. exists f. split; [exact Hf|]. split; assumption.
    - exists st. split; [reflexivity|]. split; [apply same_refl|]. intros e q v o. destruct (Nat.eqb q k), (Nat.eqb e (df_elt d)); ring.
  Qed.

  Lemma unit_ehdg : forall i dt n, (i < length subs)%nat ->
    exists st' fc', unit_stage m c solve t dt n k (unit_at subs i) (recv i) (u_st (us i)) (fs i) = Ok (st', fc') /\
      (forall e, In e (su_elts (unit_at subs i)) -> view st' e = upd_view m c dt n k e (view (local_rhs m c t k (es_F s1) (es_m s)) e)) /\
      (forall j l b, nth_error (su_bounds (unit_at subs i)) j = Some b -> nth_error (m_bounds m) l = Some b ->
         fc_qh fc' j = es_qh s1 l /\ forall gp, (gp < ngp1 m)%nat -> fc_q fc' (b_elt b) (b_id b) gp = es_q s1 (b_elt b) (b_id b) gp) /\
      fc_bath fc' = fc_bath (fs i).
  Proof.
    intros i dt n Hi. set (su := unit_at subs i). assert (Hsu : In su subs) by (apply unit_in; exact Hi).
    destruct (edges_distributed i Hi (su_visit su) (fc1 i) (incl_refl _) (visit_nodup m subs cuts D FO i Hi) eq_refl eq_refl) as (fc2 & E2 & Q2 & H2 & B2 & O2 & V2).
    unfold unit_stage. cbv zeta. fold su in E2. change (unit_global m c solve t k su (u_st (us i)) (fs i)) with (fc1 i). rewrite E2. cbn [bind].
    destruct (unit_local_at m c t k (u_st (us i)) (fc_F (fc1 i)) su (unit_elts_nodup _ _ _ D i Hi)) as (S1 & A1 & C1).
    destruct (oadds_fold _ k (u_st (us i)) (local_distributed m k su (recv i) (fc_F fc2)) (hload i) (su_visit su)) with (st := unit_local m c t k su (fc_F (fc1 i)) (u_st (us i))) as (st5 & E5 & S5 & R5).
    { intros st x Hx Ss. apply local_adds; try assumption. intros gp e b Ep Hg X. apply (V2 x gp e b Hx Ep Hg X). }
    { exact S1. }
    rewrite E5. cbn [bind].
    destruct (local_fold _ _ (update_local m c dt n k) (su_elts su) st5 (fun e => upd_view m c dt n k e (view st5 e)) (unit_elts_nodup _ _ _ D i Hi)) as (s6 & E6 & V6 & _).
    { reflexivity. }
    rewrite ofold_ok in E6. injection E6 as E6. rewrite E6. exists s6, fc2. split; [reflexivity|]. split; [|split].
    - intros e He. rewrite (V6 e He). f_equal.
      destruct (local_at m c t k (es_m s) (es_F s1)) as ((Q0 & L0 & W0 & C0 & _) & A0 & B0).
      pose proof (unit_elt_small _ _ _ D i e Hi He) as Hn. pose proof (Hd i e Hi He) as Se. pose proof Se as (Qe & Re & Le & We & Ce).
      destruct S5 as (Q5 & L5 & W5 & C5 & _). unfold view. rewrite Q0, L0, W0, C0, Q5, L5, W5, C5, Qe, Le, We, Ce. f_equal.
      apply functional_extensionality. intros q. apply functional_extensionality. intros v. apply functional_extensionality. intros d.
      rewrite R5. destruct (Nat.eqb_spec q k) as [->|Nq].
      2:{ rewrite C1, B0, Re by exact Nq. ring. }
      rewrite (A1 e v d He), (A0 e v d Hn). rewrite We.
      assert (Hv : hvol_at m c k (u_st (us i)) e v d = hvol_at m c k (es_m s) e v d) by (unfold hvol_at, q_gp, aux_gp, q_gp; rewrite Qe, We; reflexivity).
      rewrite Hv, (src_same m c t k _ _ e Se).
      destruct (dc_own _ _ _ D su Hsu) as (O1 & Ob & O3).
      assert (I1 : lsum (su_intfaces su) (fun f => hint_con m (u_st (us i)) (fc_F (fc1 i)) f e v d) = lsum (flat_map su_intfaces subs) (fun f => hint_con m (es_m s) (es_F s1) f e v d)).
      { rewrite (flat_own _ su_intfaces (fun f => hint_con m (es_m s) (es_F s1) f e v d) subs i e (elts_nodup _ _ _ D) Hi He).
        - apply lsum_ext. intros f Hf. destruct (O1 f Hf) as [X1 X2]. unfold hint_con.
          rewrite (own_wet subs s us Hd i (i_in f) Hi X1), (own_wet subs s us Hd i (i_ex f) Hi X2).
          destruct (ms_wet (es_m s) (i_in f) || ms_wet (es_m s) (i_ex f)) eqn:W; [|reflexivity].
          pose proof (fun gp Hg => unit_intF m c solve t k subs cuts D FO NL s us fs Hd i f gp Hi Hf W Hg) as U.
          rewrite (integration_face_ext m (i_in f) (i_bin f) (i_bin f) (fc_F (fc1 i) (i_in f) (i_bin f)) (es_F s1 (i_in f) (i_bin f))) by (intros gp Hg; apply (U gp Hg)).
          rewrite (integration_face_ext m (i_in f) (i_bin f) (i_bex f) (fc_F (fc1 i) (i_ex f) (i_bex f)) (es_F s1 (i_ex f) (i_bex f))) by (intros gp Hg; apply (U gp Hg)).
          reflexivity.
        - intros su' f Hs' Hf Ne. destruct (dc_own _ _ _ D su' Hs') as (O1' & _). destruct (O1' f Hf) as [X1 X2]. unfold hint_con.
          destruct (_ || _); [|reflexivity]. destruct (Nat.eqb_spec e (i_in f)) as [->|]; [contradiction|]. destruct (Nat.eqb_spec e (i_ex f)) as [->|]; [contradiction|]. ring. }
      assert (I2 : lsum (su_bounds su) (fun b => hbnd_con m (u_st (us i)) (fc_F (fc1 i)) b e v d) = lsum (m_bounds m) (fun b => hbnd_con m (es_m s) (es_F s1) b e v d)).
      { rewrite <- (lsum_perm _ _ _ _ (dc_bounds _ _ _ D)), (flat_own _ su_bounds (fun b => hbnd_con m (es_m s) (es_F s1) b e v d) subs i e (elts_nodup _ _ _ D) Hi He).
        - apply lsum_ext. intros b Hbb. unfold hbnd_con. rewrite (own_wet subs s us Hd i (b_elt b) Hi (Ob b Hbb)).
          destruct (In_nth_error _ _ Hbb) as [j Hj]. destruct (unit_bound m subs cuts D i b Hi Hbb) as [l Hl].
          destruct (unit_bndF m c solve t k subs cuts D FO s us fs Hd Hb i j l b Hi Hj Hl) as (_ & _ & U).
          rewrite (integration_face_ext m (b_elt b) (b_id b) (b_id b) (fc_F (fc1 i) (b_elt b) (b_id b)) (es_F s1 (b_elt b) (b_id b))) by exact U. reflexivity.
        - intros su' b Hs' Hbb Ne. destruct (dc_own _ _ _ D su' Hs') as (_ & O2' & _). specialize (O2' b Hbb). unfold hbnd_con.
          destruct (Nat.eqb_spec e (b_elt b)) as [->|]; [contradiction|reflexivity]. }
      assert (I3 : lsum (su_visit su) (fun x => hload i x e v d) = lsum cuts (fun f => hint_con m (es_m s) (es_F s1) f e v d)).
      { rewrite (hcuts_sum m cuts (es_m s) (es_F s1) (cuts_nodup _ _ _ D FO) Fit), <- (lsum_perm _ _ _ _ (dc_cuts _ _ _ D)).
        rewrite (flat_own _ cut_sides (fun s0 => hside_con m cuts (es_m s) (es_F s1) s0 e v d) subs i e (elts_nodup _ _ _ D) Hi He).
        - rewrite <- positions_sides, lsum_map, <- (lsum_perm _ _ _ _ (dc_visit _ _ _ D su Hsu)). reflexivity.
        - intros su' s0 Hs' Hin Ne. destruct (dc_own _ _ _ D su' Hs') as (_ & _ & O3'). specialize (O3' s0 Hin). unfold hside_con.
          destruct (Nat.eqb_spec e (fst s0)) as [->|]; [contradiction|reflexivity]. }
      rewrite I1, I2, I3. rewrite <- (lsum_perm _ _ _ _ (dc_intfaces _ _ _ D)), lsum_app. ring.
    - intros j l b Hj Hl. destruct (unit_bndF m c solve t k subs cuts D FO s us fs Hd Hb i j l b Hi Hj Hl) as (U1 & U2 & _). rewrite H2, Q2. split; assumption.
    - rewrite B2. reflexivity.
  Qed.
End Unit.

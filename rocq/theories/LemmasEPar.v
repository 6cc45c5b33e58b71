(** Fluxes, traces and messages of a unit of the distributed explicit HDG solver. *)
From Coq Require Import Reals QArith NArith List Bool Arith Lia Lra Permutation FunctionalExtensionality.
From Verif Require Import Num ModelSWE Outcome ModelShape ModelBasis ModelJac ModelStepper ModelWetDry ModelSlope ModelStep ModelIHDG ModelEHDG ModelComm ModelPar ModelEPar
  SpecSWE SpecShape SpecStepper SpecWetDry SpecSlope SpecStep SpecStage SpecComm SpecEHDG SpecPar SpecEPar
  LemmasSWE LemmasHDG LemmasRK LemmasPart LemmasComm LemmasStep LemmasStage LemmasStage2 LemmasStage3 LemmasStage4 LemmasStage5
  LemmasEHDG1 LemmasEHDG2 LemmasPar LemmasPar2 LemmasPar3 LemmasPar4 LemmasPar5.
Import ListNotations.
Open Scope R_scope.

(** Both fluxes at a point of an interface, from the states of the elements. *)
Definition wd_pair (m : mesh) (c : config) (k : nat) (st : mstate) (f : intface) (gp : nat) : vec3 R * vec3 R :=
  let p := q_face m st k (i_in f) (i_bin f) gp in
  let q := q_face m st k (i_ex f) (i_bex f) (ngp1 m - gp - 1)%nat in
  let n := normal m (i_in f) (i_bin f) in
  let B := ehdg_base (c_g c) p q (edge_bath m f gp) n in
  ehdg_wd_point (c_g c) (ms_wet st (i_in f)) (ms_wet st (i_ex f)) p q (ehdg_qhat p q) (ehdg_ahat (ehdg_qhat p q) (edge_bath m f gp)) n (opp n) B (vneg B).

Lemma global_pair : forall m c solve t k s f gp, NoDup (all_sides m) -> In f (m_intfaces m) -> i_kind f = Internal ->
  ms_wet (es_m s) (i_in f) || ms_wet (es_m s) (i_ex f) = true -> (gp < ngp1 m)%nat ->
  let s' := global_step m c solve t k s in
  es_F s' (i_in f) (i_bin f) gp = fst (wd_pair m c k (es_m s) f gp) /\
  es_F s' (i_ex f) (i_bex f) gp = snd (wd_pair m c k (es_m s) f (ngp1 m - gp - 1)%nat).
Proof.
  intros m c solve t k s f gp ND Hf Ki W Hg s'. destruct (sides_parts m ND) as (N1 & _).
  assert (G : forall gp, (gp < ngp1 m)%nat -> (es_F s' (i_in f) (i_bin f) gp, es_F s' (i_ex f) (i_bex f) (ngp1 m - gp - 1)%nat) = wd_pair m c k (es_m s) f gp).
  { intros g Hg'. unfold s'. rewrite !(global_intF m c k solve t) by first [exact ND | apply in_flat_map; exists f; split; [exact Hf|cbn; auto]].
    destruct (loaded_spec m k s) as ((L1 & _ & _) & _).
    pose proof (ei_fold_at m c (m_intfaces m) (loaded m k s) f g N1 Hf Ki) as E. cbv zeta in E. rewrite L1 in E. specialize (E W Hg').
    rewrite (proj1 (loaded_int m k s f g Hf W Hg')) in E. rewrite (proj2 (loaded_int m k s f (ngp1 m - g - 1)%nat Hf W ltac:(lia))) in E. exact E. }
  split; [rewrite <- (G gp Hg); reflexivity|]. rewrite <- (G (ngp1 m - gp - 1)%nat) by lia. cbn [snd]. f_equal. lia.
Qed.

(** On a cut face the distributed flux of each side is that of the interface. *)
Lemma cut_pair : forall m c k st f gp b, opposite (normal m (i_in f) (i_bin f)) (normal m (i_ex f) (i_bex f)) -> (gp < ngp1 m)%nat ->
  (b = mean_bath m f gp -> ehdg_distributed_point (c_g c) (ms_wet st (i_in f)) (ms_wet st (i_ex f)) (q_face m st k (i_in f) (i_bin f) gp) (q_face m st k (i_ex f) (i_bex f) (ngp1 m - 1 - gp)%nat)
     (Aux b 0 0) (normal m (i_in f) (i_bin f)) = fst (wd_pair m c k st f gp)) /\
  (b = mean_bath m f (ngp1 m - 1 - gp)%nat -> ehdg_distributed_point (c_g c) (ms_wet st (i_ex f)) (ms_wet st (i_in f)) (q_face m st k (i_ex f) (i_bex f) gp) (q_face m st k (i_in f) (i_bin f) (ngp1 m - 1 - gp)%nat)
     (Aux b 0 0) (normal m (i_ex f) (i_bex f)) = snd (wd_pair m c k st f (ngp1 m - gp - 1)%nat)).
Proof.
  intros m c k st f gp b On Hg. pose proof (opposite_opp _ _ On) as On'.
  assert (Eb : forall g, edge_bath m f g = Aux (mean_bath m f g) 0 0).
  { intros g. unfold edge_bath, mean_bath. change (length (m_rule1 m)) with (ngp1 m). replace (ngp1 m - g - 1)%nat with (ngp1 m - 1 - g)%nat by lia. reflexivity. }
  split; intros ->.
  - unfold wd_pair. cbv zeta. rewrite Eb. replace (ngp1 m - gp - 1)%nat with (ngp1 m - 1 - gp)%nat by lia.
    apply ehdg_dist_in.
  - unfold wd_pair. cbv zeta. rewrite Eb. replace (ngp1 m - (ngp1 m - gp - 1) - 1)%nat with gp by lia. replace (ngp1 m - gp - 1)%nat with (ngp1 m - 1 - gp)%nat by lia.
    rewrite On'. apply ehdg_dist_ex. rewrite <- On'. exact On.
Qed.

Lemma um_trace : forall m su c solve b q qi fuel qh, bc_trace (unit_mesh m su) c solve fuel b q qi qh = bc_trace m c solve fuel b q qi qh.
Proof.
  intros m su c solve b q qi fuel. induction fuel as [|n IH]; intros qh; [reflexivity|]. cbn [bc_trace].
  change (trace_pass (unit_mesh m su) c solve b q qi qh) with (trace_pass m c solve b q qi qh).
  destruct (trace_pass m c solve b q qi qh) as [qh' x]. change (trace_norm (unit_mesh m su) x) with (trace_norm m x). destruct (Rltb _ _); [reflexivity|apply IH].
Qed.

Section Unit.
  Context (m : mesh) (c : config) (solve : nat -> (nat -> nat -> R) -> (nat -> R) -> nat -> R) (t : R) (k : nat) (subs : list submesh) (cuts : list intface).
  Context (D : decomposes m subs cuts) (FO : faces_once m) (NL : no_levees m).
  Let um (i : nat) : mesh := unit_mesh m (unit_at subs i).

  Lemma um_sides : forall i, (i < length subs)%nat -> NoDup (all_sides (um i)).
  Proof.
    intros i Hi. pose proof (proj1 (unit_sides_split m subs cuts D FO (unit_at subs i) (unit_in _ _ Hi))) as N. rewrite unit_sides in N. exact N.
  Qed.
  Lemma um_cut : forall i s, (i < length subs)%nat -> In s (cut_sides (unit_at subs i)) -> ~ In s (all_sides (um i)).
  Proof.
    intros i s Hi Hc. pose proof (proj2 (unit_sides_split m subs cuts D FO (unit_at subs i) (unit_in _ _ Hi))) as N. rewrite unit_sides in N.
    intros I. exact (N s I Hc).
  Qed.
  Lemma unit_intface : forall i f, (i < length subs)%nat -> In f (su_intfaces (unit_at subs i)) -> In f (m_intfaces m).
  Proof.
    intros i f Hi Hf. eapply Permutation_in; [apply (dc_intfaces _ _ _ D)|]. apply in_or_app. left. apply in_flat_map. exists (unit_at subs i). split; [apply unit_in; exact Hi|exact Hf].
  Qed.
  Lemma cut_intface : forall f, In f cuts -> In f (m_intfaces m).
  Proof. intros f Hf. eapply Permutation_in; [apply (dc_intfaces _ _ _ D)|]. apply in_or_app. right. exact Hf. Qed.
  Lemma unit_bound : forall i b, (i < length subs)%nat -> In b (su_bounds (unit_at subs i)) -> exists l, nth_error (m_bounds m) l = Some b.
  Proof.
    intros i b Hi Hb. apply In_nth_error. eapply Permutation_in; [apply (dc_bounds _ _ _ D)|]. apply in_flat_map. exists (unit_at subs i). split; [apply unit_in; exact Hi|exact Hb].
  Qed.
  Lemma visit_nodup : forall i, (i < length subs)%nat -> NoDup (map (pos_side subs i) (su_visit (unit_at subs i))).
  Proof.
    intros i Hi. eapply Permutation_NoDup.
    - apply Permutation_sym, Permutation_map, (dc_visit _ _ _ D), unit_in, Hi.
    - rewrite positions_sides. apply (nodup_part _ _ cut_sides subs); [|apply unit_in; exact Hi].
      eapply Permutation_NoDup; [apply Permutation_sym, (dc_cuts _ _ _ D)|apply (cuts_nodup m subs cuts D FO)].
  Qed.
  Lemma visit_cut : forall i x, (i < length subs)%nat -> In x (su_visit (unit_at subs i)) -> In (pos_side subs i x) (cut_sides (unit_at subs i)).
  Proof.
    intros i x Hi Hx. rewrite <- positions_sides. apply in_map. eapply Permutation_in; [apply (dc_visit _ _ _ D), unit_in, Hi|exact Hx].
  Qed.

  (** ** Values at the cut faces *)
  Lemma global_distributed_at : forall i st l q e b gp, fold_left (global_distributed m k (unit_at subs i) st) l q e b gp =
    if existsb (side_eqb (e, b)) (map (pos_side subs i) l) && Nat.ltb gp (ngp1 m) then q_face m st k e b gp else q e b gp.
  Proof.
    intros i st l. induction l as [|x l IH]; intros q e b gp; [reflexivity|]. cbn [fold_left map existsb]. rewrite IH.
    destruct (existsb (side_eqb (e, b)) (map (pos_side subs i) l)) eqn:E; [rewrite orb_true_r; cbn [andb]|rewrite orb_false_r; cbn [andb]].
    - destruct (Nat.ltb gp (ngp1 m)) eqn:L; [reflexivity|]. unfold global_distributed. rewrite set_face_at, L, andb_false_r. reflexivity.
    - unfold global_distributed. rewrite set_face_at. change (face_of (rank_of (unit_at subs i) (fst x)) (snd x)) with (face_of (rankb_at subs i (fst x)) (snd x)).
      unfold pos_side. set (d := face_of _ _). unfold side_eqb. cbn [fst snd].
      destruct (Nat.eqb_spec e (df_elt d)) as [->|]; cbn [andb]; [|reflexivity]. destruct (Nat.eqb_spec b (df_id d)) as [->|]; reflexivity.
  Qed.

  Context (s : estate) (us : nat -> ustate) (fs : nat -> faces).
  Context (Hd : distributes subs us (es_m s)) (Hb : boundaries_shared m subs fs s) (Hm : baths_known m subs cuts fs).
  Let s1 := global_step m c solve t k s.
  Let us1 (i : nat) : estate :=
    EState (u_st (us i)) (fold_left (global_distributed m k (unit_at subs i) (u_st (us i))) (su_visit (unit_at subs i)) (fc_q (fs i))) (fc_F (fs i)) (fc_qh (fs i)).
  Let fc1 (i : nat) : faces := unit_global m c solve t k (unit_at subs i) (u_st (us i)) (fs i).

  Lemma own_wet : forall i e, (i < length subs)%nat -> In e (su_elts (unit_at subs i)) -> ms_wet (u_st (us i)) e = ms_wet (es_m s) e.
  Proof. intros i e Hi He. destruct (Hd i e Hi He) as (_ & _ & _ & W & _). exact W. Qed.
  Lemma own_face : forall i e b, (i < length subs)%nat -> In e (su_elts (unit_at subs i)) -> q_face m (u_st (us i)) k e b = q_face m (es_m s) k e b.
  Proof. intros i e b Hi He. destruct (Hd i e Hi He) as (Q & _). unfold q_face. rewrite Q. reflexivity. Qed.

  (** Interfaces inside a unit. *)
  Lemma unit_intF : forall i f gp, (i < length subs)%nat -> In f (su_intfaces (unit_at subs i)) -> ms_wet (es_m s) (i_in f) || ms_wet (es_m s) (i_ex f) = true -> (gp < ngp1 m)%nat ->
    fc_F (fc1 i) (i_in f) (i_bin f) gp = es_F s1 (i_in f) (i_bin f) gp /\ fc_F (fc1 i) (i_ex f) (i_bex f) gp = es_F s1 (i_ex f) (i_bex f) gp.
  Proof.
    intros i f gp Hi Hf W Hg. destruct (dc_own _ _ _ D _ (unit_in _ _ Hi)) as (O1 & _). destruct (O1 f Hf) as [X1 X2].
    pose proof (NL f (unit_intface i f Hi Hf)) as Ki.
    destruct (global_pair m c solve t k s f gp (proj1 FO) (unit_intface i f Hi Hf) Ki W Hg) as [A1 A2].
    assert (Wu : ms_wet (es_m (us1 i)) (i_in f) || ms_wet (es_m (us1 i)) (i_ex f) = true) by (cbn [us1 es_m]; rewrite !own_wet by assumption; exact W).
    destruct (global_pair (um i) c solve t k (us1 i) f gp (um_sides i Hi) Hf Ki Wu Hg) as [B1 B2].
    assert (P : forall g, wd_pair (um i) c k (es_m (us1 i)) f g = wd_pair m c k (es_m s) f g).
    { intros g. change (wd_pair m c k (u_st (us i)) f g = wd_pair m c k (es_m s) f g). unfold wd_pair. rewrite !own_face, !own_wet by assumption. reflexivity. }
    rewrite P in B1, B2. change (ngp1 (um i)) with (ngp1 m) in B2.
    change (fc_F (fc1 i)) with (es_F (global_step (um i) c solve t k (us1 i))). unfold s1. rewrite A1, A2, <- B1, <- B2. split; reflexivity.
  Qed.

  (** Boundaries. *)
  Lemma unit_bndF : forall i j l b, (i < length subs)%nat -> nth_error (su_bounds (unit_at subs i)) j = Some b -> nth_error (m_bounds m) l = Some b ->
    fc_qh (fc1 i) j = es_qh s1 l /\
    (forall gp, (gp < ngp1 m)%nat -> fc_q (fc1 i) (b_elt b) (b_id b) gp = es_q s1 (b_elt b) (b_id b) gp) /\
    forall gp, (gp < ngp1 m)%nat -> fc_F (fc1 i) (b_elt b) (b_id b) gp = es_F s1 (b_elt b) (b_id b) gp.
  Proof.
    intros i j l b Hi Hj Hl. destruct (Hb i j l b Hi Hj Hl) as [Hqh Hq].
    pose proof (nth_error_In _ _ Hj) as Ij. pose proof (nth_error_In _ _ Hl) as Il.
    destruct (dc_own _ _ _ D _ (unit_in _ _ Hi)) as (_ & O2 & _). pose proof (O2 b Ij) as X.
    assert (Q : forall gp, (gp < ngp1 m)%nat -> es_q (loaded (um i) k (us1 i)) (b_elt b) (b_id b) gp = es_q (loaded m k s) (b_elt b) (b_id b) gp).
    { intros gp Hg. destruct (ms_wet (es_m s) (b_elt b)) eqn:W.
      - rewrite (loaded_wet m k s b gp Il W Hg). rewrite (loaded_wet (um i) k (us1 i) b gp Ij); [|cbn [us1 es_m]; rewrite own_wet by assumption; exact W|exact Hg].
        change (q_face m (u_st (us i)) k (b_elt b) (b_id b) gp = q_face m (es_m s) k (b_elt b) (b_id b) gp). rewrite own_face by assumption. reflexivity.
      - rewrite (loaded_dry m k s b gp (proj1 FO) Il W). rewrite (loaded_dry (um i) k (us1 i) b gp (um_sides i Hi) Ij); [|cbn [us1 es_m]; rewrite own_wet by assumption; exact W].
        cbn [us1 es_q]. rewrite global_distributed_at.
        replace (existsb (side_eqb (b_elt b, b_id b)) (map (pos_side subs i) (su_visit (unit_at subs i)))) with false; [apply Hq; exact Hg|].
        symmetry. apply not_true_is_false. intros E. apply existsb_exists in E as (y & Iy & E). destruct (side_eqb_spec (b_elt b, b_id b) y) as [<-|]; [|discriminate].
        apply in_map_iff in Iy as (x & Ex & Hx). apply (um_cut i (b_elt b, b_id b) Hi); [rewrite <- Ex; apply visit_cut; assumption|].
        unfold all_sides. apply in_or_app. right. apply in_map_iff. exists b. split; [reflexivity|exact Ij]. }
    destruct (global_bound m c k solve t s l b (proj1 FO) Hl) as [A1 A2].
    destruct (global_bound (um i) c k solve t (us1 i) j b (um_sides i Hi) Hj) as [B1 B2].
    assert (Lq : forall mm ss, es_qh (loaded mm k ss) = es_qh ss) by (intros mm ss; destruct (loaded_spec mm k ss) as ((_ & _ & L) & _); exact L).
    assert (T : bnd_trace (um i) c solve t (loaded (um i) k (us1 i)) j b = bnd_trace m c solve t (loaded m k s) l b).
    { unfold bnd_trace. rewrite !Lq. cbn [us1 es_qh]. rewrite Hqh. destruct (b_bc b) as [|ex]; [reflexivity|]. cbv zeta.
      unfold um at 1. rewrite um_trace.
      apply bc_trace_ext. intros gp Hg. change (normal (um i)) with (normal m). rewrite (Q gp Hg). split; reflexivity. }
    change (fc_qh (fc1 i)) with (es_qh (global_step (um i) c solve t k (us1 i))). change (fc_F (fc1 i)) with (es_F (global_step (um i) c solve t k (us1 i))).
    change (fc_q (fc1 i)) with (es_q (global_step (um i) c solve t k (us1 i))). unfold s1.
    split; [rewrite B1, A1; exact T|]. split.
    - intros gp Hg. assert (K : forall mm ss, es_q (global_step mm c solve t k ss) = es_q (loaded mm k ss)).
      { intros mm ss. change (global_step mm c solve t k ss) with (fold_left (edge_boundary mm c solve t) (numbered_bounds mm) (fold_left (edge_interface mm c) (m_intfaces mm) (loaded mm k ss))).
        rewrite (proj2 (eb_fold_keep mm c solve t (numbered_bounds mm) _)). apply (ei_fold mm c (m_intfaces mm) (loaded mm k ss)). }
      rewrite !K. apply Q. exact Hg.
    - intros gp Hg. rewrite (B2 gp Hg), (A2 gp Hg). unfold bnd_flux. rewrite (Q gp Hg), T. reflexivity.
  Qed.

  (** Cut faces hold the values of their element. *)
  Lemma cut_q : forall i x gp, (i < length subs)%nat -> In x (su_visit (unit_at subs i)) -> (gp < ngp1 m)%nat ->
    fc_q (fc1 i) (fst (pos_side subs i x)) (snd (pos_side subs i x)) gp = q_face m (es_m s) k (fst (pos_side subs i x)) (snd (pos_side subs i x)) gp.
  Proof.
    intros i x gp Hi Hx Hg. change (fc_q (fc1 i)) with (es_q (global_step (um i) c solve t k (us1 i))).
    change (global_step (um i) c solve t k (us1 i)) with (fold_left (edge_boundary (um i) c solve t) (numbered_bounds (um i)) (fold_left (edge_interface (um i) c) (m_intfaces (um i)) (loaded (um i) k (us1 i)))).
    rewrite (proj2 (eb_fold_keep (um i) c solve t (numbered_bounds (um i)) _)).
    destruct (ei_fold (um i) c (m_intfaces (um i)) (loaded (um i) k (us1 i))) as (_ & -> & _).
    destruct (loaded_spec (um i) k (us1 i)) as (_ & ->).
    destruct (dc_own _ _ _ D _ (unit_in _ _ Hi)) as (_ & _ & O3). pose proof (O3 _ (visit_cut i x Hi Hx)) as X.
    set (e := fst (pos_side subs i x)) in *. set (b := snd (pos_side subs i x)) in *.
    assert (E : q_face (um i) (es_m (us1 i)) k e b gp = q_face m (es_m s) k e b gp) by (change (q_face m (u_st (us i)) k e b gp = q_face m (es_m s) k e b gp); rewrite own_face by assumption; reflexivity).
    destruct (_ && _); [exact E|]. cbn [us1 es_q]. rewrite global_distributed_at.
    replace (existsb (side_eqb (e, b)) (map (pos_side subs i) (su_visit (unit_at subs i)))) with true.
    - rewrite (proj2 (Nat.ltb_lt _ _) Hg). cbn [andb]. exact E.
    - symmetry. apply existsb_exists. exists (pos_side subs i x). split; [apply in_map; exact Hx|]. unfold e, b. destruct (side_eqb_spec (fst (pos_side subs i x), snd (pos_side subs i x)) (pos_side subs i x)) as [|N]; [reflexivity|].
      exfalso. apply N. destruct (pos_side subs i x). reflexivity.
  Qed.
End Unit.

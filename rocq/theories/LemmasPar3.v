(** The right-hand side of a unit, from the messages of its partners. *)
From Coq Require Import Reals QArith NArith List Bool Arith Lia Lra Permutation FunctionalExtensionality.
From Verif Require Import Num ModelSWE Outcome ModelShape ModelBasis ModelJac ModelStepper ModelWetDry ModelSlope ModelStep ModelComm ModelPar
  SpecSWE SpecShape SpecStepper SpecWetDry SpecSlope SpecStep SpecStage SpecComm SpecPar
  LemmasSWE LemmasHDG LemmasRK LemmasPart LemmasComm LemmasStep LemmasStage LemmasStage2 LemmasStage3 LemmasStage4 LemmasStage5 LemmasPar LemmasPar2.
Import ListNotations.
Open Scope R_scope.

Definition side_eqb (a b : nat * nat) : bool := Nat.eqb (fst a) (fst b) && Nat.eqb (snd a) (snd b).
Lemma side_eqb_spec : forall a b, reflect (a = b) (side_eqb a b).
Proof.
  intros [a1 a2] [b1 b2]. unfold side_eqb. cbn. destruct (Nat.eqb_spec a1 b1) as [->|N]; cbn; [|constructor; congruence].
  destruct (Nat.eqb_spec a2 b2) as [->|N]; constructor; congruence.
Qed.
Lemma list_eq_nth : forall (A : Type) (l l' : list A), (forall j, nth_error l j = nth_error l' j) -> l = l'.
Proof.
  intros A l. induction l as [|x l IH]; intros [|y l'] H; [reflexivity|specialize (H 0%nat); discriminate|specialize (H 0%nat); discriminate|].
  f_equal; [specialize (H 0%nat); cbn in H; congruence|]. apply IH. intros j. exact (H (S j)).
Qed.
Lemma carries_all : forall (w msg : list R) n, carries w msg n -> length msg = n -> w = msg.
Proof.
  intros w msg n [L H] Lm. apply list_eq_nth. intros j. destruct (Nat.lt_ge_cases j n) as [Hj|Hj].
  - apply H; lia.
  - rewrite (proj2 (nth_error_None w j)), (proj2 (nth_error_None msg j)) by lia. reflexivity.
Qed.
Lemma carries_nth : forall (w msg : list R) n j, carries w msg n -> (j < n)%nat -> (j < length msg)%nat -> nth j w 0 = nth j msg 0.
Proof.
  intros w msg n j [L H] Hj Hm. specialize (H j Hj Hm). apply nth_error_nth' with (d := 0) in Hm as E. rewrite E in H.
  apply nth_error_nth with (d := 0) in H. exact H.
Qed.

(** Loops that may fail but do not. *)
Lemma oadds_fold : forall (X : Type) k st0 (K : mstate -> X -> outcome mstate) con l,
  (forall st x, In x l -> same_state st st0 -> exists st', K st x = Ok st' /\ same_state st' st /\
     forall e s v d, ms_rhs st' e s v d = ms_rhs st e s v d + (if Nat.eqb s k then con x e v d else 0)) ->
  forall st, same_state st st0 -> exists st', ofold K l st = Ok st' /\ same_state st' st0 /\
  forall e s v d, ms_rhs st' e s v d = ms_rhs st e s v d + (if Nat.eqb s k then lsum l (fun x => con x e v d) else 0).
Proof.
  intros X k st0 K con l. induction l as [|x l IH]; intros H st S0.
  - exists st. split; [reflexivity|]. split; [exact S0|]. intros e s v d. cbn. destruct (Nat.eqb s k); ring.
  - destruct (H st x (or_introl eq_refl) S0) as (s1 & E1 & S1 & R1).
    destruct (IH (fun st y Hy => H st y (or_intror Hy)) s1 (same_trans _ _ _ S1 S0)) as (s2 & E2 & S2 & R2).
    exists s2. cbn [ofold]. rewrite E1. cbn [bind]. split; [exact E2|]. split; [exact S2|].
    intros e s v d. rewrite R2, R1, lsum_cons. destruct (Nat.eqb s k); ring.
Qed.

Section Cuts.
  Context (m : mesh) (c : config) (k : nat) (cuts : list intface) (st : mstate).
  Definition in_val (f : intface) : coeffs := fun v d =>
    if ms_wet st (i_in f) || ms_wet st (i_ex f) then - integration_face m (i_in f) (i_bin f) (i_bin f) (fst (interface_flux m c k st f)) v d else 0.
  Definition ex_val (f : intface) : coeffs := fun v d =>
    if ms_wet st (i_in f) || ms_wet st (i_ex f) then - integration_face m (i_in f) (i_bin f) (i_bex f) (snd (interface_flux m c k st f)) v d else 0.
  Definition cut_val (s : nat * nat) : coeffs :=
    match find (fun f => existsb (side_eqb s) (sides_of f)) cuts with
    | Some f => if side_eqb s (i_in f, i_bin f) then in_val f else ex_val f
    | None => fun _ _ => 0
    end.
  Context (ND : NoDup (flat_map sides_of cuts)).
  Lemma sides_differ : forall f, In f cuts -> (i_in f, i_bin f) <> (i_ex f, i_bex f).
  Proof.
    intros f Hf E. pose proof (nodup_part _ _ sides_of cuts f ND Hf) as N. unfold sides_of in N. rewrite E in N.
    apply NoDup_cons_iff in N as [N _]. apply N. left. reflexivity.
  Qed.
  Lemma cut_found : forall f s, In f cuts -> In s (sides_of f) -> find (fun f => existsb (side_eqb s) (sides_of f)) cuts = Some f.
  Proof.
    intros f s Hf Hs. assert (X : forall g, In s (sides_of g) <-> existsb (side_eqb s) (sides_of g) = true).
    { intros g. rewrite existsb_exists. split.
      - intros I. exists s. split; [exact I|]. destruct (side_eqb_spec s s); [reflexivity|contradiction].
      - intros (y & I & E). destruct (side_eqb_spec s y) as [->|]; [exact I|discriminate]. }
    destruct (find _ cuts) as [g|] eqn:E.
    - apply find_some in E as [Hg E]. apply X in E. f_equal. apply (flat_once _ _ sides_of cuts g f s ND Hg Hf E Hs).
    - exfalso. pose proof (find_none _ _ E f Hf) as N. cbn beta in N. apply X in Hs. congruence.
  Qed.
  Lemma cut_val_in : forall f, In f cuts -> cut_val (i_in f, i_bin f) = in_val f /\ cut_val (i_ex f, i_bex f) = ex_val f.
  Proof.
    intros f Hf. unfold cut_val. rewrite (cut_found f (i_in f, i_bin f) Hf) by (left; reflexivity). rewrite (cut_found f (i_ex f, i_bex f) Hf) by (right; left; reflexivity).
    destruct (side_eqb_spec (i_in f, i_bin f) (i_in f, i_bin f)); [|contradiction].
    destruct (side_eqb_spec (i_ex f, i_bex f) (i_in f, i_bin f)) as [E|]; [exfalso; apply (sides_differ f Hf); congruence|]. split; reflexivity.
  Qed.
  Definition side_con (s : nat * nat) (e v d : nat) : R := if Nat.eqb e (fst s) then cut_val s v d else 0.
  Lemma cuts_sum : forall e v d, lsum cuts (fun f => int_con m c k st f e v d) = lsum (flat_map sides_of cuts) (fun s => side_con s e v d).
  Proof.
    intros e v d. rewrite lsum_flat_map. apply lsum_ext. intros f Hf. unfold sides_of. rewrite !lsum_cons. unfold side_con. cbn [fst lsum map fold_right].
    destruct (cut_val_in f Hf) as [-> ->]. unfold int_con, in_val, ex_val.
    destruct (_ || _); destruct (Nat.eqb e (i_in f)), (Nat.eqb e (i_ex f)); ring.
  Qed.
End Cuts.

Section Unit.
  Context (m : mesh) (c : config) (t : R) (k : nat) (subs : list submesh) (cuts : list intface).
  Context (D : decomposes m subs cuts) (FO : faces_once m).

  Lemma elts_nodup : NoDup (flat_map su_elts subs).
  Proof. eapply Permutation_NoDup; [apply Permutation_sym, (dc_elts _ _ _ D)|apply seq_NoDup]. Qed.
  Lemma sides_perm : Permutation (flat_map sides_of (flat_map su_intfaces subs) ++ flat_map sides_of cuts ++ map (fun b => (b_elt b, b_id b)) (flat_map su_bounds subs)) (all_sides m).
  Proof.
    rewrite app_assoc, <- flat_map_app. unfold all_sides. apply Permutation_app.
    - apply perm_flat_map, (dc_intfaces _ _ _ D).
    - apply Permutation_map, (dc_bounds _ _ _ D).
  Qed.
  Lemma sides_nodup : NoDup (flat_map sides_of (flat_map su_intfaces subs) ++ flat_map sides_of cuts ++ map (fun b => (b_elt b, b_id b)) (flat_map su_bounds subs)).
  Proof. eapply Permutation_NoDup; [apply Permutation_sym, sides_perm|apply (proj1 FO)]. Qed.
  Lemma cuts_nodup : NoDup (flat_map sides_of cuts).
  Proof. pose proof sides_nodup as H. apply nodup_app in H as (_ & H & _). apply nodup_app in H as (H & _). exact H. Qed.
  Lemma unit_in : forall i, (i < length subs)%nat -> In (unit_at subs i) subs.
  Proof. intros i Hi. unfold unit_at. apply nth_In. exact Hi. Qed.
  Lemma unit_elts_nodup : forall i, (i < length subs)%nat -> NoDup (su_elts (unit_at subs i)).
  Proof. intros i Hi. apply (nodup_part _ _ su_elts subs); [apply elts_nodup|apply unit_in; exact Hi]. Qed.
  Lemma unit_elt_small : forall i e, (i < length subs)%nat -> In e (su_elts (unit_at subs i)) -> (e < m_n m)%nat.
  Proof.
    intros i e Hi He. assert (I : In e (seq 0 (m_n m))).
    { eapply Permutation_in; [apply (dc_elts _ _ _ D)|]. apply in_flat_map. exists (unit_at subs i). split; [apply unit_in; exact Hi|exact He]. }
    apply in_seq in I. lia.
  Qed.
  Lemma elt_unit : forall e, (e < m_n m)%nat -> exists i, (i < length subs)%nat /\ In e (su_elts (unit_at subs i)).
  Proof.
    intros e He. assert (I : In e (flat_map su_elts subs)).
    { eapply Permutation_in; [apply Permutation_sym, (dc_elts _ _ _ D)|]. apply in_seq. lia. }
    apply in_flat_map in I as (su & Hs & I). apply (In_nth _ _ (SubMesh [] [] [] [] [])) in Hs as (i & Hi & <-). exists i. split; assumption.
  Qed.
  Lemma visit_pos : forall i r j, (i < length subs)%nat -> In (r, j) (su_visit (unit_at subs i)) ->
    (r < length (su_rankbs (unit_at subs i)))%nat /\ (j < length (rb_faces (rankb_at subs i r)))%nat.
  Proof.
    intros i r j Hi I. eapply Permutation_in in I; [|apply (dc_visit _ _ _ D), unit_in, Hi]. unfold positions in I.
    apply in_flat_map in I as (r' & Hr & I). apply in_map_iff in I as (j' & E & I). injection E as <- <-. apply in_seq in Hr. apply in_seq in I.
    unfold rankb_at. split; lia.
  Qed.
  Definition pos_side (i : nat) (x : nat * nat) : nat * nat := let d := face_of (rankb_at subs i (fst x)) (snd x) in (df_elt d, df_id d).
  Lemma positions_sides : forall i, map (pos_side i) (positions (unit_at subs i)) = cut_sides (unit_at subs i).
  Proof.
    intros i. unfold positions, cut_sides, pos_side, rankb_at. set (rbs := su_rankbs (unit_at subs i)).
    transitivity (flat_map (fun r => map (fun d => (df_elt d, df_id d)) (rb_faces (nth r rbs (RankB 0 0 [])))) (seq 0 (length rbs))).
    - rewrite !flat_map_concat_map, concat_map, map_map. f_equal. apply map_ext. intros r. rewrite map_map. cbn [fst snd]. unfold face_of at 1 2.
      generalize (rb_faces (nth r rbs (RankB 0 0 []))) as l. intros l.
      assert (G : forall p (l : list dface), map (fun x => (df_elt (face_of (RankB 0 0 (p ++ l)) x), df_id (face_of (RankB 0 0 (p ++ l)) x))) (seq (length p) (length l)) = map (fun d => (df_elt d, df_id d)) l).
      { intros p l0. revert p. induction l0 as [|d l0 IH]; intros p; [reflexivity|]. cbn [length seq map]. f_equal.
        - unfold face_of. cbn [rb_faces]. rewrite app_nth2, Nat.sub_diag by lia. reflexivity.
        - specialize (IH (p ++ [d])). rewrite app_length in IH. cbn [length] in IH. rewrite Nat.add_1_r in IH. rewrite <- app_assoc in IH. exact IH. }
      specialize (G [] l). cbn [app length] in G. unfold face_of in *. cbn [rb_faces] in G. exact G.
    - rewrite !flat_map_concat_map. f_equal. transitivity (map (fun rb => map (fun d => (df_elt d, df_id d)) (rb_faces rb)) (map (fun r => nth r rbs (RankB 0 0 [])) (seq 0 (length rbs)))).
      + rewrite map_map. reflexivity.
      + f_equal. assert (G : forall p l, map (fun r => nth r (p ++ l) (RankB 0 0 [])) (seq (length p) (length l)) = l).
        { intros p l. revert p. induction l as [|d l IH]; intros p; [reflexivity|]. cbn [length seq map]. f_equal.
          - rewrite app_nth2, Nat.sub_diag by lia. reflexivity.
          - specialize (IH (p ++ [d])). rewrite app_length in IH. cbn [length] in IH. rewrite Nat.add_1_r in IH. rewrite <- app_assoc in IH. exact IH. }
        apply (G []).
  Qed.

  (** What unit [i] adds for its distributed faces. *)
  Context (st : mstate) (us : nat -> ustate) (Hd : distributes subs us st).
  (** What arrives at a face, as given by the exchange. *)
  Definition arrives (recv : nat -> nat -> list (list R)) : Prop :=
    forall i r j n, (i < length subs)%nat -> (r < length (su_rankbs (unit_at subs i)))%nat -> (j < length (rb_faces (rankb_at subs i r)))%nat ->
      (n <= 1 + 3 * ngp1 m)%nat ->
      let rb := rankb_at subs i r in
      let d' := face_of (rankb_at subs (rb_unit rb) (rb_index rb)) j in
      exists w, receive (offsets m rb) 1 j n (recv i r) = Ok w /\ carries w (face_message m k (u_st (us (rb_unit rb))) d') n.
  Context (recv : nat -> nat -> list (list R)) (Arr : arrives recv).

  Lemma message_length : forall s d, length (face_message m k s d) = (1 + 3 * ngp1 m)%nat.
  Proof.
    intros s d. unfold face_message, bound_message. cbn [length Nat.add]. f_equal.
    generalize (q_face m s k (df_elt d) (df_id d)) as q. intros q. assert (G : forall n a, length (flat_map (fun gp => [ze (q gp); qx (q gp); qy (q gp)]) (seq a n)) = (3 * n)%nat).
    { induction n as [|n IH]; intros a; [reflexivity|]. cbn [seq flat_map app length]. rewrite IH. lia. }
    apply G.
  Qed.
  Lemma cut_side_own : forall i r j, (i < length subs)%nat -> (r < length (su_rankbs (unit_at subs i)))%nat -> (j < length (rb_faces (rankb_at subs i r)))%nat ->
    In (df_elt (face_of (rankb_at subs i r) j)) (su_elts (unit_at subs i)).
  Proof.
    intros i r j Hi Hr Hj. destruct (dc_own _ _ _ D _ (unit_in i Hi)) as (_ & _ & O).
    specialize (O (df_elt (face_of (rankb_at subs i r) j), df_id (face_of (rankb_at subs i r) j))). apply O.
    unfold cut_sides. apply in_flat_map. exists (rankb_at subs i r). split; [unfold rankb_at; apply nth_In; exact Hr|].
    apply in_map_iff. exists (face_of (rankb_at subs i r) j). split; [reflexivity|]. unfold face_of. apply nth_In. exact Hj.
  Qed.
  (** The face on the other side. *)
  Definition partner (i : nat) (x : nat * nat) : dface :=
    let rb := rankb_at subs i (fst x) in face_of (rankb_at subs (rb_unit rb) (rb_index rb)) (snd x).
  Definition face_load (i : nat) (x : nat * nat) : coeffs := fun v o =>
    let d := face_of (rankb_at subs i (fst x)) (snd x) in
    let d' := partner i x in
    if ms_wet st (df_elt d) || ms_wet st (df_elt d') then - integration_face m (df_elt d) (df_id d) (df_id d) (dface_flux m c k st (face_message m k st d') d) v o else 0.
  Definition load_con (i : nat) (x : nat * nat) (e v d : nat) : R := if Nat.eqb e (fst (pos_side i x)) then face_load i x v d else 0.

  Lemma dbound_adds : forall i s x, (i < length subs)%nat -> In x (su_visit (unit_at subs i)) -> same_state s (u_st (us i)) ->
    exists s', dbound_kernel m c k (unit_at subs i) (recv i) s x = Ok s' /\ same_state s' s /\
      forall e q v d, ms_rhs s' e q v d = ms_rhs s e q v d + (if Nat.eqb q k then load_con i x e v d else 0).
  Proof.
    intros i s [r j] Hi Hx S0. destruct (visit_pos i r j Hi Hx) as [Hr Hj].
    set (rb := rankb_at subs i r). set (d := face_of rb j). set (d' := face_of (rankb_at subs (rb_unit rb) (rb_index rb)) j).
    destruct (dc_partner _ _ _ D i r Hi Hr) as (P1 & P2 & P3 & _). fold rb in P1, P2, P3.
    assert (Oe : In (df_elt d) (su_elts (unit_at subs i))) by (apply cut_side_own; assumption).
    assert (Oe' : In (df_elt d') (su_elts (unit_at subs (rb_unit rb)))) by (apply cut_side_own; [assumption|assumption|rewrite P3; exact Hj]).
    pose proof (Hd i _ Hi Oe) as Se. pose proof (Hd _ _ P1 Oe') as Se'.
    destruct (Arr i r j 1%nat Hi Hr Hj ltac:(lia)) as (w & Ew & Cw). destruct (Arr i r j (1 + 3 * ngp1 m)%nat Hi Hr Hj ltac:(lia)) as (msg & Em & Cm).
    fold rb d' in Ew, Cw, Em, Cm. rewrite (message_same m k _ _ _ Se') in Cw, Cm.
    assert (Emsg : msg = face_message m k st d') by (apply (carries_all _ _ _ Cm), message_length). subst msg. clear Cm.
    assert (Wx : decode_wet w = ms_wet st (df_elt d')).
    { unfold decode_wet. change (nofZ 0%Z : R) with 0. change ($0 : R)%num with (IZR 0).
      rewrite (carries_nth _ _ _ 0%nat Cw) by (try rewrite message_length; lia).
      exact (decode_wet_message (ms_wet st (df_elt d')) (ngp1 m) (q_face m st k (df_elt d') (df_id d'))). }
    unfold dbound_kernel. change (rank_of (unit_at subs i) (fst (r, j))) with rb. cbn [fst snd]. fold d. rewrite Ew. cbn [bind]. rewrite Wx.
    destruct S0 as (Q0 & S0s & W0 & S0r). assert (Ws : ms_wet s (df_elt d) = ms_wet st (df_elt d)) by (rewrite W0; apply Se). rewrite Ws.
    assert (Fl : dface_flux m c k s (face_message m k st d') d = dface_flux m c k st (face_message m k st d') d).
    { unfold dface_flux, q_face. rewrite Ws, Q0. destruct Se as (-> & _). reflexivity. }
    unfold load_con, face_load, partner, pos_side. cbn [fst snd]. fold rb d d'.
    destruct (ms_wet st (df_elt d) || ms_wet st (df_elt d')) eqn:WW.
    - rewrite Em. cbn [bind]. eexists. split; [reflexivity|]. split; [apply same_set_rhs|].
      intros e q v o. rewrite set_rhs_at, Fl. unfold csub.
      destruct (Nat.eqb_spec e (df_elt d)) as [->|]; destruct (Nat.eqb_spec q k) as [->|]; ring.
    - exists s. split; [reflexivity|]. split; [apply same_refl|]. intros e q v o. destruct (Nat.eqb q k), (Nat.eqb e (df_elt d)); ring.
  Qed.

  (** On conforming cuts it is this side's part of the serial interface. *)
  Context (Cf : forall f, In f cuts -> conforming m f).
  Lemma face_load_cut : forall i x, (i < length subs)%nat -> In x (su_visit (unit_at subs i)) -> face_load i x = cut_val m c k cuts st (pos_side i x).
  Proof.
    intros i [r j] Hi Hx. destruct (visit_pos i r j Hi Hx) as [Hr Hj].
    unfold face_load, partner, pos_side. cbn [fst snd].
    set (rb := rankb_at subs i r). set (d := face_of rb j). set (d' := face_of (rankb_at subs (rb_unit rb) (rb_index rb)) j).
    destruct (dc_partner _ _ _ D i r Hi Hr) as (P1 & P2 & P3 & P4). fold rb in P1, P2, P3, P4.
    assert (Ed : nth_error (rb_faces rb) j = Some d) by (apply nth_error_nth'; exact Hj).
    assert (Ed' : nth_error (rb_faces (rankb_at subs (rb_unit rb) (rb_index rb))) j = Some d') by (apply nth_error_nth'; rewrite P3; exact Hj).
    destruct (P4 j d d' Ed Ed') as (f & Hf & M). pose proof (Cf f Hf) as (On & Hs & Cb).
    apply functional_extensionality. intros v. apply functional_extensionality. intros o.
    destruct (cut_val_in m c k cuts st cuts_nodup f Hf) as [Vi Vx].
    destruct M as [M|M]; pose proof M as (E1 & E2 & _).
    - rewrite E1, Vi. unfold in_val. injection E1 as E1 E1'. injection E2 as E2 E2'. rewrite E1, E1', E2. destruct (_ || _); [|reflexivity]. f_equal.
      apply integration_face_ext. intros gp Hg. apply (cut_flux m c k st f d d' On Cb M gp Hg).
    - rewrite E2, Vx. unfold ex_val. injection E1 as E1 E1'. injection E2 as E2 E2'. rewrite E1, E2, E2'. rewrite (orb_comm (ms_wet st (i_ex f))). destruct (_ || _); [|reflexivity]. f_equal.
      transitivity (integration_face m (i_in f) (i_bin f) (i_bex f) (dface_flux m c k st (face_message m k st d') d) v o).
      + unfold integration_face. rewrite !half_side_J, Hs. reflexivity.
      + apply integration_face_ext. intros gp Hg. apply (cut_flux m c k st f d' d On Cb M gp Hg).
  Qed.
End Unit.

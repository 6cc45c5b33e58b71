(** One stage of the units against one stage of the whole mesh. *)
From Coq Require Import Reals QArith NArith List Bool Arith Lia Lra Permutation FunctionalExtensionality.
From Verif Require Import Num ModelSWE Outcome ModelShape ModelBasis ModelJac ModelStepper ModelWetDry ModelSlope ModelStep ModelComm ModelPar
  SpecSWE SpecShape SpecStepper SpecWetDry SpecSlope SpecStep SpecStage SpecComm SpecPar
  LemmasSWE LemmasHDG LemmasRK LemmasPart LemmasComm LemmasSlope LemmasStep LemmasStage LemmasStage2 LemmasStage3 LemmasStage4 LemmasStage5 LemmasPar LemmasPar2 LemmasPar3.
Import ListNotations.
Open Scope R_scope.

Lemma NoDup_app_intro : forall (A : Type) (l l' : list A), NoDup l -> NoDup l' -> (forall x, In x l -> ~ In x l') -> NoDup (l ++ l').
Proof.
  intros A l l' N N' H. induction N as [|x l Nx N IH]; [exact N'|]. cbn. constructor.
  - intros I. apply in_app_or in I as [I|I]; [contradiction|]. apply (H x (or_introl eq_refl) I).
  - apply IH. intros y Hy. apply H. right. exact Hy.
Qed.
Lemma same_view : forall a b e, same_element a b e <-> view a e = view b e.
Proof.
  intros a b e. unfold same_element, view. split.
  - intros (-> & -> & -> & -> & ->). reflexivity.
  - intros H. injection H as -> -> -> -> ->. repeat split.
Qed.

Section Rhs.
  Context (m : mesh) (c : config) (t : R) (k : nat) (subs : list submesh) (cuts : list intface).
  Context (D : decomposes m subs cuts).
  Context (st : mstate) (us : nat -> ustate) (Hd : distributes subs us st).
  Context (recv : nat -> nat -> list (list R)) (Arr : arrives m k subs us recv).

  (** Whatever the cuts: the right-hand side of an element of a unit. *)
  Lemma unit_rhs_at : forall i, (i < length subs)%nat -> let su := unit_at subs i in
    exists s', ofold (dbound_kernel m c k su (recv i)) (su_visit su) (rhs_lists m c t k (su_elts su) (su_intfaces su) (su_bounds su) (u_st (us i))) = Ok s' /\
    forall e, In e (su_elts su) ->
      v_q (view s' e) = ms_q st e /\ v_sol (view s' e) = ms_sol st e /\ v_wet (view s' e) = ms_wet st e /\ v_cd (view s' e) = ms_cd st e /\
      (forall s, s <> k -> v_rhs (view s' e) s = ms_rhs st e s) /\
      forall v d, v_rhs (view s' e) k v d =
        vol_at m c k st e v d + (if ms_wet st e then integration_phi m e (source_at m c t k st e) v d else 0) +
        lsum (flat_map su_intfaces subs) (fun f => int_con m c k st f e v d) + lsum (m_bounds m) (fun b => bnd_con m c t k st b e v d) +
        lsum (su_visit su) (fun x => load_con m c k subs st i x e v d).
  Proof.
    intros i Hi su. assert (Hsu : In su subs) by (apply unit_in; exact Hi).
    destruct (rhs_lists_at m c t k (u_st (us i)) (su_elts su) (su_intfaces su) (su_bounds su) (unit_elts_nodup _ _ _ D i Hi)) as (S1 & A1 & B1).
    destruct (oadds_fold _ k (u_st (us i)) (dbound_kernel m c k su (recv i)) (load_con m c k subs st i) (su_visit su)
      (fun s x Hx Ss => dbound_adds m c k subs cuts D st us Hd recv Arr i s x Hi Hx Ss) _ S1) as (s' & E & S2 & R2).
    exists s'. split; [exact E|]. intros e He.
    destruct S2 as (Q2 & L2 & W2 & C2 & _). pose proof (Hd i e Hi He) as Se. pose proof Se as (Qe & Re & Le & We & Ce).
    unfold view. cbn [v_q v_rhs v_sol v_wet v_cd]. rewrite Q2, L2, W2, C2. do 4 (split; [assumption|]). split.
    { intros s Ns. apply functional_extensionality. intros v. apply functional_extensionality. intros d. rewrite R2. destruct (Nat.eqb_spec s k); [contradiction|].
      rewrite B1, Re by exact Ns. ring. }
    intros v d. rewrite R2, Nat.eqb_refl, (A1 e v d He). rewrite (vol_at_same m c k _ _ e Se), (src_same m c t k _ _ e Se), We.
    destruct (dc_own _ _ _ D su Hsu) as (O1 & O2 & O3).
    (* interfaces *)
    assert (I1 : lsum (su_intfaces su) (fun f => int_con m c k (u_st (us i)) f e v d) = lsum (flat_map su_intfaces subs) (fun f => int_con m c k st f e v d)).
    { rewrite (flat_own _ su_intfaces (fun f => int_con m c k st f e v d) subs i e (elts_nodup _ _ _ D) Hi He).
      - apply lsum_ext. intros f Hf. destruct (O1 f Hf) as [X1 X2]. rewrite (int_con_same m c k (u_st (us i)) st f (Hd i _ Hi X1) (Hd i _ Hi X2)). reflexivity.
      - intros su' f Hs' Hf Ne. destruct (dc_own _ _ _ D su' Hs') as (O1' & _). destruct (O1' f Hf) as [X1 X2]. unfold int_con.
        destruct (_ || _); [|reflexivity]. destruct (Nat.eqb_spec e (i_in f)) as [->|]; [contradiction|]. destruct (Nat.eqb_spec e (i_ex f)) as [->|]; [contradiction|]. ring. }
    (* boundaries *)
    assert (I2 : lsum (su_bounds su) (fun b => bnd_con m c t k (u_st (us i)) b e v d) = lsum (m_bounds m) (fun b => bnd_con m c t k st b e v d)).
    { rewrite <- (lsum_perm _ _ _ _ (dc_bounds _ _ _ D)), (flat_own _ su_bounds (fun b => bnd_con m c t k st b e v d) subs i e (elts_nodup _ _ _ D) Hi He).
      - apply lsum_ext. intros b Hb. rewrite (bnd_con_same m c t k (u_st (us i)) st b (Hd i _ Hi (O2 b Hb))). reflexivity.
      - intros su' b Hs' Hb Ne. destruct (dc_own _ _ _ D su' Hs') as (_ & O2' & _). specialize (O2' b Hb). unfold bnd_con.
        destruct (Nat.eqb_spec e (b_elt b)) as [->|]; [contradiction|reflexivity]. }
    rewrite I1, I2. ring.
  Qed.

  Context (FO : faces_once m) (Cf : forall f, In f cuts -> conforming m f).
  Lemma unit_rhs : forall i, (i < length subs)%nat -> let su := unit_at subs i in
    exists s', ofold (dbound_kernel m c k su (recv i)) (su_visit su) (rhs_lists m c t k (su_elts su) (su_intfaces su) (su_bounds su) (u_st (us i))) = Ok s' /\
    forall e, In e (su_elts su) -> view s' e = view (rhs_kernels m c t k st) e.
  Proof.
    intros i Hi su. assert (Hsu : In su subs) by (apply unit_in; exact Hi).
    destruct (unit_rhs_at i Hi) as (s' & E & V). exists s'. split; [exact E|]. intros e He. destruct (V e He) as (V1 & V2 & V3 & V4 & V5 & V6).
    rewrite rhs_kernels_lists. destruct (rhs_lists_at m c t k st (seq 0 (m_n m)) (m_intfaces m) (m_bounds m) (seq_NoDup _ _)) as ((Q0 & L0 & W0 & C0 & _) & A0 & B0).
    pose proof (unit_elt_small _ _ _ D i e Hi He) as Hn.
    destruct (view s' e) as [vq vr vs vw vc]. cbn [v_q v_rhs v_sol v_wet v_cd] in *. subst vq vs vw vc.
    unfold view. rewrite Q0, L0, W0, C0. f_equal.
    apply functional_extensionality. intros s. apply functional_extensionality. intros v. apply functional_extensionality. intros d.
    destruct (Nat.eq_dec s k) as [->|Ns].
    2:{ rewrite V5, B0 by exact Ns. reflexivity. }
    rewrite V6, (A0 e v d) by (apply in_seq; lia).
    assert (I3 : lsum (su_visit su) (fun x => load_con m c k subs st i x e v d) = lsum cuts (fun f => int_con m c k st f e v d)).
    { rewrite (cuts_sum m c k cuts st (cuts_nodup _ _ _ D FO)), <- (lsum_perm _ _ _ _ (dc_cuts _ _ _ D)).
      rewrite (flat_own _ cut_sides (fun s => side_con m c k cuts st s e v d) subs i e (elts_nodup _ _ _ D) Hi He).
      - rewrite <- positions_sides, lsum_map, <- (lsum_perm _ _ _ _ (dc_visit _ _ _ D su Hsu)).
        apply lsum_ext. intros x Hx. unfold load_con, side_con. rewrite (face_load_cut m c k subs cuts D FO st Cf i x Hi Hx). reflexivity.
      - intros su' s Hs' Hin Ne. destruct (dc_own _ _ _ D su' Hs') as (_ & _ & O3'). specialize (O3' s Hin). unfold side_con.
        destruct (Nat.eqb_spec e (fst s)) as [->|]; [contradiction|reflexivity]. }
    fold su. rewrite I3. rewrite <- (lsum_perm _ _ _ _ (dc_intfaces _ _ _ D)), lsum_app. ring.
  Qed.

  Lemma unit_updated : forall i dt n, (i < length subs)%nat ->
    exists s', unit_update m c t dt n k (unit_at subs i) (recv i) (u_st (us i)) = Ok s' /\
    forall e, In e (su_elts (unit_at subs i)) -> view s' e = upd_view m c dt n k e (view (rhs_kernels m c t k st) e).
  Proof.
    intros i dt n Hi. destruct (unit_rhs i Hi) as (s5 & E5 & V5). unfold unit_update. cbv zeta.
    change (fold_left (boundary_kernel m c t k) (su_bounds (unit_at subs i)) _) with (rhs_lists m c t k (su_elts (unit_at subs i)) (su_intfaces (unit_at subs i)) (su_bounds (unit_at subs i)) (u_st (us i))).
    rewrite E5. cbn [bind].
    destruct (local_fold _ _ (update_local m c dt n k) (su_elts (unit_at subs i)) s5 (fun e => upd_view m c dt n k e (view s5 e)) (unit_elts_nodup _ _ _ D i Hi)) as (s6 & E6 & V6 & _).
    { reflexivity. }
    rewrite ofold_ok in E6. injection E6 as E6. rewrite E6. exists s6. split; [reflexivity|]. intros e He. rewrite (V6 e He), (V5 e He). reflexivity.
  Qed.
End Rhs.

(** ** The limiter *)
(** It looks at three variables of the neighbours' values. *)
Lemma limit_row_neigh3 : forall p a s d e f g b n1 n2 h u v q old var, (forall x y, (x < 3)%nat -> (y < 3)%nat -> n1 x y = n2 x y) ->
  limit_row p (SlIn a s d e f g b n1) h u v q old var = limit_row p (SlIn a s d e f g b n2) h u v q old var.
Proof.
  intros p a s d e f g b n1 n2 h u v q old var H.
  set (cut := fun (n : nat -> vec) x y => if Nat.ltb y 3 then n x y else 0 : R).
  assert (E : forall n, limit_row p (SlIn a s d e f g b n) h u v q old var = limit_row p (SlIn a s d e f g b (cut n)) h u v q old var).
  { intros n. unfold limit_row. cbv zeta. set (centre := fun i => u_baryctr (q i)). set (mid := fun b0 i => u_midpt (q i) b0).
    assert (L : limited_delta (SlIn a s d e f g b n) h u v centre mid var = limited_delta (SlIn a s d e f g b (cut n)) h u v centre mid var).
    { reflexivity. }
    rewrite L. reflexivity. }
  rewrite (E n1), (E n2). apply limit_row_neigh. intros x Hx. apply functional_extensionality. intros y. unfold cut. destruct (Nat.ltb_spec y 3); [apply H; lia|reflexivity].
Qed.
Lemma sl_view_neigh3 : forall m slot n1 n2 w1 w2 e v, w1 = w2 ->
  (v_wet v = true -> forallb (fun b => b) w1 = true -> forall x y, (x < 3)%nat -> (y < 3)%nat -> n1 x y = n2 x y) ->
  sl_view m slot n1 w1 e v = sl_view m slot n2 w2 e v.
Proof.
  intros m slot n1 n2 w1 w2 e v <- H. unfold sl_view. cbv zeta. f_equal. unfold slope_limiting_kernel. cbn [sl_bath].
  destruct (v_wet v) eqn:W; cbn [andb]; [|reflexivity]. destruct (forallb (fun b => b) w1) eqn:Fw; [|reflexivity].
  specialize (H eq_refl eq_refl). destruct (to_linear _ _) as [ql| |]; cbn [bind]; [|reflexivity|reflexivity].
  rewrite !(limit_row_neigh3 (m_p m) (sl_g (m_sl m e)) (sl_M (m_sl m e)) (sl_nu (m_sl m e)) (sl_med (m_sl m e)) (sl_al (m_sl m e)) (sl_rs (m_sl m e)) (sl_bath (m_sl m e)) n1 n2) by exact H. reflexivity.
Qed.
Section Limit.
  Context (sch : scheme) (cc : nat) (m : mesh) (subs : list submesh) (cuts : list intface) (slot : nat).
  Context (D : decomposes m subs cuts) (FO : faces_once m) (Hp : (1 <= m_p m)%nat).
  Context (st : mstate) (us : nat -> ustate) (Hd : distributes subs us st).
  Definition centres_arrive (recv : nat -> nat -> list (list R)) : Prop :=
    forall i r j n, (i < length subs)%nat -> (r < length (su_rankbs (unit_at subs i)))%nat -> (j < length (rb_faces (rankb_at subs i r)))%nat ->
      (n <= 4)%nat ->
      let rb := rankb_at subs i r in
      let d' := face_of (rankb_at subs (rb_unit rb) (rb_index rb)) j in
      exists w, receive (offsets_of sch m rb) cc j n (recv i r) = Ok w /\ carries w (centre_message m slot (u_st (us (rb_unit rb))) d') n.
  Context (recv : nat -> nat -> list (list R)) (Arr : centres_arrive recv).

  Lemma centre_message_ok : forall s d w, carries w (centre_message m slot s d) 4 ->
    decode_wet w = ms_wet s (df_elt d) /\ (ms_wet s (df_elt d) = true -> forall v, (v < 3)%nat -> nth (1 + v) w 0 = centre_of m slot s (df_elt d) v).
  Proof.
    intros s d w Cw.
    assert (L : (4 <= length (centre_message m slot s d))%nat).
    { unfold centre_message. cbn [length]. destruct (ms_wet s (df_elt d)); [rewrite app_length; cbn; lia|rewrite repeat_length; lia]. }
    split.
    - unfold decode_wet. change ($0 : R)%num with (IZR 0). rewrite (carries_nth _ _ _ 0%nat Cw) by lia. unfold centre_message. cbn [nth]. unfold of_bool, ModelSWE.to_bool. num_R.
      destruct (ms_wet s (df_elt d)); [rewrite Rleb_false by lra; reflexivity|rewrite Rleb_true by lra; reflexivity].
    - intros W v Hv. rewrite (carries_nth _ _ _ (1 + v)%nat Cw) by lia. unfold centre_message. cbn [nth Nat.add]. rewrite W.
      destruct v as [|[|[|v]]]; [reflexivity|reflexivity|reflexivity|lia].
  Qed.

  (** The loop over distributed faces: entries of faces visited, others unchanged. *)
  Lemma prepare_dfaces : forall i, (i < length subs)%nat -> forall l s, incl l (su_visit (unit_at subs i)) ->
    exists s', ofold (prepare_dface_of sch cc m (unit_at subs i) (recv i)) l s = Ok s' /\
    (forall e b, ~ In (e, b) (map (pos_side subs i) l) -> n_wet s' e b = n_wet s e b /\ n_q s' e b = n_q s e b) /\
    (forall e b, In (e, b) (map (pos_side subs i) l) -> exists r j, In (r, j) l /\ pos_side subs i (r, j) = (e, b) /\
       let rb := rankb_at subs i r in
       let d' := face_of (rankb_at subs (rb_unit rb) (rb_index rb)) j in
       n_wet s' e b = ms_wet st (df_elt d') /\ (ms_wet st (df_elt d') = true -> forall v, (v < 3)%nat -> n_q s' e b v = centre_of m slot st (df_elt d') v)).
  Proof.
    intros i Hi l. induction l as [|[r j] l IH]; intros s Hl.
    - exists s. split; [reflexivity|]. split; [intros; split; reflexivity|]. intros e b [].
    - assert (Hx : In (r, j) (su_visit (unit_at subs i))) by (apply Hl; left; reflexivity). destruct (visit_pos m subs cuts D i r j Hi Hx) as [Hr Hj].
      destruct (Arr i r j 4%nat Hi Hr Hj (le_n 4)) as (w & Ew & Cw). destruct (centre_message_ok _ _ _ Cw) as [W1 W2].
      destruct (dc_partner _ _ _ D i r Hi Hr) as (P1 & P2 & P3 & _). set (rb := rankb_at subs i r) in *. set (d' := face_of (rankb_at subs (rb_unit rb) (rb_index rb)) j) in *.
      assert (Oe' : In (df_elt d') (su_elts (unit_at subs (rb_unit rb)))) by (apply (cut_side_own m subs cuts D); [assumption|assumption|rewrite P3; exact Hj]).
      pose proof (Hd _ _ P1 Oe') as (Q' & _ & _ & We' & _).
      set (d := face_of rb j). set (s1 := SlMesh (set2 (n_wet s) (df_elt d) (df_id d) (decode_wet w)) (set2 (n_q s) (df_elt d) (df_id d) (fun var => nth (1 + var) w 0))).
      destruct (IH s1 (fun x Hx' => Hl x (or_intror Hx'))) as (s' & E & A & B). exists s'. split.
      + cbn [ofold]. unfold prepare_dface_of at 1. change (rank_of (unit_at subs i) (fst (r, j))) with rb. cbn [fst snd]. change (1 + 3)%nat with 4%nat. rewrite Ew. cbn [bind]. exact E.
      + assert (Sd : pos_side subs i (r, j) = (df_elt d, df_id d)) by reflexivity. split.
        * intros e b Hn. cbn [map] in Hn. rewrite Sd in Hn. destruct (A e b) as [A1 A2]; [intro I; apply Hn; right; exact I|].
          rewrite A1, A2. unfold s1. cbn [n_wet n_q]. unfold set2.
          destruct (Nat.eqb_spec (df_elt d) e) as [<-|]; [|split; reflexivity]. destruct (Nat.eqb_spec (df_id d) b) as [<-|]; [|split; reflexivity].
          exfalso. apply Hn. left. reflexivity.
        * intros e b Hin. destruct (in_dec (fun x y => reflect_dec _ _ (side_eqb_spec x y)) (e, b) (map (pos_side subs i) l)) as [I|I].
          -- destruct (B e b I) as (r' & j' & I' & Sd' & V). exists r', j'. split; [right; exact I'|]. split; [exact Sd'|exact V].
          -- cbn [map] in Hin. destruct Hin as [Hin|Hin]; [|contradiction]. exists r, j. split; [left; reflexivity|]. split; [exact Hin|].
             rewrite Sd in Hin. injection Hin as <- <-. destruct (A _ _ I) as [A1 A2]. cbv zeta. fold rb d'. rewrite A1, A2. unfold s1. cbn [n_wet n_q]. unfold set2. rewrite !Nat.eqb_refl. cbn [andb].
             rewrite W1, We'. split; [reflexivity|]. intros Wt v Hv. rewrite <- We' in Wt. rewrite (W2 Wt v Hv). unfold centre_of. rewrite Q'. reflexivity.
  Qed.

  Definition unit_faces (su : submesh) : list sl_face :=
    map (fun f => Intface (i_in f) (i_bin f) (i_ex f) (i_bex f)) (su_intfaces su) ++ map (fun b => Bound (b_elt b) (b_id b)) (su_bounds su).
  Lemma unit_sides : forall su, flat_map face_sides (unit_faces su) = flat_map sides_of (su_intfaces su) ++ map (fun b => (b_elt b, b_id b)) (su_bounds su).
  Proof.
    intros su. unfold unit_faces. rewrite flat_map_app. f_equal.
    - induction (su_intfaces su) as [|f l IH]; [reflexivity|]. cbn [map flat_map face_sides]. rewrite IH. reflexivity.
    - induction (su_bounds su) as [|f l IH]; [reflexivity|]. cbn [map flat_map face_sides app]. rewrite IH. reflexivity.
  Qed.
  Lemma flat_map_flat_map : forall (A B E : Type) (h : B -> list E) (g : A -> list B) l, flat_map h (flat_map g l) = flat_map (fun x => flat_map h (g x)) l.
  Proof. intros A B E h g l. induction l as [|x l IH]; [reflexivity|]. cbn. rewrite flat_map_app, IH. reflexivity. Qed.
  Lemma map_flat_map : forall (A B E : Type) (h : B -> E) (g : A -> list B) l, map h (flat_map g l) = flat_map (fun x => map h (g x)) l.
  Proof. intros A B E h g l. induction l as [|x l IH]; [reflexivity|]. cbn. rewrite map_app, IH. reflexivity. Qed.
  Lemma unit_sides_split : forall su, In su subs -> NoDup (flat_map face_sides (unit_faces su)) /\
    forall s, In s (flat_map face_sides (unit_faces su)) -> ~ In s (cut_sides su).
  Proof.
    intros su Hs. pose proof (sides_nodup m subs cuts D FO) as N. apply nodup_app in N as (N1 & N2 & N3). apply nodup_app in N2 as (N4 & N5 & N6).
    rewrite unit_sides.
    assert (I1 : forall s, In s (flat_map sides_of (su_intfaces su)) -> In s (flat_map sides_of (flat_map su_intfaces subs))).
    { intros s H. rewrite flat_map_flat_map. apply in_flat_map. exists su. split; assumption. }
    assert (I2 : forall s, In s (map (fun b => (b_elt b, b_id b)) (su_bounds su)) -> In s (map (fun b => (b_elt b, b_id b)) (flat_map su_bounds subs))).
    { intros s H. rewrite map_flat_map. apply in_flat_map. exists su. split; assumption. }
    assert (I3 : forall s, In s (cut_sides su) -> In s (flat_map sides_of cuts)).
    { intros s H. eapply Permutation_in; [apply (dc_cuts _ _ _ D)|]. apply in_flat_map. exists su. split; assumption. }
    rewrite flat_map_flat_map in N1. rewrite map_flat_map in N5. split.
    - apply NoDup_app_intro.
      + apply (nodup_part _ _ (fun x => flat_map sides_of (su_intfaces x)) subs su N1 Hs).
      + apply (nodup_part _ _ (fun x => map (fun b => (b_elt b, b_id b)) (su_bounds x)) subs su N5 Hs).
      + intros s H H'. apply (N3 s (I1 s H)). apply in_or_app. right. apply I2. exact H'.
    - intros s H H'. apply in_app_or in H as [H|H].
      + apply (N3 s (I1 s H)). apply in_or_app. left. apply I3. exact H'.
      + apply (N6 s (I3 s H')). apply I2. exact H.
  Qed.
  (** Every side of an element of the unit is on a face of the unit or on a cut. *)
  Lemma side_cases : forall i e b e', (i < length subs)%nat -> In e (su_elts (unit_at subs i)) -> seen_across m e b e' ->
    (In e' (su_elts (unit_at subs i)) /\ exists f, In f (unit_faces (unit_at subs i)) /\ In (e, b) (face_sides f) /\ across f e b = e') \/
    (exists f, In f cuts /\ (((e, b) = (i_in f, i_bin f) /\ e' = i_ex f) \/ ((e, b) = (i_ex f, i_bex f) /\ e' = i_in f)) /\ In (e, b) (cut_sides (unit_at subs i))).
  Proof.
    intros i e b e' Hi He Sa. set (su := unit_at subs i) in *. assert (Hs : In su subs) by (apply unit_in; exact Hi).
    assert (Same : forall su', In su' subs -> In e (su_elts su') -> su' = su).
    { intros su' Hs' He'. apply (flat_once _ _ su_elts subs su' su e (elts_nodup _ _ _ D) Hs' Hs He' He). }
    destruct Sa as [(f & Hf & H)|(f & Hf & E1 & E2 & ->)].
    - eapply Permutation_in in Hf; [|apply Permutation_sym, (dc_intfaces _ _ _ D)]. apply in_app_or in Hf as [Hf|Hf].
      + left. apply in_flat_map in Hf as (su' & Hs' & Hf). destruct (dc_own _ _ _ D su' Hs') as (O1 & _). destruct (O1 f Hf) as [X1 X2].
        assert (Es : su' = su) by (apply Same; [exact Hs'|destruct H as [(<- & _)|(<- & _)]; assumption]). subst su'.
        split; [destruct H as [(_ & _ & <-)|(_ & _ & <-)]; assumption|].
        exists (Intface (i_in f) (i_bin f) (i_ex f) (i_bex f)). split; [|split].
        * apply in_or_app. left. apply in_map_iff. exists f. split; [reflexivity|exact Hf].
        * cbn. destruct H as [(<- & <- & _)|(<- & <- & _)]; [left|right; left]; reflexivity.
        * assert (Nf : (i_in f, i_bin f) <> (i_ex f, i_bex f)).
          { destruct (unit_sides_split su Hs) as [N _]. rewrite unit_sides in N. apply nodup_app in N as (N & _).
            pose proof (nodup_part _ _ sides_of (su_intfaces su) f N Hf) as Nn. unfold sides_of in Nn. apply NoDup_cons_iff in Nn as [Nn _]. intros E. apply Nn. left. congruence. }
          cbn. destruct H as [(<- & <- & <-)|(<- & <- & <-)].
          -- rewrite !Nat.eqb_refl. reflexivity.
          -- destruct (Nat.eqb_spec (i_ex f) (i_in f)) as [E|]; [|reflexivity]. destruct (Nat.eqb_spec (i_bex f) (i_bin f)) as [E'|]; cbn [andb]; [|reflexivity]. exfalso. apply Nf. congruence.
      + right. exists f. split; [exact Hf|]. split; [destruct H as [(<- & <- & <-)|(<- & <- & <-)]; [left|right]; split; reflexivity|].
        assert (I : In (e, b) (flat_map sides_of cuts)).
        { apply in_flat_map. exists f. split; [exact Hf|]. destruct H as [(<- & <- & _)|(<- & <- & _)]; [left|right; left]; reflexivity. }
        eapply Permutation_in in I; [|apply Permutation_sym, (dc_cuts _ _ _ D)]. apply in_flat_map in I as (su' & Hs' & I).
        destruct (dc_own _ _ _ D su' Hs') as (_ & _ & O3). rewrite <- (Same su' Hs' (O3 _ I)). exact I.
    - left. eapply Permutation_in in Hf; [|apply Permutation_sym, (dc_bounds _ _ _ D)]. apply in_flat_map in Hf as (su' & Hs' & Hf).
      destruct (dc_own _ _ _ D su' Hs') as (_ & O2 & _). specialize (O2 f Hf). rewrite E1 in O2. rewrite (Same su' Hs' O2) in Hf.
      split; [exact He|]. exists (Bound e b). split; [|split; [left; reflexivity|reflexivity]].
      apply in_or_app. right. apply in_map_iff. exists f. split; [rewrite E1, E2; reflexivity|exact Hf].
  Qed.
  (** After both preparations a unit knows the neighbours of its elements. *)
  Lemma unit_prepared : forall i, (i < length subs)%nat -> let su := unit_at subs i in
    exists s2, ofold (prepare_dface_of sch cc m su (recv i)) (su_visit su) (prepare_faces (ms_wet (u_st (us i))) (centre_of m slot (u_st (us i))) (ms_slm (u_st (us i))) (unit_faces su)) = Ok s2 /\
    forall e b e', In e (su_elts su) -> (b < 3)%nat -> seen_across m e b e' ->
      n_wet s2 e b = ms_wet st e' /\ (ms_wet st e = true -> ms_wet st e' = true -> forall v, (v < 3)%nat -> n_q s2 e b v = centre_of m slot st e' v).
  Proof.
    intros i Hi su. assert (Hs : In su subs) by (apply unit_in; exact Hi).
    set (s1 := prepare_faces _ _ _ _). destruct (prepare_dfaces i Hi (su_visit su) s1 (incl_refl _)) as (s2 & E & A & B). exists s2. split; [exact E|].
    assert (Vs : forall s, In s (map (pos_side subs i) (su_visit su)) <-> In s (cut_sides su)).
    { intros s. unfold su. rewrite <- positions_sides. split; intros I; apply in_map_iff in I as (x & <- & I); apply in_map; (eapply Permutation_in; [|exact I]);
        [|apply Permutation_sym]; apply (dc_visit _ _ _ D), Hs. }
    intros e b e' He Hb Sa. destruct (unit_sides_split su Hs) as [N1 N2]. destruct (side_cases i e b e' Hi He Sa) as [(Oe' & f & Hf & Sf & Af)|(f & Hf & Sf & Cs)].
    - destruct (A e b) as [A1 A2].
      { rewrite Vs. apply N2. apply in_flat_map. exists f. split; assumption. }
      rewrite A1, A2. destruct (prepare_ok (ms_wet (u_st (us i))) (centre_of m slot (u_st (us i))) (unit_faces su) (ms_slm (u_st (us i))) f e b N1 Hf Sf) as [P1 P2].
      rewrite Af in P1, P2. destruct (Hd i e' Hi Oe') as (Q' & _ & _ & W' & _). destruct (Hd i e Hi He) as (_ & _ & _ & We & _).
      rewrite W' in P1, P2. rewrite We in P2. split; [exact P1|]. intros X1 X2 v Hv. unfold s1. rewrite (P2 X1 X2). unfold centre_of. rewrite Q'. reflexivity.
    - destruct (B e b (proj2 (Vs (e, b)) Cs)) as (r & j & Hx & Sd & V). destruct (visit_pos m subs cuts D i r j Hi Hx) as [Hr Hj]. cbv zeta in V.
      destruct (dc_partner _ _ _ D i r Hi Hr) as (P1 & P2 & P3 & P4). set (rb := rankb_at subs i r) in *. set (d' := face_of (rankb_at subs (rb_unit rb) (rb_index rb)) j) in *.
      set (d := face_of rb j).
      assert (Ed : nth_error (rb_faces rb) j = Some d) by (apply nth_error_nth'; exact Hj).
      assert (Ed' : nth_error (rb_faces (rankb_at subs (rb_unit rb) (rb_index rb))) j = Some d') by (apply nth_error_nth'; rewrite P3; exact Hj).
      destruct (P4 j d d' Ed Ed') as (g & Hg & M). change (pos_side subs i (r, j)) with (df_elt d, df_id d) in Sd.
      pose proof (cuts_nodup m subs cuts D FO) as Nc.
      assert (Eg : g = f).
      { apply (flat_once _ _ sides_of cuts g f (e, b) Nc Hg Hf).
        - destruct M as [(E1 & _)|(_ & E2 & _)]; [left|right; left]; congruence.
        - destruct Sf as [[-> _]|[-> _]]; [left|right; left]; reflexivity. }
      subst g. assert (Ee : df_elt d' = e').
      { pose proof (sides_differ cuts Nc f Hf) as Nf. destruct M as [(E1 & E2 & _)|(E1 & E2 & _)]; destruct Sf as [[S1 ->]|[S1 ->]]; try congruence. }
      rewrite Ee in V. destruct V as [V1 V2]. split; [exact V1|]. intros _ X2. exact (V2 X2).
  Qed.
End Limit.

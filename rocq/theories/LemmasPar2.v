(** The right-hand side of a unit is that of the whole mesh. *)
From Coq Require Import Reals QArith NArith List Bool Arith Lia Lra Permutation FunctionalExtensionality.
From Verif Require Import Num ModelSWE Outcome ModelShape ModelBasis ModelJac ModelStepper ModelWetDry ModelSlope ModelStep ModelComm ModelPar
  SpecSWE SpecShape SpecStepper SpecWetDry SpecSlope SpecStep SpecStage SpecComm SpecPar
  LemmasSWE LemmasHDG LemmasRK LemmasPart LemmasComm LemmasStep LemmasStage LemmasStage2 LemmasStage3 LemmasStage4 LemmasStage5 LemmasPar.
Import ListNotations.
Open Scope R_scope.

(** ** Lists *)
Lemma nodup_app : forall (A : Type) (l l' : list A), NoDup (l ++ l') -> NoDup l /\ NoDup l' /\ forall x, In x l -> ~ In x l'.
Proof.
  intros A l l'. induction l as [|x l IH]; cbn; intros H; [split; [constructor|split; [exact H|intros x []]]|].
  apply NoDup_cons_iff in H as [N H]. destruct (IH H) as (A1 & A2 & A3). split; [constructor; [intro I; apply N, in_or_app; left; exact I|exact A1]|].
  split; [exact A2|]. intros y [<-|Hy]; [intro I; apply N, in_or_app; right; exact I|apply A3; exact Hy].
Qed.
Lemma flat_once : forall (A B : Type) (h : A -> list B) l x y s, NoDup (flat_map h l) -> In x l -> In y l -> In s (h x) -> In s (h y) -> x = y.
Proof.
  intros A B h l x y s. induction l as [|z l IH]; intros ND Hx Hy Sx Sy; [destruct Hx|]. cbn in ND. apply nodup_app in ND as (_ & N2 & N3).
  assert (F : forall w, In w l -> In s (h w) -> In s (flat_map h l)) by (intros w Hw Sw; apply in_flat_map; exists w; split; assumption).
  destruct Hx as [<-|Hx], Hy as [<-|Hy]; [reflexivity| | |apply IH; assumption].
  - exfalso. apply (N3 s Sx), (F y); assumption.
  - exfalso. apply (N3 s Sy), (F x); assumption.
Qed.
Lemma flat_index : forall (A B : Type) (h : A -> list B) (d : A) l i j s, NoDup (flat_map h l) -> (i < length l)%nat -> (j < length l)%nat ->
  In s (h (nth i l d)) -> In s (h (nth j l d)) -> i = j.
Proof.
  intros A B h d l. induction l as [|z l IH]; intros i j s ND Hi Hj Sx Sy; [cbn in Hi; lia|]. cbn in ND. apply nodup_app in ND as (_ & N2 & N3).
  assert (F : forall w, (w < length l)%nat -> In s (h (nth w l d)) -> In s (flat_map h l)) by (intros w Hw Sw; apply in_flat_map; exists (nth w l d); split; [apply nth_In|]; assumption).
  destruct i as [|i], j as [|j]; cbn in Hi, Hj, Sx, Sy; [reflexivity| | |].
  - exfalso. apply (N3 s Sx), (F j); [lia|assumption].
  - exfalso. apply (N3 s Sy), (F i); [lia|assumption].
  - f_equal. apply (IH i j s N2); [lia|lia|assumption|assumption].
Qed.
Lemma nodup_part : forall (A B : Type) (h : A -> list B) l x, NoDup (flat_map h l) -> In x l -> NoDup (h x).
Proof.
  intros A B h l x. induction l as [|z l IH]; intros ND Hx; [destruct Hx|]. cbn in ND. apply nodup_app in ND as (N1 & N2 & _).
  destruct Hx as [<-|Hx]; [exact N1|apply IH; assumption].
Qed.
Lemma perm_flat_map : forall (A B : Type) (h : A -> list B) l l', Permutation l l' -> Permutation (flat_map h l) (flat_map h l').
Proof.
  intros A B h l l' P. induction P as [|x l l' P IH|x y l|l l' l'' P IH P' IH']; cbn.
  - constructor.
  - apply Permutation_app_head. exact IH.
  - rewrite !app_assoc. apply Permutation_app_tail, Permutation_app_comm.
  - eapply Permutation_trans; eassumption.
Qed.
(** A sum over the parts of all units is the sum over one unit when the others'
    terms vanish. *)
Lemma flat_own : forall (A : Type) (ls : submesh -> list A) (F : A -> R) subs i e, NoDup (flat_map su_elts subs) -> (i < length subs)%nat ->
  In e (su_elts (unit_at subs i)) -> (forall su x, In su subs -> In x (ls su) -> ~ In e (su_elts su) -> F x = 0) ->
  lsum (flat_map ls subs) F = lsum (ls (unit_at subs i)) F.
Proof.
  intros A ls F subs. induction subs as [|su subs IH]; intros i e ND Hi He Z; [cbn in Hi; lia|].
  cbn [flat_map] in ND |- *. apply nodup_app in ND as (_ & N2 & N3). rewrite lsum_app. destruct i as [|i]; cbn in He |- *.
  - rewrite lsum_flat_map, (lsum_ext _ subs _ (fun _ => 0)); [rewrite lsum_zero; ring|].
    intros su' H'. rewrite (lsum_ext _ _ _ (fun _ => 0)); [apply lsum_zero|]. intros x Hx. apply (Z su' x); [right; exact H'|exact Hx|].
    intros I. apply (N3 e He). apply in_flat_map. exists su'. split; assumption.
  - fold (unit_at subs i) in He |- *. rewrite (IH i e N2); [|cbn in Hi; lia|exact He|intros su' x H'; apply Z; right; exact H'].
    rewrite (lsum_ext _ (ls su) _ (fun _ => 0)); [rewrite lsum_zero; ring|]. intros x Hx. apply (Z su x (or_introl eq_refl) Hx).
    intros I. apply (N3 e I). apply in_flat_map. exists (unit_at subs i). split; [|exact He]. unfold unit_at. apply nth_In. cbn in Hi. lia.
Qed.

(** ** Contributions depend on the elements at the face only *)
Section Same.
  Context (m : mesh) (c : config) (t : R) (k : nat).
  Lemma int_con_same : forall a b f, same_element a b (i_in f) -> same_element a b (i_ex f) -> int_con m c k a f = int_con m c k b f.
  Proof.
    intros a b f (Q1 & _ & _ & W1 & _) (Q2 & _ & _ & W2 & _). unfold int_con, interface_flux, q_face. rewrite Q1, Q2, W1, W2. reflexivity.
  Qed.
  Lemma bnd_con_same : forall a b f, same_element a b (b_elt f) -> bnd_con m c t k a f = bnd_con m c t k b f.
  Proof. intros a b f (Q1 & _ & _ & W1 & _). unfold bnd_con, boundary_flux, q_face. rewrite Q1, W1. reflexivity. Qed.
  Lemma vol_at_same : forall a b e, same_element a b e -> vol_at m c k a e = vol_at m c k b e.
  Proof. intros a b e (Q1 & _ & _ & W1 & _). unfold vol_at, q_gp, aux_gp, q_gp. rewrite Q1, W1. reflexivity. Qed.
  Lemma src_same : forall a b e, same_element a b e -> source_at m c t k a e = source_at m c t k b e.
  Proof. intros a b e (Q1 & _). unfold source_at, q_gp, aux_gp, q_gp. rewrite Q1. reflexivity. Qed.
  Lemma message_same : forall a b d, same_element a b (df_elt d) -> face_message m k a d = face_message m k b d.
  Proof. intros a b d (Q1 & _ & _ & W1 & _). unfold face_message, q_face. rewrite Q1, W1. reflexivity. Qed.
  Lemma dface_flux_same : forall a b w d, same_element a b (df_elt d) -> dface_flux m c k a w d = dface_flux m c k b w d.
  Proof. intros a b w d (Q1 & _ & _ & W1 & _). unfold dface_flux, q_face. rewrite Q1, W1. reflexivity. Qed.
End Same.

(** ** A cut face gives each side the flux of the whole interface *)
Lemma opposite_opp : forall n n', opposite n n' -> n' = opp n.
Proof. intros [a b] [a' b'] [H1 H2]. cbn in *. unfold opp. cbn. subst. reflexivity. Qed.
Lemma integration_face_ext : forall m e bl b u v i d, (forall gp, (gp < ngp1 m)%nat -> u gp = v gp) -> integration_face m e bl b u i d = integration_face m e bl b v i d.
Proof.
  intros m e bl b u v i d H. unfold integration_face. rewrite !vmsum_rsum. apply rsum_ext. intros gp Hg. rewrite (H gp Hg). reflexivity.
Qed.
Lemma cut_flux : forall m c k st f d d', opposite (normal m (i_in f) (i_bin f)) (normal m (i_ex f) (i_bex f)) ->
  (i_kind f = Internal -> forall gp, (gp < length (m_rule1 m))%nat ->
     let a := m_faux m (i_in f) (i_bin f) gp in
     let a' := m_faux m (i_ex f) (i_bex f) (length (m_rule1 m) - 1 - gp)%nat in
     sp a = 1 /\ sp a' = 1 /\ bath a' = bath a) -> sides_match (length (m_rule1 m)) f d d' -> forall gp, (gp < ngp1 m)%nat ->
  dface_flux m c k st (face_message m k st d') d gp = fst (interface_flux m c k st f) gp /\
  dface_flux m c k st (face_message m k st d) d' gp = snd (interface_flux m c k st f) gp.
Proof.
  intros m c k st f d d' On Cf (E1 & E2 & K). injection E1 as E1 E1'. injection E2 as E2 E2'.
  pose proof (opposite_opp _ _ On) as On'. intros gp Hg.
  unfold dface_flux, interface_flux, face_message. rewrite E1, E1', E2, E2'. destruct (i_kind f) as [|data] eqn:Kf.
  - destruct K as [-> ->]. rewrite On'.
    destruct (distributed_is_internal (c_g c) (ms_wet st (i_in f)) (ms_wet st (i_ex f)) (ngp1 m) (q_face m st k (i_in f) (i_bin f)) (q_face m st k (i_ex f) (i_bex f))
      (m_faux m (i_in f) (i_bin f)) (m_faux m (i_ex f) (i_bex f)) (fun _ => normal m (i_in f) (i_bin f)) (fun _ => opp (normal m (i_in f) (i_bin f)))
      (fun _ => vzero, fun _ => vzero) (fun _ => vzero) (fun _ => vzero)) as [A B].
    { intros j Hj. destruct (Cf eq_refl j Hj) as (S1 & _ & Bt). change (length (m_rule1 m)) with (ngp1 m) in *.
      destruct (Cf eq_refl (ngp1 m - 1 - j)%nat) as (_ & S2 & _); [unfold ngp1 in *; lia|]. change (length (m_rule1 m)) with (ngp1 m) in *.
      replace (ngp1 m - 1 - (ngp1 m - 1 - j))%nat with j in S2 by lia. repeat (split; [assumption|]). rewrite <- On'. exact On. }
    split; [apply A|apply B]; exact Hg.
  - destruct K as (a & a' & -> & -> & Ka). rewrite On'.
    set (P := fun g (_ _ : unit) => let '(H, cs, cp) := data g in
        levee_point (c_g c) H cs cp (ms_wet st (i_in f)) (ms_wet st (i_ex f)) (q_face m st k (i_in f) (i_bin f) g) (q_face m st k (i_ex f) (i_bex f) (ngp1 m - g - 1)%nat)
        (m_faux m (i_in f) (i_bin f) g) (m_faux m (i_ex f) (i_bex f) (ngp1 m - g - 1)%nat) (normal m (i_in f) (i_bin f)) (opp (normal m (i_in f) (i_bin f)))).
    assert (O : opposite (normal m (i_in f) (i_bin f)) (opp (normal m (i_in f) (i_bin f)))) by (rewrite <- On'; exact On).
    assert (Lp : forall g, (g < ngp1 m)%nat -> fst (interface_flux m c k st f) g = fst (P g tt tt) /\ snd (interface_flux m c k st f) (ngp1 m - 1 - g)%nat = snd (P g tt tt)).
    { intros g Hg'. unfold interface_flux. rewrite Kf, levee_loop. replace (ngp1 m - 1 - g)%nat with (ngp1 m - g - 1)%nat by lia.
      destruct (loop2_spec _ _ (ngp1 m) (fun g _ _ => P g tt tt) (fun _ => vzero, fun _ => vzero) g Hg') as [A1 A2]. split; [exact A1|exact A2]. }
    assert (Dl : forall dat wi w q a n F0 g, (g < ngp1 m)%nat -> dist_levee_flux m c dat wi w q a n F0 g =
      let '(H, cs, cp) := dat g in dist_levee_point (c_g c) H cs cp wi (q g) (decode_q_ex (ngp1 m) w g) (a g) (n g)).
    { intros dat wi w q a0 n F0 g Hg'. unfold dist_levee_flux.
      rewrite (fold_left_ext _ _ _ (fun F g => upd F g (let '(H, cs, cp) := dat g in dist_levee_point (c_g c) H cs cp wi (q g) (decode_q_ex (ngp1 m) w g) (a0 g) (n g)))).
      - rewrite loop1_spec, (proj2 (Nat.ltb_lt _ _) Hg'). reflexivity.
      - intros F x. destruct (dat x) as [[H cs] cp]. reflexivity. }
    assert (If : interface_flux m c k st f = levee_flux m c data (ms_wet st (i_in f)) (ms_wet st (i_ex f)) (q_face m st k (i_in f) (i_bin f)) (q_face m st k (i_ex f) (i_bex f))
      (m_faux m (i_in f) (i_bin f)) (m_faux m (i_ex f) (i_bex f)) (fun _ => normal m (i_in f) (i_bin f)) (fun _ => opp (normal m (i_in f) (i_bin f))) (fun _ => vzero, fun _ => vzero))
      by (unfold interface_flux; rewrite Kf; reflexivity).
    rewrite <- If, !Dl, !decode_q_message by exact Hg. split.
    + rewrite (proj1 (Lp gp Hg)). rewrite (proj1 (Ka gp Hg)). unfold P. destruct (data gp) as [[H cs] cp].
      replace (ngp1 m - gp - 1)%nat with (ngp1 m - 1 - gp)%nat by lia. apply dist_levee_in. exact O.
    + assert (Hg2 : (ngp1 m - 1 - gp < ngp1 m)%nat) by lia. pose proof (proj2 (Lp _ Hg2)) as L2. replace (ngp1 m - 1 - (ngp1 m - 1 - gp))%nat with gp in L2 by lia.
      rewrite L2, (proj2 (Ka gp Hg)). change (length (m_rule1 m)) with (ngp1 m). unfold P. destruct (data _) as [[H cs] cp].
      replace (ngp1 m - (ngp1 m - 1 - gp) - 1)%nat with gp by lia. apply dist_levee_ex. exact O.
Qed.

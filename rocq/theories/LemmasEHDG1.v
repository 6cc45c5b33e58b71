(** The buffers and traces after the global step of the explicit HDG solver. *)
From Coq Require Import Reals QArith List Bool Arith Lia Lra FunctionalExtensionality.
From Verif Require Import Num ModelSWE Outcome ModelShape ModelBasis ModelJac ModelStepper ModelWetDry ModelSlope ModelStep ModelIHDG ModelEHDG
  SpecSWE SpecShape SpecBasis SpecJac SpecStepper SpecSlope SpecStep SpecStage SpecEHDG
  LemmasSWE LemmasRK LemmasHDG LemmasStep LemmasStage LemmasStage3 LemmasStage5.
Import ListNotations.
Open Scope R_scope.

Lemma set_face_at : forall B e b n u e' b' gp, set_face B e b n u e' b' gp =
  if Nat.eqb e' e && Nat.eqb b' b && Nat.ltb gp n then u gp else B e' b' gp.
Proof.
  intros. unfold set_face, upd. destruct (Nat.eqb_spec e' e) as [->|]; cbn [andb]; [|reflexivity].
  destruct (Nat.eqb_spec b' b) as [->|]; cbn [andb]; [|reflexivity]. destruct (Nat.ltb gp n); reflexivity.
Qed.
Lemma set_face_same : forall B e b n u gp, (gp < n)%nat -> set_face B e b n u e b gp = u gp.
Proof. intros B e b n u gp H. rewrite set_face_at, !Nat.eqb_refl. apply Nat.ltb_lt in H. rewrite H. reflexivity. Qed.
Lemma set_face_other : forall B e b n u e' b' gp, (e', b') <> (e, b) -> set_face B e b n u e' b' gp = B e' b' gp.
Proof.
  intros B e b n u e' b' gp H. rewrite set_face_at. destruct (Nat.eqb_spec e' e) as [->|]; cbn [andb]; [|reflexivity].
  destruct (Nat.eqb_spec b' b) as [->|]; [congruence|reflexivity].
Qed.

Definition isides (f : intface) : list (nat * nat) := [(i_in f, i_bin f); (i_ex f, i_bex f)].
Definition bside (b : bound) : nat * nat := (b_elt b, b_id b).
Lemma NoDup_app_parts : forall (A : Type) (l l' : list A), NoDup (l ++ l') -> NoDup l /\ NoDup l' /\ (forall x, In x l -> ~ In x l').
Proof.
  intros A l l'. induction l as [|x l IH]; intros H; [split; [constructor|]; split; [exact H|intros x []]|].
  cbn in H. apply NoDup_cons_iff in H as [N H]. destruct (IH H) as (A1 & A2 & A3). split; [|split; [exact A2|]].
  - constructor; [intro; apply N, in_or_app; left; assumption|exact A1].
  - intros y [<-|Hy]; [intro; apply N, in_or_app; right; assumption|apply A3, Hy].
Qed.
Lemma sides_parts : forall m, NoDup (all_sides m) -> NoDup (flat_map isides (m_intfaces m)) /\ NoDup (map bside (m_bounds m)) /\
  (forall x, In x (flat_map isides (m_intfaces m)) -> ~ In x (map bside (m_bounds m))).
Proof. intros m H. apply NoDup_app_parts. exact H. Qed.

Section Buffers.
  Context (m : mesh) (c : config) (k : nat).

  (** ** q_at_gp *)
  Lemma gi_keep : forall s f, es_m (global_interface m k s f) = es_m s /\ es_F (global_interface m k s f) = es_F s /\ es_qh (global_interface m k s f) = es_qh s.
  Proof. intros s f. unfold global_interface. destruct (_ || _); repeat split. Qed.
  Lemma gb_keep : forall s b, es_m (global_boundary m k s b) = es_m s /\ es_F (global_boundary m k s b) = es_F s /\ es_qh (global_boundary m k s b) = es_qh s.
  Proof. intros s b. unfold global_boundary. destruct (ms_wet _ _); repeat split. Qed.
  Lemma gi_q : forall s f e b gp, es_q (global_interface m k s f) e b gp =
    if (ms_wet (es_m s) (i_in f) || ms_wet (es_m s) (i_ex f)) && existsb (fun x => Nat.eqb e (fst x) && Nat.eqb b (snd x)) (isides f) && Nat.ltb gp (ngp1 m)
    then q_face m (es_m s) k e b gp else es_q s e b gp.
  Proof.
    intros s f e b gp. unfold global_interface. destruct (_ || _); cbn [andb]; [|reflexivity]. cbn [es_q existsb isides fst snd orb].
    rewrite !set_face_at.
    destruct (Nat.eqb_spec e (i_ex f)) as [E1|E1]; destruct (Nat.eqb_spec b (i_bex f)) as [E2|E2]; cbn [andb orb];
    destruct (Nat.eqb_spec e (i_in f)) as [E3|E3]; destruct (Nat.eqb_spec b (i_bin f)) as [E4|E4]; cbn [andb orb];
    destruct (Nat.ltb gp (ngp1 m)); try reflexivity; first [rewrite E1, E2; reflexivity | rewrite E3, E4; reflexivity].
  Qed.
  Lemma gb_q : forall s x e b gp, es_q (global_boundary m k s x) e b gp =
    if ms_wet (es_m s) (b_elt x) && (Nat.eqb e (b_elt x) && Nat.eqb b (b_id x)) && Nat.ltb gp (ngp1 m)
    then q_face m (es_m s) k e b gp else es_q s e b gp.
  Proof.
    intros s x e b gp. unfold global_boundary. destruct (ms_wet _ _); cbn [andb]; [|reflexivity]. cbn [es_q]. rewrite set_face_at.
    destruct (Nat.eqb_spec e (b_elt x)) as [E1|E1]; destruct (Nat.eqb_spec b (b_id x)) as [E2|E2]; cbn [andb];
    destruct (Nat.ltb gp (ngp1 m)); try reflexivity. rewrite E1, E2. reflexivity.
  Qed.
  Lemma write_fold : forall (X : Type) (f : estate -> X -> estate) (on : mstate -> X -> nat -> nat -> bool),
    (forall s x, es_m (f s x) = es_m s /\ es_F (f s x) = es_F s /\ es_qh (f s x) = es_qh s) ->
    (forall s x e b gp, es_q (f s x) e b gp = if on (es_m s) x e b && Nat.ltb gp (ngp1 m) then q_face m (es_m s) k e b gp else es_q s e b gp) ->
    forall l s, (es_m (fold_left f l s) = es_m s /\ es_F (fold_left f l s) = es_F s /\ es_qh (fold_left f l s) = es_qh s) /\
    (forall e b gp, es_q (fold_left f l s) e b gp =
      if existsb (fun x => on (es_m s) x e b) l && Nat.ltb gp (ngp1 m) then q_face m (es_m s) k e b gp else es_q s e b gp).
  Proof.
    intros X f on K W l. induction l as [|x l IH]; intros s; [cbn; repeat split|].
    cbn [fold_left existsb]. destruct (K s x) as (K1 & K2 & K3). destruct (IH (f s x)) as ((I1 & I2 & I3) & I4).
    split; [repeat split; congruence|]. intros e b gp. rewrite I4, K1, W.
    destruct (existsb (fun x0 => on (es_m s) x0 e b) l), (on (es_m s) x e b), (Nat.ltb gp (ngp1 m)); reflexivity.
  Qed.

  Definition ion (st : mstate) (f : intface) (e b : nat) : bool :=
    (ms_wet st (i_in f) || ms_wet st (i_ex f)) && existsb (fun x => Nat.eqb e (fst x) && Nat.eqb b (snd x)) (isides f).
  Definition bon (st : mstate) (x : bound) (e b : nat) : bool := ms_wet st (b_elt x) && (Nat.eqb e (b_elt x) && Nat.eqb b (b_id x)).
  (** After both loops over q_at_gp. *)
  Definition loaded (s : estate) : estate := fold_left (global_boundary m k) (m_bounds m) (fold_left (global_interface m k) (m_intfaces m) s).
  Lemma loaded_spec : forall s, (es_m (loaded s) = es_m s /\ es_F (loaded s) = es_F s /\ es_qh (loaded s) = es_qh s) /\
    (forall e b gp, es_q (loaded s) e b gp =
      if (existsb (fun f => ion (es_m s) f e b) (m_intfaces m) || existsb (fun x => bon (es_m s) x e b) (m_bounds m)) && Nat.ltb gp (ngp1 m)
      then q_face m (es_m s) k e b gp else es_q s e b gp).
  Proof.
    intros s. unfold loaded.
    destruct (write_fold intface (global_interface m k) ion gi_keep gi_q (m_intfaces m) s) as ((A1 & A2 & A3) & A4).
    set (s1 := fold_left (global_interface m k) (m_intfaces m) s) in *.
    destruct (write_fold bound (global_boundary m k) bon gb_keep gb_q (m_bounds m) s1) as ((B1 & B2 & B3) & B4).
    split; [repeat split; congruence|]. intros e b gp. rewrite B4, A1, A4.
    destruct (existsb _ (m_intfaces m)), (existsb _ (m_bounds m)), (Nat.ltb gp (ngp1 m)); reflexivity.
  Qed.
  Lemma loaded_int : forall s f gp, In f (m_intfaces m) -> ms_wet (es_m s) (i_in f) || ms_wet (es_m s) (i_ex f) = true -> (gp < ngp1 m)%nat ->
    es_q (loaded s) (i_in f) (i_bin f) gp = q_face m (es_m s) k (i_in f) (i_bin f) gp /\
    es_q (loaded s) (i_ex f) (i_bex f) gp = q_face m (es_m s) k (i_ex f) (i_bex f) gp.
  Proof.
    intros s f gp Hf W Hg. destruct (loaded_spec s) as (_ & Q). apply Nat.ltb_lt in Hg.
    assert (E : forall e b, In (e, b) (isides f) -> existsb (fun f => ion (es_m s) f e b) (m_intfaces m) = true).
    { intros e b I. apply existsb_exists. exists f. split; [exact Hf|]. unfold ion. rewrite W. cbn [andb].
      apply existsb_exists. exists (e, b). split; [exact I|]. cbn. rewrite !Nat.eqb_refl. reflexivity. }
    rewrite !Q, !E, Hg by (cbn; tauto). split; reflexivity.
  Qed.
  Lemma loaded_wet : forall s b gp, In b (m_bounds m) -> ms_wet (es_m s) (b_elt b) = true -> (gp < ngp1 m)%nat ->
    es_q (loaded s) (b_elt b) (b_id b) gp = q_face m (es_m s) k (b_elt b) (b_id b) gp.
  Proof.
    intros s b gp Hb W Hg. destruct (loaded_spec s) as (_ & Q). apply Nat.ltb_lt in Hg.
    rewrite Q, Hg. replace (existsb (fun x => bon (es_m s) x (b_elt b) (b_id b)) (m_bounds m)) with true; [rewrite orb_true_r; reflexivity|].
    symmetry. apply existsb_exists. exists b. split; [exact Hb|]. unfold bon. rewrite W, !Nat.eqb_refl. reflexivity.
  Qed.
  Lemma loaded_dry : forall s b gp, NoDup (all_sides m) -> In b (m_bounds m) -> ms_wet (es_m s) (b_elt b) = false ->
    es_q (loaded s) (b_elt b) (b_id b) gp = es_q s (b_elt b) (b_id b) gp.
  Proof.
    intros s b gp ND Hb W. destruct (loaded_spec s) as (_ & Q). rewrite Q. destruct (sides_parts m ND) as (_ & N2 & N3).
    replace (existsb (fun f => ion (es_m s) f (b_elt b) (b_id b)) (m_intfaces m)) with false.
    - replace (existsb (fun x => bon (es_m s) x (b_elt b) (b_id b)) (m_bounds m)) with false; [reflexivity|].
      symmetry. apply not_true_is_false. intros E. apply existsb_exists in E as (x & Hx & E). unfold bon in E.
      apply andb_true_iff in E as [E1 E2]. apply andb_true_iff in E2 as [E2 _]. apply Nat.eqb_eq in E2. congruence.
    - symmetry. apply not_true_is_false. intros E. apply existsb_exists in E as (f & Hf & E). unfold ion in E.
      apply andb_true_iff in E as [_ E]. apply existsb_exists in E as ([e' b'] & I & E). cbn [fst snd] in E.
      apply andb_true_iff in E as [E1 E2]. apply Nat.eqb_eq in E1, E2. subst e' b'.
      apply (N3 (b_elt b, b_id b)); [apply in_flat_map; exists f; split; assumption|apply in_map_iff; exists b; split; [reflexivity|assumption]].
  Qed.

  (** ** F_hat_at_gp of the interfaces *)
  Lemma ei_keep : forall s f, es_m (edge_interface m c s f) = es_m s /\ es_q (edge_interface m c s f) = es_q s /\ es_qh (edge_interface m c s f) = es_qh s.
  Proof. intros s f. unfold edge_interface. destruct (i_kind f); repeat split. Qed.
  Lemma ei_fold : forall l s, es_m (fold_left (edge_interface m c) l s) = es_m s /\ es_q (fold_left (edge_interface m c) l s) = es_q s /\
    es_qh (fold_left (edge_interface m c) l s) = es_qh s.
  Proof.
    intros l. induction l as [|x l IH]; intros s; [repeat split|]. cbn [fold_left]. destruct (IH (edge_interface m c s x)) as (A & B & C).
    destruct (ei_keep s x) as (A' & B' & C'). repeat split; congruence.
  Qed.
  Lemma ei_other : forall s f e b gp, (i_kind f = Internal -> ~ In (e, b) (isides f)) -> es_F (edge_interface m c s f) e b gp = es_F s e b gp.
  Proof.
    intros s f e b gp H. unfold edge_interface. destruct (i_kind f); [|reflexivity]. cbv zeta. cbn [es_F]. specialize (H eq_refl).
    cbn in H. rewrite !set_face_other by (intro E; apply H; rewrite E; tauto). reflexivity.
  Qed.
  Lemma ei_fold_other : forall l s e b gp, (forall f, In f l -> i_kind f = Internal -> ~ In (e, b) (isides f)) ->
    es_F (fold_left (edge_interface m c) l s) e b gp = es_F s e b gp.
  Proof.
    intros l. induction l as [|x l IH]; intros s e b gp H; [reflexivity|]. cbn [fold_left].
    rewrite IH by (intros f Hf; apply H; right; exact Hf). apply ei_other. apply H. left. reflexivity.
  Qed.
  Lemma ei_at : forall s f gp, i_kind f = Internal -> (i_in f, i_bin f) <> (i_ex f, i_bex f) ->
    ms_wet (es_m s) (i_in f) || ms_wet (es_m s) (i_ex f) = true -> (gp < ngp1 m)%nat ->
    let gx := (ngp1 m - gp - 1)%nat in
    let p := es_q s (i_in f) (i_bin f) gp in let q := es_q s (i_ex f) (i_bex f) gx in
    let n := normal m (i_in f) (i_bin f) in
    let B := ehdg_base (c_g c) p q (edge_bath m f gp) n in
    (es_F (edge_interface m c s f) (i_in f) (i_bin f) gp, es_F (edge_interface m c s f) (i_ex f) (i_bex f) gx) =
    ehdg_wd_point (c_g c) (ms_wet (es_m s) (i_in f)) (ms_wet (es_m s) (i_ex f)) p q (ehdg_qhat p q) (ehdg_ahat (ehdg_qhat p q) (edge_bath m f gp)) n (opp n) B (vneg B).
  Proof.
    intros s f gp Ki D W Hg gx p q n B. unfold edge_interface. rewrite Ki. cbv zeta. cbn [es_F].
    rewrite (set_face_other _ _ _ _ _ _ _ _ D), !set_face_same by (unfold gx; lia).
    pose proof (ehdg_internal_point (c_g c) (ms_wet (es_m s) (i_in f)) (ms_wet (es_m s) (i_ex f)) (ngp1 m) (es_q s (i_in f) (i_bin f)) (es_q s (i_ex f) (i_bex f))
      (edge_bath m f) (fun _ => n) (fun _ => opp n) (es_F s (i_in f) (i_bin f), es_F s (i_ex f) (i_bex f)) gp W Hg) as E. cbv zeta in E.
    exact E.
  Qed.
  Lemma ei_fold_at : forall l s f gp, NoDup (flat_map isides l) -> In f l -> i_kind f = Internal ->
    ms_wet (es_m s) (i_in f) || ms_wet (es_m s) (i_ex f) = true -> (gp < ngp1 m)%nat ->
    let s' := fold_left (edge_interface m c) l s in
    let gx := (ngp1 m - gp - 1)%nat in
    let p := es_q s (i_in f) (i_bin f) gp in let q := es_q s (i_ex f) (i_bex f) gx in
    let n := normal m (i_in f) (i_bin f) in
    let B := ehdg_base (c_g c) p q (edge_bath m f gp) n in
    (es_F s' (i_in f) (i_bin f) gp, es_F s' (i_ex f) (i_bex f) gx) =
    ehdg_wd_point (c_g c) (ms_wet (es_m s) (i_in f)) (ms_wet (es_m s) (i_ex f)) p q (ehdg_qhat p q) (ehdg_ahat (ehdg_qhat p q) (edge_bath m f gp)) n (opp n) B (vneg B).
  Proof.
    intros l. induction l as [|x l IH]; intros s f gp ND I Ki W Hg; [destruct I|]. cbn [flat_map] in ND.
    apply NoDup_app_parts in ND as (N1 & N2 & N3). cbv zeta. cbn [fold_left]. destruct (ei_keep s x) as (K1 & K2 & K3). destruct I as [->|I].
    - rewrite !ei_fold_other.
      + apply ei_at; try assumption. cbn in N1. apply NoDup_cons_iff in N1 as [N1 _]. intros E. apply N1. rewrite E. left. reflexivity.
      + intros g Hg' _ H. apply (N3 (i_ex f, i_bex f)); [cbn; tauto|]. apply in_flat_map. exists g. split; assumption.
      + intros g Hg' _ H. apply (N3 (i_in f, i_bin f)); [cbn; tauto|]. apply in_flat_map. exists g. split; assumption.
    - specialize (IH (edge_interface m c s x) f gp N2 I Ki). rewrite K1, K2 in IH. apply IH; assumption.
  Qed.

  (** ** Boundaries *)
  Context (solve : nat -> (nat -> nat -> R) -> (nat -> R) -> nat -> R) (t : R).
  Definition bnd_trace (s : estate) (i : nat) (b : bound) : coeffs :=
    match b_bc b with
    | Land => es_qh s i
    | Exterior ex => let q := es_q s (b_elt b) (b_id b) in bc_trace m c solve 100 b q (fun gp => ex t gp (normal m (b_elt b) (b_id b)) (q gp)) (es_qh s i)
    end.
  Definition bnd_flux (s : estate) (i : nat) (b : bound) (gp : nat) : vec3 R :=
    let n := normal m (b_elt b) (b_id b) in let q := es_q s (b_elt b) (b_id b) gp in
    match b_bc b with
    | Land => ehdg_land_flux (c_g c) n q (edge_bath_b m b gp)
    | Exterior _ => let qh := bnd_trace s i b in
        vadd (get_Fn (c_g c) (trace_at m qh gp) (trace_aux m b qh gp) n)
             (vscale (tau_LF (c_g c) (trace_at m qh gp) (trace_aux m b qh gp) n) (ModelSWE.vsub q (trace_at m qh gp)))
    end.
  Lemma eb_keep : forall s x, es_m (edge_boundary m c solve t s x) = es_m s /\ es_q (edge_boundary m c solve t s x) = es_q s.
  Proof. intros s [i b]. unfold edge_boundary. destruct (b_bc b); repeat split. Qed.
  Lemma eb_F : forall s i b e f gp, es_F (edge_boundary m c solve t s (i, b)) e f gp =
    if Nat.eqb e (b_elt b) && Nat.eqb f (b_id b) && Nat.ltb gp (ngp1 m) then bnd_flux s i b gp else es_F s e f gp.
  Proof. intros s i b e f gp. unfold edge_boundary, bnd_flux, bnd_trace. destruct (b_bc b); cbv zeta; cbn [es_F]; rewrite set_face_at; reflexivity. Qed.
  Lemma eb_qh : forall s i b j, es_qh (edge_boundary m c solve t s (i, b)) j = if Nat.eqb j i then bnd_trace s i b else es_qh s j.
  Proof.
    intros s i b j. unfold edge_boundary, bnd_trace. destruct (b_bc b); cbv zeta; cbn [es_qh]; [|reflexivity].
    destruct (Nat.eqb_spec j i) as [->|]; reflexivity.
  Qed.
  Lemma eb_fold_keep : forall l s, es_m (fold_left (edge_boundary m c solve t) l s) = es_m s /\ es_q (fold_left (edge_boundary m c solve t) l s) = es_q s.
  Proof.
    intros l. induction l as [|x l IH]; intros s; [repeat split|]. cbn [fold_left]. destruct (IH (edge_boundary m c solve t s x)) as (A & B).
    destruct (eb_keep s x) as (A' & B'). split; congruence.
  Qed.
  Lemma eb_fold_other : forall l s, 
    (forall e f gp, ~ In (e, f) (map (fun x => bside (snd x)) l) -> es_F (fold_left (edge_boundary m c solve t) l s) e f gp = es_F s e f gp) /\
    (forall j, ~ In j (map fst l) -> es_qh (fold_left (edge_boundary m c solve t) l s) j = es_qh s j).
  Proof.
    intros l. induction l as [|[i b] l IH]; intros s; [split; reflexivity|]. cbn [fold_left map fst snd].
    destruct (IH (edge_boundary m c solve t s (i, b))) as [I1 I2]. split.
    - intros e f gp H. rewrite I1 by (intro; apply H; right; assumption). rewrite eb_F.
      destruct (Nat.eqb_spec e (b_elt b)) as [->|]; cbn [andb]; [|reflexivity]. destruct (Nat.eqb_spec f (b_id b)) as [->|]; cbn [andb]; [|reflexivity].
      exfalso. apply H. left. reflexivity.
    - intros j H. rewrite I2 by (intro; apply H; right; assumption). rewrite eb_qh. destruct (Nat.eqb_spec j i) as [->|]; [|reflexivity].
      exfalso. apply H. left. reflexivity.
  Qed.
  Lemma bnd_same : forall s s' i b, es_q s = es_q s' -> es_qh s i = es_qh s' i -> bnd_trace s i b = bnd_trace s' i b /\ bnd_flux s i b = bnd_flux s' i b.
  Proof.
    intros s s' i b Q H. assert (E : bnd_trace s i b = bnd_trace s' i b) by (unfold bnd_trace; rewrite Q, H; reflexivity).
    split; [exact E|]. unfold bnd_flux. rewrite E, Q. reflexivity.
  Qed.
  Lemma eb_fold_at : forall l s i b, NoDup (map fst l) -> NoDup (map (fun x => bside (snd x)) l) -> In (i, b) l ->
    es_qh (fold_left (edge_boundary m c solve t) l s) i = bnd_trace s i b /\
    forall gp, (gp < ngp1 m)%nat -> es_F (fold_left (edge_boundary m c solve t) l s) (b_elt b) (b_id b) gp = bnd_flux s i b gp.
  Proof.
    intros l. induction l as [|[j x] l IH]; intros s i b N1 N2 I; [destruct I|]. cbn [map fst snd] in N1, N2.
    apply NoDup_cons_iff in N1 as [M1 N1]. apply NoDup_cons_iff in N2 as [M2 N2]. cbn [fold_left]. destruct I as [E|I].
    - injection E as -> ->. destruct (eb_fold_other l (edge_boundary m c solve t s (i, b))) as [O1 O2]. split.
      + rewrite (O2 i M1), eb_qh, Nat.eqb_refl. reflexivity.
      + intros gp Hg. rewrite (O1 _ _ gp M2), eb_F, !Nat.eqb_refl. apply Nat.ltb_lt in Hg. rewrite Hg. reflexivity.
    - destruct (IH (edge_boundary m c solve t s (j, x)) i b N1 N2 I) as [I1 I2].
      destruct (bnd_same (edge_boundary m c solve t s (j, x)) s i b) as [E1 E2].
      + apply eb_keep.
      + rewrite eb_qh. destruct (Nat.eqb_spec i j) as [->|]; [|reflexivity]. exfalso. apply M1. apply in_map_iff. exists (j, b). split; [reflexivity|exact I].
      + rewrite <- E1, <- E2. split; assumption.
  Qed.
  Lemma numbered_fst : map fst (numbered_bounds m) = seq 0 (length (m_bounds m)).
  Proof.
    unfold numbered_bounds. generalize 0%nat as a. induction (m_bounds m) as [|x l IH]; intros a; [reflexivity|]. cbn. rewrite IH. reflexivity.
  Qed.
  Lemma numbered_snd : map (fun x => bside (snd x)) (numbered_bounds m) = map bside (m_bounds m).
  Proof.
    unfold numbered_bounds. generalize 0%nat as a. induction (m_bounds m) as [|x l IH]; intros a; [reflexivity|]. cbn. rewrite IH. reflexivity.
  Qed.
  Lemma numbered_in : forall i b, nth_error (m_bounds m) i = Some b -> In (i, b) (numbered_bounds m).
  Proof.
    assert (G : forall (l : list bound) a i b, nth_error l i = Some b -> In ((a + i)%nat, b) (combine (seq a (length l)) l)).
    { intros l. induction l as [|x l IH]; intros a i b H; [destruct i; discriminate|]. destruct i as [|i]; cbn in H |- *.
      - injection H as ->. left. f_equal. lia.
      - right. replace (a + S i)%nat with (S a + i)%nat by lia. apply IH. exact H. }
    intros i b H. exact (G (m_bounds m) 0%nat i b H).
  Qed.

  (** ** All together *)
  Lemma global_keep : forall s, es_m (global_step m c solve t k s) = es_m s.
  Proof.
    intros s. unfold global_step. change (fold_left (global_boundary m k) (m_bounds m) (fold_left (global_interface m k) (m_intfaces m) s)) with (loaded s).
    cbv zeta. change (fold_left (global_boundary m k) (m_bounds m) (fold_left (global_interface m k) (m_intfaces m) s)) with (loaded s).
    destruct (eb_fold_keep (numbered_bounds m) (fold_left (edge_interface m c) (m_intfaces m) (loaded s))) as [-> _].
    destruct (ei_fold (m_intfaces m) (loaded s)) as [-> _]. apply loaded_spec.
  Qed.
  Lemma global_bound : forall s i b, NoDup (all_sides m) -> nth_error (m_bounds m) i = Some b ->
    es_qh (global_step m c solve t k s) i = bnd_trace (loaded s) i b /\
    forall gp, (gp < ngp1 m)%nat -> es_F (global_step m c solve t k s) (b_elt b) (b_id b) gp = bnd_flux (loaded s) i b gp.
  Proof.
    intros s i b ND H. destruct (sides_parts m ND) as (N1 & N2 & N3).
    change (global_step m c solve t k s) with (fold_left (edge_boundary m c solve t) (numbered_bounds m) (fold_left (edge_interface m c) (m_intfaces m) (loaded s))).
    set (s3 := fold_left (edge_interface m c) (m_intfaces m) (loaded s)).
    destruct (eb_fold_at (numbered_bounds m) s3 i b) as [E1 E2].
    - rewrite numbered_fst. apply seq_NoDup.
    - rewrite numbered_snd. exact N2.
    - apply numbered_in, H.
    - destruct (ei_fold (m_intfaces m) (loaded s)) as (_ & Q & T). fold s3 in Q, T.
      destruct (bnd_same s3 (loaded s) i b Q (f_equal (fun h => h i) T)) as [B1 B2]. split; [rewrite E1; exact B1|].
      intros gp Hg. rewrite (E2 gp Hg), B2. reflexivity.
  Qed.
  Lemma global_intF : forall s e b gp, NoDup (all_sides m) -> In (e, b) (flat_map isides (m_intfaces m)) ->
    es_F (global_step m c solve t k s) e b gp = es_F (fold_left (edge_interface m c) (m_intfaces m) (loaded s)) e b gp.
  Proof.
    intros s e b gp ND I. destruct (sides_parts m ND) as (N1 & N2 & N3).
    change (global_step m c solve t k s) with (fold_left (edge_boundary m c solve t) (numbered_bounds m) (fold_left (edge_interface m c) (m_intfaces m) (loaded s))).
    apply eb_fold_other. rewrite numbered_snd. apply N3, I.
  Qed.
End Buffers.

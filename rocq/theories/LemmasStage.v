(** The right-hand side loops as sums of contributions: what one element ends up
    with, whatever the order of the faces. *)
From Coq Require Import Reals QArith List Bool Arith Lia Lra Permutation.
From Verif Require Import Num ModelSWE Outcome ModelShape ModelBasis ModelJac ModelStepper ModelStep SpecSWE SpecShape SpecStepper SpecStep LemmasSWE LemmasRK LemmasStep.
Import ListNotations.
Open Scope R_scope.

Lemma lsum_app : forall (A : Type) (l l' : list A) f, lsum (l ++ l') f = lsum l f + lsum l' f.
Proof. intros A l l' f. unfold lsum. induction l as [|x l IH]; cbn; [ring|]. rewrite IH. ring. Qed.
Lemma lsum_cons : forall (A : Type) (x : A) l f, lsum (x :: l) f = f x + lsum l f.
Proof. reflexivity. Qed.
Lemma lsum_perm : forall (A : Type) (l l' : list A) f, Permutation l l' -> lsum l f = lsum l' f.
Proof.
  intros A l l' f P. induction P as [|x l l' P IH|x y l|l l' l'' P IH P' IH']; rewrite ?lsum_cons; [reflexivity|rewrite IH; ring|ring|congruence].
Qed.
Lemma lsum_plus : forall (A : Type) (l : list A) f g, lsum l (fun x => f x + g x) = lsum l f + lsum l g.
Proof. intros A l f g. induction l as [|x l IH]; [cbn; ring|]. rewrite !lsum_cons, IH. ring. Qed.
Lemma lsum_opp : forall (A : Type) (l : list A) f, lsum l (fun x => - f x) = - lsum l f.
Proof. intros A l f. induction l as [|x l IH]; [cbn; ring|]. rewrite !lsum_cons, IH. ring. Qed.
Lemma lsum_map : forall (A B : Type) (h : A -> B) (l : list A) f, lsum (map h l) f = lsum l (fun x => f (h x)).
Proof. intros A B h l f. unfold lsum. rewrite map_map. reflexivity. Qed.
Lemma lsum_flat_map : forall (A B : Type) (h : A -> list B) (l : list A) f, lsum (flat_map h l) f = lsum l (fun x => lsum (h x) f).
Proof. intros A B h l f. induction l as [|x l IH]; [reflexivity|]. cbn [flat_map]. rewrite lsum_app, lsum_cons, IH. reflexivity. Qed.

(** A kernel that adds [con x e] to the right-hand side of element [e] in slot [k]. *)
Definition adds {X : Type} (k : nat) (st0 : mstate) (f : mstate -> X -> mstate) (con : X -> nat -> coeffs) : Prop :=
  forall st x, same_state st st0 -> same_state (f st x) st /\
    forall e s v d, ms_rhs (f st x) e s v d = ms_rhs st e s v d + (if Nat.eqb s k then con x e v d else 0).
Lemma adds_fold : forall (X : Type) k st0 (f : mstate -> X -> mstate) con, adds k st0 f con ->
  forall l st, same_state st st0 -> same_state (fold_left f l st) st0 /\
  forall e s v d, ms_rhs (fold_left f l st) e s v d = ms_rhs st e s v d + (if Nat.eqb s k then lsum l (fun x => con x e v d) else 0).
Proof.
  intros X k st0 f con H l. induction l as [|x l IH]; intros st S0.
  - split; [exact S0|]. intros e s v d. cbn. destruct (Nat.eqb s k); ring.
  - cbn [fold_left]. destruct (H st x S0) as [S1 E1]. destruct (IH (f st x) (same_trans _ _ _ S1 S0)) as [S2 E2].
    split; [exact S2|]. intros e s v d. rewrite E2, E1, lsum_cons. destruct (Nat.eqb s k); ring.
Qed.

Lemma set_rhs_at : forall st e k M e' s v d, ms_rhs (set_rhs st e k M) e' s v d =
  if Nat.eqb e' e then if Nat.eqb s k then M v d else ms_rhs st e' s v d else ms_rhs st e' s v d.
Proof.
  intros. unfold set_rhs. cbn [ms_rhs]. unfold upd. destruct (Nat.eqb_spec e' e) as [->|]; [|reflexivity]. destruct (Nat.eqb s k); reflexivity.
Qed.

Section Contributions.
  Context (m : mesh) (c : config) (t : R) (k : nat) (st0 : mstate).

  Definition src_con (x e : nat) : coeffs := fun v d =>
    if Nat.eqb e x then if ms_wet st0 x then integration_phi m x (source_at m c t k st0 x) v d else 0 else 0.
  Definition int_con (f : intface) (e : nat) : coeffs := fun v d =>
    if ms_wet st0 (i_in f) || ms_wet st0 (i_ex f) then
      (if Nat.eqb e (i_in f) then - integration_face m (i_in f) (i_bin f) (i_bin f) (fst (interface_flux m c k st0 f)) v d else 0) +
      (if Nat.eqb e (i_ex f) then - integration_face m (i_in f) (i_bin f) (i_bex f) (snd (interface_flux m c k st0 f)) v d else 0)
    else 0.
  Definition bnd_con (b : bound) (e : nat) : coeffs := fun v d =>
    if Nat.eqb e (b_elt b) then if ms_wet st0 (b_elt b) then
      - integration_face m (b_elt b) (b_id b) (b_id b) (boundary_flux m c t k st0 b) v d else 0 else 0.
  Definition vol_at (e : nat) : coeffs := fun v d =>
    if ms_wet st0 e then
      let F gp := get_F (c_g c) (q_gp m st0 k e gp) (aux_gp m st0 k e gp) in
      integration_dphi m e fst (fun gp => vscale (sp (m_aux m e gp)) (fst (F gp))) v d + integration_dphi m e snd (fun gp => snd (F gp)) v d
    else 0.

  Lemma source_at_same : forall st e, same_state st st0 -> source_at m c t k st e = source_at m c t k st0 e.
  Proof. intros st e (Q & _). unfold source_at, q_gp, aux_gp, q_gp. rewrite Q. reflexivity. Qed.
  Lemma source_adds : adds k st0 (source_kernel m c t k) src_con.
  Proof.
    intros st x S0. split; [apply source_same|]. intros e s v d. unfold source_kernel, src_con.
    pose proof S0 as (_ & _ & W & _). rewrite W.
    destruct (ms_wet st0 x).
    - rewrite set_rhs_at, (source_at_same st x S0). destruct (Nat.eqb_spec e x) as [->|]; destruct (Nat.eqb_spec s k) as [->|]; unfold cadd; ring.
    - destruct (Nat.eqb s k), (Nat.eqb e x); ring.
  Qed.
  Lemma interface_adds : adds k st0 (interface_kernel m c k) int_con.
  Proof.
    intros st f S0. split; [apply interface_same|]. intros e s v d. unfold interface_kernel, int_con.
    pose proof S0 as (_ & _ & W & _). rewrite W. rewrite (interface_flux_same m c k st st0 f S0).
    destruct (ms_wet st0 (i_in f) || ms_wet st0 (i_ex f)).
    - cbv zeta. rewrite set_rhs_at. unfold csub. rewrite !set_rhs_at, Nat.eqb_refl.
      destruct (Nat.eqb_spec e (i_ex f)) as [E1|N1]; destruct (Nat.eqb_spec e (i_in f)) as [E2|N2]; destruct (Nat.eqb_spec s k) as [->|]; try ring.
      + rewrite <- E1. rewrite <- E2. rewrite Nat.eqb_refl. ring.
      + rewrite <- E1. destruct (Nat.eqb_spec e (i_in f)); [contradiction|]. ring.
      + subst e. ring.
    - destruct (Nat.eqb s k); ring.
  Qed.
  Lemma boundary_adds : adds k st0 (boundary_kernel m c t k) bnd_con.
  Proof.
    intros st b S0. split; [apply boundary_same|]. intros e s v d. unfold boundary_kernel, bnd_con.
    pose proof S0 as (_ & _ & W & _). rewrite W. rewrite (boundary_flux_same m c t k st st0 b S0).
    destruct (ms_wet st0 (b_elt b)).
    - rewrite set_rhs_at. unfold csub. destruct (Nat.eqb_spec e (b_elt b)) as [->|]; destruct (Nat.eqb_spec s k) as [->|]; ring.
    - destruct (Nat.eqb s k), (Nat.eqb e (b_elt b)); ring.
  Qed.

  Lemma volume_at : forall st x, same_state st st0 -> same_state (volume_kernel m c k st x) st /\
    forall e s v d, ms_rhs (volume_kernel m c k st x) e s v d = if Nat.eqb e x && Nat.eqb s k then vol_at e v d else ms_rhs st e s v d.
  Proof.
    intros st x S0. split; [apply volume_same|]. intros e s v d. unfold volume_kernel, vol_at.
    pose proof S0 as (Q & _ & W & _). rewrite W. unfold q_gp, aux_gp, q_gp. rewrite Q.
    destruct (ms_wet st0 x) eqn:Wx; rewrite set_rhs_at; destruct (Nat.eqb_spec e x) as [->|]; cbn [andb]; rewrite ?Wx; destruct (Nat.eqb s k); reflexivity.
  Qed.
  Lemma volume_fold : forall l st, same_state st st0 -> same_state (fold_left (volume_kernel m c k) l st) st0 /\
    (forall e s v d, In e l -> s = k -> ms_rhs (fold_left (volume_kernel m c k) l st) e s v d = vol_at e v d) /\
    (forall e s v d, ~ In e l \/ s <> k -> ms_rhs (fold_left (volume_kernel m c k) l st) e s v d = ms_rhs st e s v d).
  Proof.
    intros l. induction l as [|x l IH]; intros st S0.
    - split; [exact S0|]. split; [intros e s v d []|]. reflexivity.
    - cbn [fold_left]. destruct (volume_at st x S0) as [S1 E1]. destruct (IH _ (same_trans _ _ _ S1 S0)) as (S2 & A2 & B2).
      split; [exact S2|]. split.
      + intros e s v d He ->. destruct (in_dec Nat.eq_dec e l) as [I|I]; [apply A2; [exact I|reflexivity]|].
        destruct He as [<-|He]; [|contradiction]. rewrite B2 by (left; exact I). rewrite E1, !Nat.eqb_refl. reflexivity.
      + intros e s v d He. rewrite B2 by (destruct He as [He|He]; [left; intro; apply He; right; assumption|right; exact He]).
        rewrite E1. destruct (Nat.eqb_spec e x) as [->|]; [|reflexivity]. destruct (Nat.eqb_spec s k) as [->|]; [|reflexivity].
        destruct He as [He|He]; [exfalso; apply He; left; reflexivity|contradiction].
  Qed.

  (** The four loops over given lists. *)
  Definition rhs_lists (elts : list nat) (ifs : list intface) (bs : list bound) (st : mstate) : mstate :=
    fold_left (boundary_kernel m c t k) bs (fold_left (interface_kernel m c k) ifs
      (fold_left (source_kernel m c t k) elts (fold_left (volume_kernel m c k) elts st))).
  Lemma src_sum : forall e v d elts, NoDup elts -> In e elts ->
    lsum elts (fun x => src_con x e v d) = if ms_wet st0 e then integration_phi m e (source_at m c t k st0 e) v d else 0.
  Proof.
    intros e v d elts. induction elts as [|x l IH]; intros ND I; [destruct I|]. rewrite lsum_cons. apply NoDup_cons_iff in ND as [N1 N2].
    destruct I as [->|I].
    - rewrite (lsum_ext _ l _ (fun _ => 0)).
      + rewrite lsum_zero. unfold src_con. rewrite Nat.eqb_refl. ring.
      + intros y Hy. unfold src_con. destruct (Nat.eqb_spec e y) as [->|]; [contradiction|reflexivity].
    - rewrite (IH N2 I). unfold src_con at 1. destruct (Nat.eqb_spec e x) as [->|]; [contradiction|ring].
  Qed.
  Lemma rhs_lists_at : forall elts ifs bs, NoDup elts -> same_state (rhs_lists elts ifs bs st0) st0 /\
    (forall e v d, In e elts -> ms_rhs (rhs_lists elts ifs bs st0) e k v d =
       vol_at e v d + (if ms_wet st0 e then integration_phi m e (source_at m c t k st0 e) v d else 0) +
       lsum ifs (fun f => int_con f e v d) + lsum bs (fun b => bnd_con b e v d)) /\
    (forall e s v d, s <> k -> ms_rhs (rhs_lists elts ifs bs st0) e s v d = ms_rhs st0 e s v d).
  Proof.
    intros elts ifs bs ND. unfold rhs_lists.
    destruct (volume_fold elts st0 (same_refl st0)) as (S1 & A1 & B1).
    destruct (adds_fold _ _ _ _ _ source_adds elts _ S1) as (S2 & E2).
    destruct (adds_fold _ _ _ _ _ interface_adds ifs _ S2) as (S3 & E3).
    destruct (adds_fold _ _ _ _ _ boundary_adds bs _ S3) as (S4 & E4).
    split; [exact S4|]. split.
    - intros e v d I. rewrite E4, E3, E2, Nat.eqb_refl, (A1 e k v d I eq_refl), (src_sum e v d elts ND I). ring.
    - intros e s v d H. rewrite E4, E3, E2. rewrite (B1 e s v d) by (right; exact H). destruct (Nat.eqb_spec s k); [contradiction|]. ring.
  Qed.
End Contributions.

Lemma rhs_kernels_lists : forall m c t k st, rhs_kernels m c t k st = rhs_lists m c t k (seq 0 (m_n m)) (m_intfaces m) (m_bounds m) st.
Proof. reflexivity. Qed.

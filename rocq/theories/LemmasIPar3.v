(** Distributed implicit HDG: entries of the system assembled by one unit. *)
From Coq Require Import Reals ZArith List Bool Arith Lia Lra Permutation.
From Verif Require Import Num ModelSWE Outcome ModelShape ModelBasis ModelJac ModelStep ModelIHDG
  SpecSWE SpecStepper SpecStep SpecIHDG SpecIHDG2
  LemmasSWE LemmasRK LemmasBasis2 LemmasStep LemmasStage LemmasPar2 LemmasIHDG3 LemmasIHDG4 LemmasIHDG6 LemmasIHDG9 LemmasIHDG13 LemmasIPar LemmasIPar2
  ModelIPar SpecIPar.
Import ListNotations.
Open Scope R_scope.

Section FoldsL.
  Context {St X : Type} (get : St -> R).
  Lemma fold_keepL : forall (step : St -> X -> St) l s, (forall s x, In x l -> get (step s x) = get s) -> get (fold_left step l s) = get s.
  Proof.
    intros step l. induction l as [|x l IH]; intros s H; [reflexivity|]. cbn [fold_left].
    rewrite IH by (intros s' y Hy; apply H; right; exact Hy). apply H. left. reflexivity.
  Qed.
  Lemma fold_setL : forall (step : St -> X -> St) c x l s, NoDup l -> In x l -> (forall s, get (step s x) = c) ->
    (forall s y, In y l -> y <> x -> get (step s y) = get s) -> get (fold_left step l s) = c.
  Proof.
    intros step c x l s ND Hx Hc Ho. apply in_split in Hx as (l1 & l2 & ->). rewrite fold_left_app. cbn [fold_left].
    rewrite fold_keepL; [apply Hc|]. intros s' y Hy. apply Ho; [apply in_or_app; right; right; exact Hy|]. intros ->.
    apply NoDup_remove_2 in ND. apply ND. apply in_or_app. right. exact Hy.
  Qed.
  Lemma fold_accL : forall (step : St -> X -> St) (f : X -> R) l s, (forall s x, In x l -> get (step s x) = get s + f x) ->
    get (fold_left step l s) = get s + lsum l f.
  Proof.
    intros step f l. induction l as [|x l IH]; intros s H; [cbn; ring|]. cbn [fold_left].
    rewrite IH by (intros s' y Hy; apply H; right; exact Hy). rewrite H by (left; reflexivity). rewrite lsum_cons. ring.
  Qed.
End FoldsL.

Definition half_face (d : dedge) : nat * nat := (de_elt d, de_face d).
Definition faces (m : mesh) (un : iunit) : list (nat * nat) := flat_map (sides m) (un_ints un ++ un_bnds un) ++ map half_face (un_dist un).

Section Unit.
  Context (m : mesh) (eaux : nat -> nat -> aux3 R) (g dt theta t : R) (qp rp : nat -> coeffs) (s0 : newton) (un : iunit).
  Notation vol := (local_volume m g dt theta).
  Notation src := (local_source m g theta t).
  Notation sys := (fun q qh => unit_system m eaux g dt theta un t qp rp q qh s0).
  Notation ni := (length (m_intfaces m)).
  Notation nb := (length (m_bounds m)).
  Context (Ne : NoDup (un_elts un)) (Ni : NoDup (un_ints un)) (Nb : NoDup (un_bnds un)) (Nd : NoDup (map de_edge (un_dist un))) (Nf : NoDup (faces m un)).
  Context (Ri : forall ed, In ed (un_ints un) -> (ed < ni)%nat) (Rb : forall ed, In ed (un_bnds un) -> (ni <= ed)%nat)
    (Rd : forall d, In d (un_dist un) -> (de_edge d < ni)%nat /\ ~ In (de_edge d) (un_ints un)) (Ti : forall ed, In ed (un_ints un) -> i_in (the_int m ed) <> i_ex (the_int m ed)).

  Ltac kern := cbv beta iota zeta delta [local_volume local_source local_edge_interface local_edge_boundary local_edge_distributed global_edge_interface global_edge_boundary global_edge_distributed
     nw_delta nw_rhs nw_hat nw_glob nw_hglob nw_grhs].

  Definition dist_rhs (q qh : nat -> coeffs) (d : dedge) (e a i : nat) : R :=
    on e (de_elt d) (- (1 - theta) * integration_face m (de_elt d) (de_face d) (de_face d) (fun gp => F_dist m eaux g qh d gp (q_dist m q d gp)) a i).
  Definition dist_delta (qh : nat -> coeffs) (d : dedge) (e i a j c : nat) : R :=
    on e (de_elt d) ((1 - theta) * face_phi_phi m (de_elt d) (de_face d) (de_face d) j i (tau_mat_dist m eaux g qh d) a c).

  Lemma unit_rhs_entry : forall q qh e a i, In e (un_elts un) -> nw_rhs (sys q qh) e a i =
    elt_rhs m g dt theta t qp rp q e a i + lsum (un_ints un) (fun ed => int_rhs m eaux g theta q qh ed e a i) +
    lsum (un_bnds un) (fun ed => bnd_rhs m eaux g theta q qh ed e a i) + lsum (un_dist un) (fun d => dist_rhs q qh d e a i).
  Proof.
    intros q qh e a i He. unfold unit_system. cbv zeta.
    do 3 rewrite (fold_keepL (fun s => nw_rhs s e a i)) by (intros s x _; reflexivity).
    rewrite (fold_accL (fun s => nw_rhs s e a i) _ (fun d => dist_rhs q qh d e a i)) by (intros s x _; kern; exact (acc1 _ _ _ _ _ _)).
    rewrite (fold_accL (fun s => nw_rhs s e a i) _ (fun ed => bnd_rhs m eaux g theta q qh ed e a i)) by (intros s x _; apply bnd_rhs_acc).
    rewrite (fold_accL (fun s => nw_rhs s e a i) _ (fun ed => int_rhs m eaux g theta q qh ed e a i)) by (intros s x _; apply int_rhs_acc).
    f_equal. f_equal. f_equal. apply (fold_setL (fun s => nw_rhs s e a i) _ _ e); [exact Ne|exact He| |].
    - intros s. apply elt_rhs_self.
    - intros s x _ N. apply elt_rhs_other. exact N.
  Qed.
  Lemma unit_delta_entry : forall q qh e i a j c, In e (un_elts un) -> nw_delta (sys q qh) e i a j c =
    elt_delta m g dt theta t qp rp q e i a j c + lsum (un_ints un) (fun ed => int_delta m eaux g theta qh ed e i a j c) +
    lsum (un_bnds un) (fun ed => bnd_delta m eaux g theta qh ed e i a j c) + lsum (un_dist un) (fun d => dist_delta qh d e i a j c).
  Proof.
    intros q qh e i a j c He. unfold unit_system. cbv zeta.
    do 3 rewrite (fold_keepL (fun s => nw_delta s e i a j c)) by (intros s x _; reflexivity).
    rewrite (fold_accL (fun s => nw_delta s e i a j c) _ (fun d => dist_delta qh d e i a j c)) by (intros s x _; kern; exact (bacc1 _ _ _ _ _ _ _ _)).
    rewrite (fold_accL (fun s => nw_delta s e i a j c) _ (fun ed => bnd_delta m eaux g theta qh ed e i a j c)) by (intros s x _; apply bnd_delta_acc).
    rewrite (fold_accL (fun s => nw_delta s e i a j c) _ (fun ed => int_delta m eaux g theta qh ed e i a j c)) by (intros s x _; apply int_delta_acc).
    f_equal. f_equal. f_equal. apply (fold_setL (fun s => nw_delta s e i a j c) _ _ e); [exact Ne|exact He| |].
    - intros s. apply elt_delta_self.
    - intros s x _ N. apply elt_delta_other. exact N.
  Qed.

  (** No face is written twice. *)
  Lemma edge_face_once : forall ed ed' s, In ed (un_ints un ++ un_bnds un) -> In ed' (un_ints un ++ un_bnds un) -> In s (sides m ed) -> In s (sides m ed') -> ed = ed'.
  Proof. intros ed ed' s H H' I I'. apply nodup_app in Nf as (N & _ & _). exact (flat_once _ _ _ _ _ _ _ N H H' I I'). Qed.
  Lemma half_not_edge : forall ed d, In ed (un_ints un ++ un_bnds un) -> In d (un_dist un) -> ~ In (half_face d) (sides m ed).
  Proof.
    intros ed d H Hd I. apply nodup_app in Nf as (_ & _ & N). apply (N (half_face d)); [apply in_flat_map; exists ed; split; assumption|apply in_map; exact Hd].
  Qed.
  Lemma half_once : forall d d', In d (un_dist un) -> In d' (un_dist un) -> half_face d = half_face d' -> d = d'.
  Proof.
    assert (K : forall l, NoDup (map half_face l) -> forall d d', In d l -> In d' l -> half_face d = half_face d' -> d = d').
    { induction l as [|x l IH]; intros N d d' H H' E; [destruct H|]. cbn in N. inversion N as [|? ? N1 N2]; subst.
      destruct H as [<-|H], H' as [<-|H']; [reflexivity| | |exact (IH N2 d d' H H' E)].
      - exfalso. apply N1. rewrite E. apply in_map. exact H'.
      - exfalso. apply N1. rewrite <- E. apply in_map. exact H. }
    apply nodup_app in Nf as (_ & N & _). exact (K _ N).
  Qed.
  Lemma dist_once : NoDup (un_dist un).
  Proof. exact (NoDup_map_inv _ _ Nd). Qed.
  Lemma int_side_in : forall x, In x (un_ints un) -> In (i_in (the_int m x), i_bin (the_int m x)) (sides m x).
  Proof. intros x H. rewrite side_int by (apply Ri; exact H). left. reflexivity. Qed.
  Lemma int_side_ex : forall x, In x (un_ints un) -> In (i_ex (the_int m x), i_bex (the_int m x)) (sides m x).
  Proof. intros x H. rewrite side_int by (apply Ri; exact H). right. left. reflexivity. Qed.
  Lemma bnd_side : forall x, In x (un_bnds un) -> In (b_elt (the_bnd m x), b_id (the_bnd m x)) (sides m x).
  Proof. intros x H. rewrite side_bnd by (apply Rb; exact H). left. reflexivity. Qed.
  Lemma inl : forall x, In x (un_ints un) -> In x (un_ints un ++ un_bnds un).
  Proof. intros x H. apply in_or_app. left. exact H. Qed.
  Lemma inr_ : forall x, In x (un_bnds un) -> In x (un_ints un ++ un_bnds un).
  Proof. intros x H. apply in_or_app. right. exact H. Qed.

  (** Kernels of another edge leave the blocks of a face. *)
  Section Face.
    Context (e f i a j c : nat).
    Lemma keep_int : forall x, In x (un_ints un) -> ~ In (e, f) (sides m x) -> forall q qh s,
      nw_hat (local_edge_interface m eaux g theta q qh s x) e f i a j c = nw_hat s e f i a j c /\
      nw_glob (global_edge_interface m eaux g q qh s x) e f i a j c = nw_glob s e f i a j c.
    Proof.
      intros x H N q qh s.
      assert (N1 : (e, f) <> (i_in (the_int m x), i_bin (the_int m x))) by (intros E; apply N; rewrite E; apply int_side_in; exact H).
      assert (N2 : (e, f) <> (i_ex (the_int m x), i_bex (the_int m x))) by (intros E; apply N; rewrite E; apply int_side_ex; exact H).
      kern. rewrite !(upd2_other _ _ _ _ _ _ _ N2), !(upd2_other _ _ _ _ _ _ _ N1). split; reflexivity.
    Qed.
    Lemma keep_bnd : forall x, In x (un_bnds un) -> ~ In (e, f) (sides m x) -> forall q qh s,
      nw_hat (local_edge_boundary m eaux g theta q qh s x) e f i a j c = nw_hat s e f i a j c /\
      nw_glob (global_edge_boundary m eaux g t q qh s x) e f i a j c = nw_glob s e f i a j c.
    Proof.
      intros x H N q qh s.
      assert (N1 : (e, f) <> (b_elt (the_bnd m x), b_id (the_bnd m x))) by (intros E; apply N; rewrite E; apply bnd_side; exact H).
      kern. rewrite !(upd2_other _ _ _ _ _ _ _ N1). split; reflexivity.
    Qed.
    Lemma keep_dist : forall d, (e, f) <> half_face d -> forall q qh s,
      nw_hat (local_edge_distributed m eaux g theta q qh s d) e f i a j c = nw_hat s e f i a j c /\
      nw_glob (global_edge_distributed m eaux g q qh s d) e f i a j c = nw_glob s e f i a j c.
    Proof. intros d N q qh s. kern. unfold half_face in N. rewrite !(upd2_other _ _ _ _ _ _ _ N). split; reflexivity. Qed.
    (** What the phases before and after the writing one do. *)
    Lemma sys_hat_int : forall ed v, In ed (un_ints un) -> In (e, f) (sides m ed) -> forall q qh,
      (forall s, nw_hat (local_edge_interface m eaux g theta q qh s ed) e f i a j c = v) -> nw_hat (sys q qh) e f i a j c = v.
    Proof.
      intros ed v H I q qh V. unfold unit_system. cbv zeta.
      do 3 rewrite (fold_keepL (fun s => nw_hat s e f i a j c)) by (intros s x _; reflexivity).
      rewrite (fold_keepL (fun s => nw_hat s e f i a j c)).
      2:{ intros s x Hx. apply keep_dist. intros E. apply (half_not_edge ed x (inl _ H) Hx). rewrite <- E. exact I. }
      rewrite (fold_keepL (fun s => nw_hat s e f i a j c)).
      2:{ intros s x Hx. apply keep_bnd; [exact Hx|]. intros E. pose proof (edge_face_once ed x (e, f) (inl _ H) (inr_ _ Hx) I E).
          pose proof (Ri ed H). pose proof (Rb x Hx). lia. }
      apply (fold_setL (fun s => nw_hat s e f i a j c) _ _ ed); [exact Ni|exact H|exact V|].
      intros s x Hx N. apply keep_int; [exact Hx|]. intros E. apply N. symmetry. exact (edge_face_once ed x (e, f) (inl _ H) (inl _ Hx) I E).
    Qed.
    Lemma sys_hat_bnd : forall ed v, In ed (un_bnds un) -> In (e, f) (sides m ed) -> forall q qh,
      (forall s, nw_hat (local_edge_boundary m eaux g theta q qh s ed) e f i a j c = v) -> nw_hat (sys q qh) e f i a j c = v.
    Proof.
      intros ed v H I q qh V. unfold unit_system. cbv zeta.
      do 3 rewrite (fold_keepL (fun s => nw_hat s e f i a j c)) by (intros s x _; reflexivity).
      rewrite (fold_keepL (fun s => nw_hat s e f i a j c)).
      2:{ intros s x Hx. apply keep_dist. intros E. apply (half_not_edge ed x (inr_ _ H) Hx). rewrite <- E. exact I. }
      apply (fold_setL (fun s => nw_hat s e f i a j c) _ _ ed); [exact Nb|exact H|exact V|].
      intros s x Hx N. apply keep_bnd; [exact Hx|]. intros E. apply N. symmetry. exact (edge_face_once ed x (e, f) (inr_ _ H) (inr_ _ Hx) I E).
    Qed.
    Lemma sys_hat_dist : forall d v, In d (un_dist un) -> (e, f) = half_face d -> forall q qh,
      (forall s, nw_hat (local_edge_distributed m eaux g theta q qh s d) e f i a j c = v) -> nw_hat (sys q qh) e f i a j c = v.
    Proof.
      intros d v H I q qh V. unfold unit_system. cbv zeta.
      do 3 rewrite (fold_keepL (fun s => nw_hat s e f i a j c)) by (intros s x _; reflexivity).
      apply (fold_setL (fun s => nw_hat s e f i a j c) _ _ d); [exact dist_once|exact H|exact V|].
      intros s x Hx N. apply keep_dist. intros E. apply N. apply half_once; [exact Hx|exact H|congruence].
    Qed.
    Lemma sys_glob_int : forall ed v, In ed (un_ints un) -> In (e, f) (sides m ed) -> forall q qh,
      (forall s, nw_glob (global_edge_interface m eaux g q qh s ed) e f i a j c = v) -> nw_glob (sys q qh) e f i a j c = v.
    Proof.
      intros ed v H I q qh V. unfold unit_system. cbv zeta.
      rewrite (fold_keepL (fun s => nw_glob s e f i a j c)).
      2:{ intros s x Hx. apply keep_dist. intros E. apply (half_not_edge ed x (inl _ H) Hx). rewrite <- E. exact I. }
      rewrite (fold_keepL (fun s => nw_glob s e f i a j c)).
      2:{ intros s x Hx. apply keep_bnd; [exact Hx|]. intros E. pose proof (edge_face_once ed x (e, f) (inl _ H) (inr_ _ Hx) I E).
          pose proof (Ri ed H). pose proof (Rb x Hx). lia. }
      apply (fold_setL (fun s => nw_glob s e f i a j c) _ _ ed); [exact Ni|exact H|exact V|].
      intros s x Hx N. apply keep_int; [exact Hx|]. intros E. apply N. symmetry. exact (edge_face_once ed x (e, f) (inl _ H) (inl _ Hx) I E).
    Qed.
    Lemma sys_glob_bnd : forall ed v, In ed (un_bnds un) -> In (e, f) (sides m ed) -> forall q qh,
      (forall s, nw_glob (global_edge_boundary m eaux g t q qh s ed) e f i a j c = v) -> nw_glob (sys q qh) e f i a j c = v.
    Proof.
      intros ed v H I q qh V. unfold unit_system. cbv zeta.
      rewrite (fold_keepL (fun s => nw_glob s e f i a j c)).
      2:{ intros s x Hx. apply keep_dist. intros E. apply (half_not_edge ed x (inr_ _ H) Hx). rewrite <- E. exact I. }
      apply (fold_setL (fun s => nw_glob s e f i a j c) _ _ ed); [exact Nb|exact H|exact V|].
      intros s x Hx N. apply keep_bnd; [exact Hx|]. intros E. apply N. symmetry. exact (edge_face_once ed x (e, f) (inr_ _ H) (inr_ _ Hx) I E).
    Qed.
    Lemma sys_glob_dist : forall d v, In d (un_dist un) -> (e, f) = half_face d -> forall q qh,
      (forall s, nw_glob (global_edge_distributed m eaux g q qh s d) e f i a j c = v) -> nw_glob (sys q qh) e f i a j c = v.
    Proof.
      intros d v H I q qh V. unfold unit_system. cbv zeta.
      apply (fold_setL (fun s => nw_glob s e f i a j c) _ _ d); [exact dist_once|exact H|exact V|].
      intros s x Hx N. apply keep_dist. intros E. apply N. apply half_once; [exact Hx|exact H|congruence].
    Qed.
  End Face.

  Lemma unit_hat_in : forall q qh ed i a j b, In ed (un_ints un) ->
    nw_hat (sys q qh) (i_in (the_int m ed)) (i_bin (the_int m ed)) i a j b = in_hat m eaux g theta q qh ed i a j b.
  Proof.
    intros q qh ed i a j b H. apply (sys_hat_int _ _ i a j b ed); [exact H|apply int_side_in; exact H|].
    intros s. kern. rewrite upd4_in by (exact (Ti ed H)). reflexivity.
  Qed.
  Lemma unit_hat_ex : forall q qh ed i a j b, In ed (un_ints un) ->
    nw_hat (sys q qh) (i_ex (the_int m ed)) (i_bex (the_int m ed)) i a j b = ex_hat m eaux g theta q qh ed i a j b.
  Proof.
    intros q qh ed i a j b H. apply (sys_hat_int _ _ i a j b ed); [exact H|apply int_side_ex; exact H|].
    intros s. kern. rewrite upd2_same. reflexivity.
  Qed.
  Lemma unit_hat_bnd : forall q qh ed i a j b, In ed (un_bnds un) ->
    nw_hat (sys q qh) (b_elt (the_bnd m ed)) (b_id (the_bnd m ed)) i a j b = bd_hat m eaux g theta q qh ed i a j b.
  Proof.
    intros q qh ed i a j b H. apply (sys_hat_bnd _ _ i a j b ed); [exact H|apply bnd_side; exact H|].
    intros s. kern. rewrite upd2_same. reflexivity.
  Qed.
  Lemma unit_hat_dist : forall q qh d i a j b, In d (un_dist un) ->
    nw_hat (sys q qh) (de_elt d) (de_face d) i a j b = (1 - theta) * phi_lam m d i j (fun gp => dF_dist m eaux g qh d gp (q_dist m q d gp)) a b.
  Proof.
    intros q qh d i a j b H. apply (sys_hat_dist _ _ i a j b d); [exact H|reflexivity|].
    intros s. kern. rewrite upd2_same. reflexivity.
  Qed.
  Lemma unit_glob_in : forall q qh ed i a j b, In ed (un_ints un) ->
    nw_glob (sys q qh) (i_in (the_int m ed)) (i_bin (the_int m ed)) i a j b = in_glob m eaux g qh ed i a j b.
  Proof.
    intros q qh ed i a j b H. apply (sys_glob_int _ _ i a j b ed); [exact H|apply int_side_in; exact H|].
    intros s. kern. rewrite upd4_in by (exact (Ti ed H)). reflexivity.
  Qed.
  Lemma unit_glob_ex : forall q qh ed i a j b, In ed (un_ints un) ->
    nw_glob (sys q qh) (i_ex (the_int m ed)) (i_bex (the_int m ed)) i a j b = ex_glob m eaux g qh ed i a j b.
  Proof.
    intros q qh ed i a j b H. apply (sys_glob_int _ _ i a j b ed); [exact H|apply int_side_ex; exact H|].
    intros s. kern. rewrite upd2_same. reflexivity.
  Qed.
  Lemma unit_glob_bnd : forall q qh ed i a j b, In ed (un_bnds un) ->
    nw_glob (sys q qh) (b_elt (the_bnd m ed)) (b_id (the_bnd m ed)) i a j b = bd_glob m eaux g t q qh ed i a j b.
  Proof.
    intros q qh ed i a j b H. apply (sys_glob_bnd _ _ i a j b ed); [exact H|apply bnd_side; exact H|].
    intros s. kern. rewrite upd2_same. reflexivity.
  Qed.
  Lemma unit_glob_dist : forall q qh d i a j b, In d (un_dist un) ->
    nw_glob (sys q qh) (de_elt d) (de_face d) i a j b = phi_lam m d j i (tau_mat_dist m eaux g qh d) a b.
  Proof.
    intros q qh d i a j b H. apply (sys_glob_dist _ _ i a j b d); [exact H|reflexivity|].
    intros s. kern. rewrite upd2_same. reflexivity.
  Qed.

  (** Trace rows. *)
  Lemma dist_edge_once : forall d d', In d (un_dist un) -> In d' (un_dist un) -> de_edge d = de_edge d' -> d = d'.
  Proof.
    assert (K : forall l, NoDup (map de_edge l) -> forall d d', In d l -> In d' l -> de_edge d = de_edge d' -> d = d').
    { induction l as [|x l IH]; intros N d d' H H' E; [destruct H|]. cbn in N. inversion N as [|? ? N1 N2]; subst.
      destruct H as [<-|H], H' as [<-|H']; [reflexivity| | |exact (IH N2 d d' H H' E)].
      - exfalso. apply N1. rewrite E. apply in_map. exact H'.
      - exfalso. apply N1. rewrite <- E. apply in_map. exact H. }
    exact (K _ Nd).
  Qed.
  Lemma unit_grhs_int : forall q qh ed a i, In ed (un_ints un) -> nw_grhs (sys q qh) ed a i =
    - edge_lambda m (i_in (the_int m ed)) (i_bin (the_int m ed)) (int_kern_rhs m eaux g q qh ed) a i.
  Proof.
    intros q qh ed a i H. unfold unit_system. cbv zeta.
    rewrite (fold_keepL (fun s => nw_grhs s ed a i)).
    2:{ intros s x Hx. kern. rewrite upd_other; [reflexivity|]. intros E. apply (proj2 (Rd x Hx)). rewrite <- E. exact H. }
    rewrite (fold_keepL (fun s => nw_grhs s ed a i)).
    2:{ intros s x Hx. kern. rewrite upd_other; [reflexivity|]. intros E. pose proof (Ri ed H). pose proof (Rb x Hx). lia. }
    apply (fold_setL (fun s => nw_grhs s ed a i) _ _ ed); [exact Ni|exact H| |].
    - intros s. kern. rewrite upd_same. reflexivity.
    - intros s x _ N. kern. rewrite upd_other by congruence. reflexivity.
  Qed.
  Lemma unit_grhs_bnd : forall q qh ed a i, In ed (un_bnds un) -> nw_grhs (sys q qh) ed a i =
    - edge_lambda m (b_elt (the_bnd m ed)) (b_id (the_bnd m ed)) (fun gp => snd (bd_kern m eaux g t q qh ed gp)) a i.
  Proof.
    intros q qh ed a i H. unfold unit_system. cbv zeta.
    rewrite (fold_keepL (fun s => nw_grhs s ed a i)).
    2:{ intros s x Hx. kern. rewrite upd_other; [reflexivity|]. intros E. pose proof (proj1 (Rd x Hx)). pose proof (Rb ed H). lia. }
    apply (fold_setL (fun s => nw_grhs s ed a i) _ _ ed); [exact Nb|exact H| |].
    - intros s. kern. rewrite upd_same. reflexivity.
    - intros s x _ N. kern. rewrite upd_other by congruence. reflexivity.
  Qed.
  Lemma unit_grhs_dist : forall q qh d a i, In d (un_dist un) -> nw_grhs (sys q qh) (de_edge d) a i =
    - int_lam m d (fun gp => F_dist m eaux g qh d gp (q_dist m q d gp)) a i.
  Proof.
    intros q qh d a i H. unfold unit_system. cbv zeta.
    apply (fold_setL (fun s => nw_grhs s (de_edge d) a i) _ _ d); [exact dist_once|exact H| |].
    - intros s. kern. rewrite upd_same. reflexivity.
    - intros s x Hx N. kern. rewrite upd_other; [reflexivity|]. intros E. apply N. apply dist_edge_once; [exact Hx|exact H|congruence].
  Qed.
  Lemma unit_hglob_int : forall q qh ed i a j b, In ed (un_ints un) -> nw_hglob (sys q qh) ed i a j b =
    lambda_lambda m (i_in (the_int m ed)) (i_bin (the_int m ed)) i j (int_kern_hat m eaux g q qh ed) a b.
  Proof.
    intros q qh ed i a j b H. unfold unit_system. cbv zeta.
    rewrite (fold_keepL (fun s => nw_hglob s ed i a j b)).
    2:{ intros s x Hx. kern. rewrite upd_other; [reflexivity|]. intros E. apply (proj2 (Rd x Hx)). rewrite <- E. exact H. }
    rewrite (fold_keepL (fun s => nw_hglob s ed i a j b)).
    2:{ intros s x Hx. kern. rewrite upd_other; [reflexivity|]. intros E. pose proof (Ri ed H). pose proof (Rb x Hx). lia. }
    apply (fold_setL (fun s => nw_hglob s ed i a j b) _ _ ed); [exact Ni|exact H| |].
    - intros s. kern. rewrite upd_same. reflexivity.
    - intros s x _ N. kern. rewrite upd_other by congruence. reflexivity.
  Qed.
  Lemma unit_hglob_bnd : forall q qh ed i a j b, In ed (un_bnds un) -> nw_hglob (sys q qh) ed i a j b =
    lambda_lambda m (b_elt (the_bnd m ed)) (b_id (the_bnd m ed)) j i (fun gp => snd (fst (bd_kern m eaux g t q qh ed gp))) a b.
  Proof.
    intros q qh ed i a j b H. unfold unit_system. cbv zeta.
    rewrite (fold_keepL (fun s => nw_hglob s ed i a j b)).
    2:{ intros s x Hx. kern. rewrite upd_other; [reflexivity|]. intros E. pose proof (proj1 (Rd x Hx)). pose proof (Rb ed H). lia. }
    apply (fold_setL (fun s => nw_hglob s ed i a j b) _ _ ed); [exact Nb|exact H| |].
    - intros s. kern. rewrite upd_same. reflexivity.
    - intros s x _ N. kern. rewrite upd_other by congruence. reflexivity.
  Qed.
  Lemma unit_hglob_dist : forall q qh d i a j b, In d (un_dist un) -> nw_hglob (sys q qh) (de_edge d) i a j b =
    lam_lam m d j i (fun gp => dF_dist m eaux g qh d gp (q_dist m q d gp)) a b.
  Proof.
    intros q qh d i a j b H. unfold unit_system. cbv zeta.
    apply (fold_setL (fun s => nw_hglob s (de_edge d) i a j b) _ _ d); [exact dist_once|exact H| |].
    - intros s. kern. rewrite upd_same. reflexivity.
    - intros s x Hx N. kern. rewrite upd_other; [reflexivity|]. intros E. apply N. apply dist_edge_once; [exact Hx|exact H|congruence].
  Qed.

  (** rhs_prev *)
  Lemma unit_init_entry : forall qh e a i, In e (un_elts un) -> unit_rhs_prev m eaux g un true t qp qh e a i =
    integration_dphi m e fst (fun gp => fst (get_F g (u_elt m qp e gp) (a_elt m qp e gp))) a i +
    integration_dphi m e snd (fun gp => snd (get_F g (u_elt m qp e gp) (a_elt m qp e gp))) a i +
    integration_phi m e (source_gp m g t qp e) a i +
    lsum (un_ints un) (fun ed => int_rhs m eaux g 0 qp qh ed e a i) + lsum (un_bnds un) (fun ed => bnd_rhs m eaux g 0 qp qh ed e a i) +
    lsum (un_dist un) (fun d => on e (de_elt d) (- (1 - 0) * integration_face m (de_elt d) (de_face d) (de_face d) (fun gp => F_dist m eaux g qh d gp (q_dist m qp d gp)) a i)).
  Proof.
    intros qh e a i He. unfold unit_rhs_prev. cbv zeta.
    rewrite (fold_accL (fun s : nat -> coeffs => s e a i) _ (fun d => on e (de_elt d) (- (1 - 0) * integration_face m (de_elt d) (de_face d) (de_face d) (fun gp => F_dist m eaux g qh d gp (q_dist m qp d gp)) a i))).
    2:{ intros s x _. unfold init_edge_distributed. rewrite cacc1. f_equal. unfold on. destruct (e =? _)%nat; ring. }
    rewrite (fold_accL (fun s : nat -> coeffs => s e a i) _ (fun ed => bnd_rhs m eaux g 0 qp qh ed e a i)).
    2:{ intros s x _. unfold init_edge_boundary, bnd_rhs. cbv zeta. rewrite cacc1. f_equal. unfold on. destruct (e =? _)%nat; ring. }
    rewrite (fold_accL (fun s : nat -> coeffs => s e a i) _ (fun ed => int_rhs m eaux g 0 qp qh ed e a i)).
    2:{ intros s x _. unfold init_edge_interface, int_rhs. cbv zeta. rewrite cacc2. f_equal. unfold on. destruct (e =? _)%nat; destruct (e =? _)%nat; ring. }
    f_equal. f_equal. f_equal.
    rewrite (fold_accL (fun s : nat -> coeffs => s e a i) _ (fun x => if (x =? e)%nat then integration_phi m x (source_gp m g t qp x) a i else 0)).
    2:{ intros s x _. unfold init_source. rewrite upd_get, Nat.eqb_sym. unfold cadd. destruct (Nat.eqb_spec x e) as [->|]; ring. }
    f_equal.
    - apply (fold_setL (fun s : nat -> coeffs => s e a i) _ _ e); [exact Ne|exact He| |].
      + intros s. unfold init_volume. cbv zeta. rewrite upd_same. reflexivity.
      + intros s x _ N. unfold init_volume. cbv zeta. rewrite upd_other by congruence. reflexivity.
    - apply in_split in He as (l1 & l2 & E). rewrite E in *. rewrite lsum_app, lsum_cons, Nat.eqb_refl. apply NoDup_remove_2 in Ne.
      assert (Z : forall l, ~ In e l -> lsum l (fun x => if (x =? e)%nat then integration_phi m x (source_gp m g t qp x) a i else 0) = 0).
      { intros l Hl. rewrite (lsum_ext _ l _ (fun _ => 0)); [apply lsum_zero|]. intros x Hx. destruct (Nat.eqb_spec x e) as [->|]; [contradiction|reflexivity]. }
      rewrite !Z; [ring| |]; intros I; apply Ne; apply in_or_app; tauto.
  Qed.
End Unit.

(** Entries of the assembled implicit HDG Newton system. *)
From Coq Require Import Reals List Bool Arith Lra Lia.
From Verif Require Import Num ModelSWE ModelShape ModelBasis ModelJac SpecJac SpecStepper LemmasSWE LemmasRK LemmasDofs3 LemmasSlope
  ModelStep LemmasStep ModelIHDG SpecIHDG LemmasIHDG1 LemmasIHDG2 LemmasIHDG3.
Import ListNotations.
Open Scope R_scope.

Definition zeroN : newton := Newton (fun _ _ _ _ _ => 0) (fun _ _ _ => 0) (fun _ _ _ _ _ _ => 0) (fun _ _ _ _ _ _ => 0)
  (fun _ _ _ _ _ => 0) (fun _ _ _ => 0).

Lemma in_flat_once : forall (A B : Type) (f : A -> list B) l x y b, NoDup (flat_map f l) -> In x l -> In y l ->
  In b (f x) -> In b (f y) -> x = y \/ False.
Proof.
  intros A B f l x y b. induction l as [|z l IH]; intros ND Hx Hy Bx By; [destruct Hx|]. cbn [flat_map] in ND.
  apply NoDup_app_inv in ND. destruct ND as [N1 [N2 N3]].
  destruct Hx as [->|Hx]; destruct Hy as [->|Hy].
  - left. reflexivity.
  - right. apply (N3 b Bx). apply in_flat_map. exists y. split; assumption.
  - right. apply (N3 b By). apply in_flat_map. exists x. split; assumption.
  - exact (IH N2 Hx Hy Bx By).
Qed.

Section System.
  Context (m : mesh) (eaux : nat -> nat -> aux3 R) (g dt theta t : R) (qp rp : nat -> coeffs) (s0 : newton).
  Notation vol := (local_volume m g dt theta).
  Notation src := (local_source m g theta t).
  Notation lint := (local_edge_interface m eaux g theta).
  Notation lbnd := (local_edge_boundary m eaux g theta).
  Notation gint := (global_edge_interface m eaux g).
  Notation gbnd := (global_edge_boundary m eaux g t).
  Notation sys := (fun q qh => newton_system m eaux g dt theta t qp rp q qh s0).
  Notation ni := (length (m_intfaces m)).
  Notation nb := (length (m_bounds m)).

  Ltac kern := cbv beta iota zeta delta [local_volume local_source local_edge_interface local_edge_boundary global_edge_interface global_edge_boundary
     nw_delta nw_rhs nw_hat nw_glob nw_hglob nw_grhs].

  (** The element part. *)
  Lemma elt_rhs_other : forall q s x e a i, x <> e -> nw_rhs (src q (vol q qp rp s x) x) e a i = nw_rhs s e a i.
  Proof. intros q s x e a i N. kern. rewrite !upd_other by congruence. reflexivity. Qed.
  Lemma elt_rhs_self : forall q s e a i, nw_rhs (src q (vol q qp rp s e) e) e a i = nw_rhs (src q (vol q qp rp zeroN e) e) e a i.
  Proof. intros q s e a i. kern. rewrite !upd_same. reflexivity. Qed.
  Lemma elt_delta_other : forall q s x e i a j b, x <> e -> nw_delta (src q (vol q qp rp s x) x) e i a j b = nw_delta s e i a j b.
  Proof. intros q s x e i a j b N. kern. rewrite !upd_other by congruence. reflexivity. Qed.
  Lemma elt_delta_self : forall q s e i a j b, nw_delta (src q (vol q qp rp s e) e) e i a j b = nw_delta (src q (vol q qp rp zeroN e) e) e i a j b.
  Proof. intros q s e i a j b. kern. rewrite !upd_same. reflexivity. Qed.

  (** Edge parts accumulate. *)
  Definition on (e x : nat) (r : R) : R := if (e =? x)%nat then r else 0.
  Lemma acc2 : forall (f : nat -> coeffs) x y A B e a i,
    upd (upd f x (cadd (f x) A)) y (cadd (upd f x (cadd (f x) A) y) B) e a i = f e a i + on e x (A a i) + on e y (B a i).
  Proof.
    intros f x y A B e a i. unfold on. rewrite !upd_get. unfold cadd.
    destruct (Nat.eqb_spec e y) as [->|N]; destruct (Nat.eqb_spec y x) as [->|N']; try rewrite upd_get; try rewrite Nat.eqb_refl;
      try ring; destruct (Nat.eqb_spec e x) as [->|N'']; try ring; try congruence.
    all: destruct (Nat.eqb_spec y x); try congruence; ring.
  Qed.
  Lemma bacc2 : forall (f : nat -> block) x y A B e i a j b,
    upd (upd f x (badd (f x) A)) y (badd (upd f x (badd (f x) A) y) B) e i a j b = f e i a j b + on e x (A i a j b) + on e y (B i a j b).
  Proof.
    intros f x y A B e i a j b. unfold on. rewrite !upd_get. unfold badd.
    destruct (Nat.eqb_spec e y) as [->|N]; destruct (Nat.eqb_spec y x) as [->|N']; try rewrite upd_get; try rewrite Nat.eqb_refl;
      try ring; destruct (Nat.eqb_spec e x) as [->|N'']; try ring; try congruence.
    all: destruct (Nat.eqb_spec y x); try congruence; ring.
  Qed.
  Lemma acc1 : forall (f : nat -> coeffs) x A e a i, upd f x (cadd (f x) A) e a i = f e a i + on e x (A a i).
  Proof. intros f x A e a i. unfold on. rewrite upd_get. unfold cadd. destruct (Nat.eqb_spec e x) as [->|N]; ring. Qed.
  Lemma bacc1 : forall (f : nat -> block) x A e i a j b, upd f x (badd (f x) A) e i a j b = f e i a j b + on e x (A i a j b).
  Proof. intros f x A e i a j b. unfold on. rewrite upd_get. unfold badd. destruct (Nat.eqb_spec e x) as [->|N]; ring. Qed.

  (** Contributions of an edge to the rows of element [e]. *)
  Definition int_rhs (q qh : nat -> coeffs) (ed e a i : nat) : R :=
    let f := the_int m ed in let n := normal m (i_in f) (i_bin f) in
    on e (i_in f) (- (1 - theta) * integration_face m (i_in f) (i_bin f) (i_bin f)
      (fun gp => F_in m eaux g qh ed gp n (u_face m q (i_in f) (i_bin f) gp)) a i) +
    on e (i_ex f) (- (1 - theta) * integration_face m (i_in f) (i_bin f) (i_bex f)
      (fun gp => F_ex m eaux g qh ed (mirror m gp) n (u_face m q (i_ex f) (i_bex f) gp)) a i).
  Definition int_delta (qh : nat -> coeffs) (ed e i a j b : nat) : R :=
    let f := the_int m ed in let n := normal m (i_in f) (i_bin f) in
    on e (i_in f) ((1 - theta) * face_phi_phi m (i_in f) (i_bin f) (i_bin f) i j (fun gp => tau_mat m eaux g qh ed gp n) a b) +
    on e (i_ex f) ((1 - theta) * face_phi_phi m (i_in f) (i_bin f) (i_bex f) i j (fun gp => tau_mat m eaux g qh ed (mirror m gp) n) a b).
  Definition bnd_rhs (q qh : nat -> coeffs) (ed e a i : nat) : R :=
    let b := the_bnd m ed in let n := normal m (b_elt b) (b_id b) in
    on e (b_elt b) (- (1 - theta) * integration_face m (b_elt b) (b_id b) (b_id b)
      (fun gp => F_in m eaux g qh ed gp n (u_face m q (b_elt b) (b_id b) gp)) a i).
  Definition bnd_delta (qh : nat -> coeffs) (ed e i a j c : nat) : R :=
    let b := the_bnd m ed in let n := normal m (b_elt b) (b_id b) in
    on e (b_elt b) ((1 - theta) * face_phi_phi m (b_elt b) (b_id b) (b_id b) j i (fun gp => tau_mat m eaux g qh ed gp n) a c).

  Lemma int_rhs_acc : forall q qh s ed e a i, nw_rhs (lint q qh s ed) e a i = nw_rhs s e a i + int_rhs q qh ed e a i.
  Proof. intros q qh s ed e a i. unfold int_rhs. kern. refine (eq_trans (acc2 _ _ _ _ _ _ _ _) _). apply Rplus_assoc. Qed.
  Lemma int_delta_acc : forall q qh s ed e i a j b, nw_delta (lint q qh s ed) e i a j b = nw_delta s e i a j b + int_delta qh ed e i a j b.
  Proof. intros q qh s ed e i a j b. unfold int_delta. kern. refine (eq_trans (bacc2 _ _ _ _ _ _ _ _ _ _) _). apply Rplus_assoc. Qed.
  Lemma bnd_rhs_acc : forall q qh s ed e a i, nw_rhs (lbnd q qh s ed) e a i = nw_rhs s e a i + bnd_rhs q qh ed e a i.
  Proof. intros q qh s ed e a i. unfold bnd_rhs. kern. exact (acc1 _ _ _ _ _ _). Qed.
  Lemma bnd_delta_acc : forall q qh s ed e i a j b, nw_delta (lbnd q qh s ed) e i a j b = nw_delta s e i a j b + bnd_delta qh ed e i a j b.
  Proof. intros q qh s ed e i a j b. unfold bnd_delta. kern. exact (bacc1 _ _ _ _ _ _ _ _). Qed.

  Definition elt_rhs (q : nat -> coeffs) (e a i : nat) : R := nw_rhs (src q (vol q qp rp zeroN e) e) e a i.
  Definition elt_delta (q : nat -> coeffs) (e i a j b : nat) : R := nw_delta (src q (vol q qp rp zeroN e) e) e i a j b.

  Lemma rhs_entry : forall q qh e a i, (e < m_n m)%nat ->
    nw_rhs (sys q qh) e a i = elt_rhs q e a i + rsum ni (fun ed => int_rhs q qh ed e a i) + rsum nb (fun k => bnd_rhs q qh (ni + k) e a i).
  Proof.
    intros q qh e a i He. unfold newton_system. cbv zeta.
    rewrite (fold_keep (fun s => nw_rhs s e a i)) by (intros s x _; reflexivity).
    rewrite (fold_keep (fun s => nw_rhs s e a i)) by (intros s x _; reflexivity).
    rewrite (fold_acc (fun s => nw_rhs s e a i) _ (fun ed => bnd_rhs q qh ed e a i)) by (intros s x _; apply bnd_rhs_acc).
    rewrite (fold_acc (fun s => nw_rhs s e a i) _ (fun ed => int_rhs q qh ed e a i)) by (intros s x _; apply int_rhs_acc).
    f_equal. f_equal.
    apply (fold_set (fun s => nw_rhs s e a i) _ _ e).
    - apply seq_NoDup.
    - apply in_seq. lia.
    - intros s. apply elt_rhs_self.
    - intros s x _ N. apply elt_rhs_other. exact N.
  Qed.
  Lemma delta_entry : forall q qh e i a j b, (e < m_n m)%nat ->
    nw_delta (sys q qh) e i a j b = elt_delta q e i a j b + rsum ni (fun ed => int_delta qh ed e i a j b) + rsum nb (fun k => bnd_delta qh (ni + k) e i a j b).
  Proof.
    intros q qh e i a j b He. unfold newton_system. cbv zeta.
    rewrite (fold_keep (fun s => nw_delta s e i a j b)) by (intros s x _; reflexivity).
    rewrite (fold_keep (fun s => nw_delta s e i a j b)) by (intros s x _; reflexivity).
    rewrite (fold_acc (fun s => nw_delta s e i a j b) _ (fun ed => bnd_delta qh ed e i a j b)) by (intros s x _; apply bnd_delta_acc).
    rewrite (fold_acc (fun s => nw_delta s e i a j b) _ (fun ed => int_delta qh ed e i a j b)) by (intros s x _; apply int_delta_acc).
    f_equal. f_equal.
    apply (fold_set (fun s => nw_delta s e i a j b) _ _ e).
    - apply seq_NoDup.
    - apply in_seq. lia.
    - intros s. apply elt_delta_self.
    - intros s x _ N. apply elt_delta_other. exact N.
  Qed.

  (** The blocks stored on a face are those of the one edge the face lies on. *)
  Lemma side_int : forall ed, (ed < ni)%nat -> sides m ed =
    [(i_in (the_int m ed), i_bin (the_int m ed)); (i_ex (the_int m ed), i_bex (the_int m ed))].
  Proof. intros ed H. unfold sides. apply Nat.ltb_lt in H. rewrite H. reflexivity. Qed.
  Lemma side_bnd : forall ed, (ni <= ed)%nat -> sides m ed = [(b_elt (the_bnd m ed), b_id (the_bnd m ed))].
  Proof. intros ed H. unfold sides. apply Nat.ltb_ge in H. rewrite H. reflexivity. Qed.
  Lemma one_edge : forall ed ed' s, conforming m -> (ed < ni + nb)%nat -> (ed' < ni + nb)%nat -> In s (sides m ed) -> In s (sides m ed') -> ed = ed'.
  Proof.
    intros ed ed' s [C _] H H' I I'. destruct (in_flat_once _ _ (sides m) _ ed ed' s C) as [E|[]]; try assumption; apply in_seq; lia.
  Qed.
  Lemma int_distinct : forall ed, conforming m -> (ed < ni)%nat -> i_in (the_int m ed) <> i_ex (the_int m ed).
  Proof.
    intros ed [_ C] H. rewrite Forall_forall in C. apply C. unfold the_int. apply nth_In. exact H.
  Qed.

  Lemma upd2_other : forall (A : Type) (F : nat -> nat -> A) x y H e f, (e, f) <> (x, y) -> upd F x (upd (F x) y H) e f = F e f.
  Proof.
    intros A F x y H e f N. rewrite upd_get. destruct (Nat.eqb_spec e x) as [->|]; [|reflexivity].
    rewrite upd_other; [reflexivity|]. intros ->. apply N. reflexivity.
  Qed.
  Lemma upd2_same : forall (A : Type) (F : nat -> nat -> A) x y H, upd F x (upd (F x) y H) x y = H.
  Proof. intros A F x y H. rewrite !upd_same. reflexivity. Qed.

  Definition in_hat (q qh : nat -> coeffs) (ed i a j b : nat) : R :=
    let f := the_int m ed in let n := normal m (i_in f) (i_bin f) in
    (1 - theta) * phi_lambda_in m (i_in f) (i_bin f) (i_bin f) i j (fun gp => dF_in m eaux g qh ed gp n (u_face m q (i_in f) (i_bin f) gp)) a b.
  Definition ex_hat (q qh : nat -> coeffs) (ed i a j b : nat) : R :=
    let f := the_int m ed in let n := normal m (i_in f) (i_bin f) in
    (1 - theta) * phi_lambda_ex m (i_in f) (i_bin f) (i_bex f) i j (fun gp => dF_ex m eaux g qh ed (mirror m gp) n (u_face m q (i_ex f) (i_bex f) gp)) a b.
  Definition bd_hat (q qh : nat -> coeffs) (ed i a j c : nat) : R :=
    let b := the_bnd m ed in let n := normal m (b_elt b) (b_id b) in
    (1 - theta) * phi_lambda_in m (b_elt b) (b_id b) (b_id b) i j (fun gp => dF_in m eaux g qh ed gp n (u_face m q (b_elt b) (b_id b) gp)) a c.
  Definition in_glob (qh : nat -> coeffs) (ed i a j b : nat) : R :=
    let f := the_int m ed in let n := normal m (i_in f) (i_bin f) in
    phi_lambda_in m (i_in f) (i_bin f) (i_bin f) j i (fun gp => tau_mat m eaux g qh ed gp n) a b.
  Definition ex_glob (qh : nat -> coeffs) (ed i a j b : nat) : R :=
    let f := the_int m ed in let n := normal m (i_in f) (i_bin f) in
    phi_lambda_ex m (i_in f) (i_bin f) (i_bex f) j i (fun gp => tau_mat m eaux g qh ed (mirror m gp) n) a b.
  Definition bd_kern (q qh : nat -> coeffs) (ed gp : nat) : mat3 * mat3 * vec3 R :=
    let b := the_bnd m ed in
    bc_kernels g t (b_bc b) (normal m (b_elt b) (b_id b)) gp (u_face m q (b_elt b) (b_id b) gp) (u_edge m qh ed gp) (a_edge m eaux qh ed gp).
  Definition bd_glob (q qh : nat -> coeffs) (ed i a j c : nat) : R :=
    let b := the_bnd m ed in phi_lambda_in m (b_elt b) (b_id b) (b_id b) j i (fun gp => fst (fst (bd_kern q qh ed gp))) a c.

  (** Two assignments to face blocks. *)
  Lemma upd4_in : forall (A : Type) (F : nat -> nat -> A) x y x' y' H H', x <> x' ->
    upd (upd F x (upd (F x) y H)) x' (upd (upd F x (upd (F x) y H) x') y' H') x y = H.
  Proof. intros A F x y x' y' H H' N. rewrite upd2_other by congruence. apply upd2_same. Qed.

  Lemma hat_in : forall q qh ed i a j b, conforming m -> (ed < ni)%nat ->
    nw_hat (sys q qh) (i_in (the_int m ed)) (i_bin (the_int m ed)) i a j b = in_hat q qh ed i a j b.
  Proof.
    intros q qh ed i a j b C He. set (e := i_in (the_int m ed)). set (f := i_bin (the_int m ed)).
    assert (I : In (e, f) (sides m ed)) by (rewrite side_int by exact He; left; reflexivity).
    unfold newton_system. cbv zeta.
    rewrite (fold_keep (fun s => nw_hat s e f i a j b)) by (intros s x _; reflexivity).
    rewrite (fold_keep (fun s => nw_hat s e f i a j b)) by (intros s x _; reflexivity).
    rewrite (fold_keep (fun s => nw_hat s e f i a j b)).
    2:{ intros s x Hx. apply in_seq in Hx. kern. rewrite upd2_other; [reflexivity|]. intros E.
        assert (ed = x); [|unfold nint in Hx; lia]. apply (one_edge ed x (e, f) C); [lia|unfold nint in Hx; lia|exact I|].
        rewrite E, side_bnd by (unfold nint in Hx; lia). left. reflexivity. }
    apply (fold_set (fun s => nw_hat s e f i a j b) _ _ ed).
    - apply seq_NoDup.
    - apply in_seq. unfold nint. lia.
    - intros s. kern. unfold e, f. rewrite upd4_in by (exact (int_distinct ed C He)). reflexivity.
    - intros s x Hx N. apply in_seq in Hx. unfold nint in Hx. kern.
      assert (N1 : (e, f) <> (i_in (the_int m x), i_bin (the_int m x))).
      { intros E. apply N. symmetry. apply (one_edge ed x (e, f) C); [lia|lia|exact I|]. rewrite E, side_int by lia. left. reflexivity. }
      assert (N2 : (e, f) <> (i_ex (the_int m x), i_bex (the_int m x))).
      { intros E. apply N. symmetry. apply (one_edge ed x (e, f) C); [lia|lia|exact I|]. rewrite E, side_int by lia. right. left. reflexivity. }
      rewrite (upd2_other _ _ _ _ _ _ _ N2), (upd2_other _ _ _ _ _ _ _ N1). reflexivity.
  Qed.
  Lemma hat_ex : forall q qh ed i a j b, conforming m -> (ed < ni)%nat ->
    nw_hat (sys q qh) (i_ex (the_int m ed)) (i_bex (the_int m ed)) i a j b = ex_hat q qh ed i a j b.
  Proof.
    intros q qh ed i a j b C He. set (e := i_ex (the_int m ed)). set (f := i_bex (the_int m ed)).
    assert (I : In (e, f) (sides m ed)) by (rewrite side_int by exact He; right; left; reflexivity).
    unfold newton_system. cbv zeta.
    rewrite (fold_keep (fun s => nw_hat s e f i a j b)) by (intros s x _; reflexivity).
    rewrite (fold_keep (fun s => nw_hat s e f i a j b)) by (intros s x _; reflexivity).
    rewrite (fold_keep (fun s => nw_hat s e f i a j b)).
    2:{ intros s x Hx. apply in_seq in Hx. kern. rewrite upd2_other; [reflexivity|]. intros E.
        assert (ed = x); [|unfold nint in Hx; lia]. apply (one_edge ed x (e, f) C); [lia|unfold nint in Hx; lia|exact I|].
        rewrite E, side_bnd by (unfold nint in Hx; lia). left. reflexivity. }
    apply (fold_set (fun s => nw_hat s e f i a j b) _ _ ed).
    - apply seq_NoDup.
    - apply in_seq. unfold nint. lia.
    - intros s. kern. unfold e, f. rewrite upd2_same. reflexivity.
    - intros s x Hx N. apply in_seq in Hx. unfold nint in Hx. kern.
      assert (N1 : (e, f) <> (i_in (the_int m x), i_bin (the_int m x))).
      { intros E. apply N. symmetry. apply (one_edge ed x (e, f) C); [lia|lia|exact I|]. rewrite E, side_int by lia. left. reflexivity. }
      assert (N2 : (e, f) <> (i_ex (the_int m x), i_bex (the_int m x))).
      { intros E. apply N. symmetry. apply (one_edge ed x (e, f) C); [lia|lia|exact I|]. rewrite E, side_int by lia. right. left. reflexivity. }
      rewrite (upd2_other _ _ _ _ _ _ _ N2), (upd2_other _ _ _ _ _ _ _ N1). reflexivity.
  Qed.
  Lemma hat_bnd : forall q qh ed i a j b, conforming m -> (ni <= ed < ni + nb)%nat ->
    nw_hat (sys q qh) (b_elt (the_bnd m ed)) (b_id (the_bnd m ed)) i a j b = bd_hat q qh ed i a j b.
  Proof.
    intros q qh ed i a j b C He. set (e := b_elt (the_bnd m ed)). set (f := b_id (the_bnd m ed)).
    assert (I : In (e, f) (sides m ed)) by (rewrite side_bnd by lia; left; reflexivity).
    unfold newton_system. cbv zeta.
    rewrite (fold_keep (fun s => nw_hat s e f i a j b)) by (intros s x _; reflexivity).
    rewrite (fold_keep (fun s => nw_hat s e f i a j b)) by (intros s x _; reflexivity).
    apply (fold_set (fun s => nw_hat s e f i a j b) _ _ ed).
    - apply seq_NoDup.
    - apply in_seq. unfold nint. lia.
    - intros s. kern. unfold e, f. rewrite upd2_same. reflexivity.
    - intros s x Hx N. apply in_seq in Hx. unfold nint in Hx. kern. rewrite upd2_other; [reflexivity|].
      intros E. apply N. symmetry. apply (one_edge ed x (e, f) C); [lia|lia|exact I|]. rewrite E, side_bnd by lia. left. reflexivity.
  Qed.
  Lemma glob_in : forall q qh ed i a j b, conforming m -> (ed < ni)%nat ->
    nw_glob (sys q qh) (i_in (the_int m ed)) (i_bin (the_int m ed)) i a j b = in_glob qh ed i a j b.
  Proof.
    intros q qh ed i a j b C He. set (e := i_in (the_int m ed)). set (f := i_bin (the_int m ed)).
    assert (I : In (e, f) (sides m ed)) by (rewrite side_int by exact He; left; reflexivity).
    unfold newton_system. cbv zeta.
    rewrite (fold_keep (fun s => nw_glob s e f i a j b)).
    2:{ intros s x Hx. apply in_seq in Hx. kern. rewrite upd2_other; [reflexivity|]. intros E.
        assert (ed = x); [|unfold nint in Hx; lia]. apply (one_edge ed x (e, f) C); [lia|unfold nint in Hx; lia|exact I|].
        rewrite E, side_bnd by (unfold nint in Hx; lia). left. reflexivity. }
    apply (fold_set (fun s => nw_glob s e f i a j b) _ _ ed).
    - apply seq_NoDup.
    - apply in_seq. unfold nint. lia.
    - intros s. kern. unfold e, f. rewrite upd4_in by (exact (int_distinct ed C He)). reflexivity.
    - intros s x Hx N. apply in_seq in Hx. unfold nint in Hx. kern.
      assert (N1 : (e, f) <> (i_in (the_int m x), i_bin (the_int m x))).
      { intros E. apply N. symmetry. apply (one_edge ed x (e, f) C); [lia|lia|exact I|]. rewrite E, side_int by lia. left. reflexivity. }
      assert (N2 : (e, f) <> (i_ex (the_int m x), i_bex (the_int m x))).
      { intros E. apply N. symmetry. apply (one_edge ed x (e, f) C); [lia|lia|exact I|]. rewrite E, side_int by lia. right. left. reflexivity. }
      rewrite (upd2_other _ _ _ _ _ _ _ N2), (upd2_other _ _ _ _ _ _ _ N1). reflexivity.
  Qed.
  Lemma glob_ex : forall q qh ed i a j b, conforming m -> (ed < ni)%nat ->
    nw_glob (sys q qh) (i_ex (the_int m ed)) (i_bex (the_int m ed)) i a j b = ex_glob qh ed i a j b.
  Proof.
    intros q qh ed i a j b C He. set (e := i_ex (the_int m ed)). set (f := i_bex (the_int m ed)).
    assert (I : In (e, f) (sides m ed)) by (rewrite side_int by exact He; right; left; reflexivity).
    unfold newton_system. cbv zeta.
    rewrite (fold_keep (fun s => nw_glob s e f i a j b)).
    2:{ intros s x Hx. apply in_seq in Hx. kern. rewrite upd2_other; [reflexivity|]. intros E.
        assert (ed = x); [|unfold nint in Hx; lia]. apply (one_edge ed x (e, f) C); [lia|unfold nint in Hx; lia|exact I|].
        rewrite E, side_bnd by (unfold nint in Hx; lia). left. reflexivity. }
    apply (fold_set (fun s => nw_glob s e f i a j b) _ _ ed).
    - apply seq_NoDup.
    - apply in_seq. unfold nint. lia.
    - intros s. kern. unfold e, f. rewrite upd2_same. reflexivity.
    - intros s x Hx N. apply in_seq in Hx. unfold nint in Hx. kern.
      assert (N1 : (e, f) <> (i_in (the_int m x), i_bin (the_int m x))).
      { intros E. apply N. symmetry. apply (one_edge ed x (e, f) C); [lia|lia|exact I|]. rewrite E, side_int by lia. left. reflexivity. }
      assert (N2 : (e, f) <> (i_ex (the_int m x), i_bex (the_int m x))).
      { intros E. apply N. symmetry. apply (one_edge ed x (e, f) C); [lia|lia|exact I|]. rewrite E, side_int by lia. right. left. reflexivity. }
      rewrite (upd2_other _ _ _ _ _ _ _ N2), (upd2_other _ _ _ _ _ _ _ N1). reflexivity.
  Qed.
  Lemma glob_bnd : forall q qh ed i a j b, conforming m -> (ni <= ed < ni + nb)%nat ->
    nw_glob (sys q qh) (b_elt (the_bnd m ed)) (b_id (the_bnd m ed)) i a j b = bd_glob q qh ed i a j b.
  Proof.
    intros q qh ed i a j b C He. set (e := b_elt (the_bnd m ed)). set (f := b_id (the_bnd m ed)).
    assert (I : In (e, f) (sides m ed)) by (rewrite side_bnd by lia; left; reflexivity).
    unfold newton_system. cbv zeta.
    apply (fold_set (fun s => nw_glob s e f i a j b) _ _ ed).
    - apply seq_NoDup.
    - apply in_seq. unfold nint. lia.
    - intros s. kern. unfold e, f. rewrite upd2_same. reflexivity.
    - intros s x Hx N. apply in_seq in Hx. unfold nint in Hx. kern. rewrite upd2_other; [reflexivity|].
      intros E. apply N. symmetry. apply (one_edge ed x (e, f) C); [lia|lia|exact I|]. rewrite E, side_bnd by lia. left. reflexivity.
  Qed.

  (** Global rows. *)
  Definition int_kern_rhs (q qh : nat -> coeffs) (ed gp : nat) : vec3 R :=
    let f := the_int m ed in let n := normal m (i_in f) (i_bin f) in
    vadd (F_in m eaux g qh ed gp n (u_face m q (i_in f) (i_bin f) gp)) (F_ex m eaux g qh ed gp n (u_face m q (i_ex f) (i_bex f) (mirror m gp))).
  Definition int_kern_hat (q qh : nat -> coeffs) (ed gp : nat) : mat3 :=
    let f := the_int m ed in let n := normal m (i_in f) (i_bin f) in
    madd (dF_in m eaux g qh ed gp n (u_face m q (i_in f) (i_bin f) gp)) (dF_ex m eaux g qh ed gp n (u_face m q (i_ex f) (i_bex f) (mirror m gp))).
  Lemma grhs_int : forall q qh ed a i, (ed < ni)%nat -> nw_grhs (sys q qh) ed a i =
    - edge_lambda m (i_in (the_int m ed)) (i_bin (the_int m ed)) (int_kern_rhs q qh ed) a i.
  Proof.
    intros q qh ed a i He. unfold newton_system. cbv zeta.
    rewrite (fold_keep (fun s => nw_grhs s ed a i)).
    2:{ intros s x Hx. apply in_seq in Hx. unfold nint in Hx. kern. rewrite upd_other by lia. reflexivity. }
    apply (fold_set (fun s => nw_grhs s ed a i) _ _ ed).
    - apply seq_NoDup.
    - apply in_seq. unfold nint. lia.
    - intros s. kern. rewrite upd_same. reflexivity.
    - intros s x _ N. kern. rewrite upd_other by congruence. reflexivity.
  Qed.
  Lemma grhs_bnd : forall q qh ed a i, (ni <= ed < ni + nb)%nat -> nw_grhs (sys q qh) ed a i =
    - edge_lambda m (b_elt (the_bnd m ed)) (b_id (the_bnd m ed)) (fun gp => snd (bd_kern q qh ed gp)) a i.
  Proof.
    intros q qh ed a i He. unfold newton_system. cbv zeta.
    apply (fold_set (fun s => nw_grhs s ed a i) _ _ ed).
    - apply seq_NoDup.
    - apply in_seq. unfold nint. lia.
    - intros s. kern. rewrite upd_same. reflexivity.
    - intros s x _ N. kern. rewrite upd_other by congruence. reflexivity.
  Qed.
  Lemma hglob_int : forall q qh ed i a j b, (ed < ni)%nat -> nw_hglob (sys q qh) ed i a j b =
    lambda_lambda m (i_in (the_int m ed)) (i_bin (the_int m ed)) i j (int_kern_hat q qh ed) a b.
  Proof.
    intros q qh ed i a j b He. unfold newton_system. cbv zeta.
    rewrite (fold_keep (fun s => nw_hglob s ed i a j b)).
    2:{ intros s x Hx. apply in_seq in Hx. unfold nint in Hx. kern. rewrite upd_other by lia. reflexivity. }
    apply (fold_set (fun s => nw_hglob s ed i a j b) _ _ ed).
    - apply seq_NoDup.
    - apply in_seq. unfold nint. lia.
    - intros s. kern. rewrite upd_same. reflexivity.
    - intros s x _ N. kern. rewrite upd_other by congruence. reflexivity.
  Qed.
  Lemma hglob_bnd : forall q qh ed i a j b, (ni <= ed < ni + nb)%nat -> nw_hglob (sys q qh) ed i a j b =
    lambda_lambda m (b_elt (the_bnd m ed)) (b_id (the_bnd m ed)) j i (fun gp => snd (fst (bd_kern q qh ed gp))) a b.
  Proof.
    intros q qh ed i a j b He. unfold newton_system. cbv zeta.
    apply (fold_set (fun s => nw_hglob s ed i a j b) _ _ ed).
    - apply seq_NoDup.
    - apply in_seq. unfold nint. lia.
    - intros s. kern. rewrite upd_same. reflexivity.
    - intros s x _ N. kern. rewrite upd_other by congruence. reflexivity.
  Qed.
End System.

(** Distributed implicit HDG: passes of the Newton loop. *)
From Coq Require Import Reals ZArith List Bool Arith Lia Lra Permutation FunctionalExtensionality.
From Verif Require Import Num ModelSWE Outcome ModelShape ModelBasis ModelJac ModelStep ModelIHDG
  SpecSWE SpecStepper SpecStep SpecIHDG SpecIHDG2
  LemmasSWE LemmasRK LemmasStep LemmasStage LemmasPar2 LemmasIHDG4 LemmasIPar2 LemmasIPar3 LemmasIPar4 LemmasIPar5 LemmasIPar6 LemmasIPar7
  ModelIPar SpecIPar.
Import ListNotations.
Open Scope R_scope.

Lemma existsb_In : forall x l, existsb (Nat.eqb x) l = true <-> In x l.
Proof.
  intros x l. rewrite existsb_exists. split; [intros (y & H & E); apply Nat.eqb_eq in E as ->; exact H|intros H; exists x; split; [exact H|apply Nat.eqb_refl]].
Qed.

Section P.
  Context (m : mesh) (us : list iunit) (cuts : list nat) (own : nat -> bool).
  Context (Dv : divides m us cuts own) (Cf : conforming m).
  Notation ni := (length (m_intfaces m)).
  Notation nb := (length (m_bounds m)).

  Lemma elts_plus : forall x xs y ys, elts_shared m us x xs -> elts_shared m us y ys -> elts_shared m us (plus x y) (fun u => plus (xs u) (ys u)).
  Proof. intros x xs y ys A B u e a i Hu He Ha Hi. unfold plus, cadd. rewrite (A u e a i), (B u e a i) by assumption. reflexivity. Qed.
  Lemma traces_plus : forall x xs y ys, traces_shared m us own x xs -> traces_shared m us own y ys -> traces_shared m us own (plus x y) (fun u => plus (xs u) (ys u)).
  Proof.
    intros x xs y ys (A & A') (B & B'). split.
    - intros u ed a i Hu He Ha Hi. unfold plus, cadd. rewrite (A u ed a i), (B u ed a i) by assumption. reflexivity.
    - intros u d a i Hu He Ha Hi. unfold plus, cadd. rewrite (A' u d a i), (B' u d a i) by assumption. ring.
  Qed.

  (** From the serial data to the units. *)
  Definition split_traces (y : nat -> coeffs) : nat -> nat -> coeffs := fun u ed a j =>
    if existsb (Nat.eqb ed) (map de_edge (un_dist (the_unit us u))) then flip own ed j * y ed a j else y ed a j.
  Lemma not_dist : forall u ed, (u < length us)%nat -> In ed (un_ints (the_unit us u) ++ un_bnds (the_unit us u)) -> ~ In ed (map de_edge (un_dist (the_unit us u))).
  Proof.
    intros u ed Hu H K. apply in_map_iff in K as (d & <- & Hd). destruct (u_Rd m us cuts own Dv u Hu d Hd) as (R & N).
    apply in_app_or in H as [H|H]; [exact (N H)|]. apply (u_Rb m us cuts own Dv u Hu) in H. lia.
  Qed.
  Lemma split_elts_ok : forall x, elts_shared m us x (fun _ => x).
  Proof. intros x u e a i _ _ _ _. reflexivity. Qed.
  Lemma split_traces_ok : forall y, traces_shared m us own y (split_traces y).
  Proof.
    intros y. split.
    - intros u ed a j Hu H _ _. unfold split_traces. destruct (existsb _ _) eqn:E; [|reflexivity]. exfalso. apply existsb_In in E. exact (not_dist u ed Hu H E).
    - intros u d a j Hu H _ _. unfold split_traces. destruct (existsb _ _) eqn:E; [reflexivity|]. exfalso.
      assert (K : existsb (Nat.eqb (de_edge d)) (map de_edge (un_dist (the_unit us u))) = true) by (apply existsb_In; apply in_map; exact H). congruence.
  Qed.
  Lemma shared_cuts : forall y ys, traces_shared m us own y ys -> same_on_cuts m us ys.
  Proof. intros y ys (_ & B) u v d d' a j Hu Hv H H' E Ha Hj. rewrite (B u d), (B v d') by assumption. rewrite E. reflexivity. Qed.

  (** And back. *)
  Definition unit_of (p : nat -> bool) : nat := match find p (seq 0 (length us)) with Some u => u | None => 0%nat end.
  Lemma unit_of_ok : forall p u, (u < length us)%nat -> p u = true -> (unit_of p < length us)%nat /\ p (unit_of p) = true.
  Proof.
    intros p u Hu Hp. unfold unit_of. destruct (find p (seq 0 (length us))) as [v|] eqn:E.
    - apply find_some in E as (I & E). apply in_seq in I. split; [lia|exact E].
    - exfalso. pose proof (find_none _ _ E u ltac:(apply in_seq; lia)). congruence.
  Qed.
  Definition join_elts (xs : nat -> nat -> coeffs) : nat -> coeffs := fun e => xs (unit_of (fun u => existsb (Nat.eqb e) (un_elts (the_unit us u)))) e.
  Definition has_edge (ed u : nat) : bool := existsb (Nat.eqb ed) (un_ints (the_unit us u) ++ un_bnds (the_unit us u)).
  Definition has_half (ed u : nat) : bool := existsb (Nat.eqb ed) (map de_edge (un_dist (the_unit us u))).
  Definition join_traces (ys : nat -> nat -> coeffs) : nat -> coeffs := fun ed a j =>
    if existsb (Nat.eqb ed) cuts then flip own ed j * ys (unit_of (has_half ed)) ed a j else ys (unit_of (has_edge ed)) ed a j.
  Lemma join_elts_ok : forall xs, elts_shared m us (join_elts xs) xs.
  Proof.
    intros xs u e a i Hu He Ha Hi. unfold join_elts. set (p := fun u => existsb (Nat.eqb e) (un_elts (the_unit us u))).
    destruct (unit_of_ok p u Hu) as (L & K); [unfold p; apply existsb_In; exact He|]. unfold p in K at 1. apply existsb_In in K.
    rewrite (flat_index _ _ un_elts (IUnit [] [] [] []) us u (unit_of p) e (elts_once m us cuts own Dv) Hu L He K) at 1. reflexivity.
  Qed.
  Lemma edge_unit : forall u v ed, (u < length us)%nat -> (v < length us)%nat ->
    In ed (un_ints (the_unit us u) ++ un_bnds (the_unit us u)) -> In ed (un_ints (the_unit us v) ++ un_bnds (the_unit us v)) -> u = v.
  Proof.
    intros u v ed Hu Hv H H'. apply in_app_or in H as [H|H]; apply in_app_or in H' as [H'|H'].
    - pose proof (ints_once m us cuts own Dv) as N. apply nodup_app in N as (N & _ & _). exact (flat_index _ _ un_ints (IUnit [] [] [] []) us u v ed N Hu Hv H H').
    - apply (u_Ri m us cuts own Dv u Hu) in H. apply (u_Rb m us cuts own Dv v Hv) in H'. lia.
    - apply (u_Ri m us cuts own Dv v Hv) in H'. apply (u_Rb m us cuts own Dv u Hu) in H. lia.
    - exact (flat_index _ _ un_bnds (IUnit [] [] [] []) us u v ed (bnds_once m us cuts own Dv) Hu Hv H H').
  Qed.
  Lemma edge_not_cut : forall u ed, (u < length us)%nat -> In ed (un_ints (the_unit us u) ++ un_bnds (the_unit us u)) -> ~ In ed cuts.
  Proof.
    intros u ed Hu H K. apply in_app_or in H as [H|H].
    - pose proof (ints_once m us cuts own Dv) as N. apply nodup_app in N as (_ & _ & N). apply (N ed); [|exact K]. apply in_flat_map. exists (the_unit us u). split; [exact (unit_in us u Hu)|exact H].
    - apply (u_Rb m us cuts own Dv u Hu) in H. apply (cut_range m us cuts own Dv) in K. lia.
  Qed.
  Lemma join_traces_ok : forall ys, same_on_cuts m us ys -> traces_shared m us own (join_traces ys) ys.
  Proof.
    intros ys SC. split.
    - intros u ed a j Hu H _ _. unfold join_traces. destruct (existsb _ cuts) eqn:E; [exfalso; apply existsb_In in E; exact (edge_not_cut u ed Hu H E)|].
      destruct (unit_of_ok (has_edge ed) u Hu) as (L & K); [unfold has_edge; apply existsb_In; exact H|]. unfold has_edge in K at 1. apply existsb_In in K.
      rewrite (edge_unit u (unit_of (has_edge ed)) ed Hu L H K) at 1. reflexivity.
    - intros u d a j Hu H Ha Hj. unfold join_traces. destruct (existsb _ cuts) eqn:E.
      2:{ exfalso. assert (K : existsb (Nat.eqb (de_edge d)) cuts = true) by (apply existsb_In; exact (d_cut m us cuts own Dv u Hu d H)). congruence. }
      destruct (unit_of_ok (has_half (de_edge d)) u Hu) as (L & K); [unfold has_half; apply existsb_In; apply in_map; exact H|]. unfold has_half in K at 1. apply existsb_In in K.
      apply in_map_iff in K as (d' & E' & H'). rewrite (SC u (unit_of (has_half (de_edge d))) d d' a j Hu L H H' (eq_sym E') Ha Hj). rewrite E'.
      rewrite <- Rmult_assoc, flip_sq. ring.
  Qed.

  Context (Sw : symmetric_weights m) (Sp : symmetric_points m) (Ft : forall ed, In ed cuts -> fits m ed).
  Context (eaux : nat -> nat -> aux3 R) (eauxs : nat -> nat -> nat -> aux3 R) (Ba : baths_shared m us eaux eauxs).
  Context (g dt theta t : R).
  Context (qp rp : nat -> coeffs) (qps rps : nat -> nat -> coeffs) (Hqp : elts_shared m us qp qps) (Hrp : elts_shared m us rp rps).
  Context (q0 qh0 : nat -> coeffs) (q0s qh0s : nat -> nat -> coeffs) (H0 : elts_shared m us q0 q0s) (Hh0 : traces_shared m us own qh0 qh0s).
  Theorem passes_split : forall k q qh, passes m eaux g dt theta t qp rp q0 qh0 k q qh ->
    exists qs qhs, passes_par m us eauxs g dt theta t qps rps q0s qh0s k qs qhs /\ elts_shared m us q qs /\ traces_shared m us own qh qhs.
  Proof.
    intros k q qh P. induction P as [|k q qh s0 dq dqh P (qs & qhs & PP & A & B) S].
    - exists q0s, qh0s. split; [constructor|]. split; assumption.
    - exists (fun u => plus (qs u) dq), (fun u => plus (qhs u) (split_traces dqh u)). split; [|split].
      + apply (passes_par_S m us eauxs g dt theta t qps rps q0s qh0s k qs qhs (fun _ => s0) (fun _ => dq) (split_traces dqh) PP).
        * exact (shared_cuts dqh _ (split_traces_ok dqh)).
        * apply (solves_same m us cuts own Dv Cf Sw Sp Ft eaux eauxs Ba g dt theta t q qh qs qhs A B qp rp qps rps Hqp Hrp s0 (fun _ => s0) dq dqh (fun _ => dq) (split_traces dqh) (split_elts_ok dq) (split_traces_ok dqh)). exact S.
      + apply (elts_plus q qs dq (fun _ => dq) A (split_elts_ok dq)).
      + exact (traces_plus qh qhs dqh (split_traces dqh) B (split_traces_ok dqh)).
  Qed.
  Theorem passes_join : forall k qs qhs, passes_par m us eauxs g dt theta t qps rps q0s qh0s k qs qhs ->
    exists q qh, passes m eaux g dt theta t qp rp q0 qh0 k q qh /\ elts_shared m us q qs /\ traces_shared m us own qh qhs.
  Proof.
    intros k qs qhs P. induction P as [|k qs qhs s0 dqs dqhs P (q & qh & PP & A & B) SC S].
    - exists q0, qh0. split; [constructor|]. split; assumption.
    - exists (plus q (join_elts dqs)), (plus qh (join_traces dqhs)). split; [|split].
      + apply (passes_S m eaux g dt theta t qp rp q0 qh0 k q qh (s0 0%nat) (join_elts dqs) (join_traces dqhs) PP).
        apply (solves_same m us cuts own Dv Cf Sw Sp Ft eaux eauxs Ba g dt theta t q qh qs qhs A B qp rp qps rps Hqp Hrp (s0 0%nat) s0 (join_elts dqs) (join_traces dqhs) dqs dqhs (join_elts_ok dqs) (join_traces_ok dqhs SC)). exact S.
      + exact (elts_plus q qs _ dqs A (join_elts_ok dqs)).
      + exact (traces_plus qh qhs _ dqhs B (join_traces_ok dqhs SC)).
  Qed.
End P.

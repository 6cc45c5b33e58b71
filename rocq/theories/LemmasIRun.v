(** The distributed Newton loop stops after the same pass as the serial one. *)
From Coq Require Import Reals ZArith List Bool Arith Lia Lra Permutation.
From Verif Require Import Num ModelSWE Outcome ModelShape ModelBasis ModelJac ModelStep ModelIHDG SpecComm
  SpecSWE SpecStepper SpecStep SpecIHDG SpecIHDG2
  LemmasSWE LemmasRK LemmasStep LemmasStage LemmasPar2 LemmasIHDG4 LemmasIPar2 LemmasIPar3 LemmasIPar4 LemmasIPar5 LemmasIPar6 LemmasIPar7 LemmasIPar8 LemmasIPar9
  ModelIPar SpecIPar ModelIRun SpecIRun.
Import ListNotations.
Open Scope R_scope.

Lemma sq_lsum : forall v, fold_right (fun x s => x * x + s) 0 v = lsum v (fun x => x * x).
Proof. induction v as [|x v IH]; [reflexivity|]. cbn [fold_right]. rewrite IH. reflexivity. Qed.
Lemma test_ok : forall v, v <> [] -> converged v = true <-> sqrt (lsum v (fun x => x ^ 2)) < 1 / 10 ^ 8 * INR (length v).
Proof.
  intros v N. unfold converged, vec_norm. rewrite sq_lsum. assert (L : 0 < INR (length v)) by (apply lt_0_INR; destruct v; [congruence|cbn; lia]).
  rewrite (lsum_ext _ v (fun x => x * x) (fun x => x ^ 2)) by (intros; ring). set (s := sqrt _). replace (1 / 10 ^ 8) with (1 / 100000000) by (cbn; lra).
  destruct (Rltb_spec (s / INR (length v)) (1 / 100000000)) as [H|H]; split; intros K; try reflexivity; try discriminate.
  - apply (Rmult_lt_compat_r (INR (length v))) in H; [|exact L]. unfold Rdiv in H at 1. rewrite Rmult_assoc, Rinv_l in H by lra. lra.
  - exfalso. apply H. apply (Rmult_lt_reg_r (INR (length v))); [exact L|]. unfold Rdiv at 1. rewrite Rmult_assoc, Rinv_l by lra. lra.
Qed.
Lemma perm_flat_map : forall (A B : Type) (f : A -> list B) l l', Permutation l l' -> Permutation (flat_map f l) (flat_map f l').
Proof. intros A B f l l' P. exact (Permutation_flat_map f P). Qed.
Lemma perm_filter : forall (A : Type) (p : A -> bool) l l', Permutation l l' -> Permutation (filter p l) (filter p l').
Proof.
  intros A p l l' P. induction P as [|x l l' P IH|x y l|l l' l'' P IH P' IH']; cbn [filter].
  - constructor.
  - destruct (p x); [constructor|]; exact IH.
  - destruct (p x), (p y); try apply Permutation_refl. apply perm_swap.
  - exact (Permutation_trans IH IH').
Qed.
Lemma flat_map_app_perm : forall (A B : Type) (f g : A -> list B) l, Permutation (flat_map (fun x => f x ++ g x) l) (flat_map f l ++ flat_map g l).
Proof.
  intros A B f g l. induction l as [|x l IH]; [constructor|]. cbn [flat_map]. rewrite <- !app_assoc. apply Permutation_app_head.
  eapply Permutation_trans; [apply Permutation_app_head; exact IH|]. rewrite !app_assoc. apply Permutation_app_tail. apply Permutation_app_comm.
Qed.
Lemma filter_flat_map : forall (A B : Type) (p : B -> bool) (f : A -> list B) l, filter p (flat_map f l) = flat_map (fun x => filter p (f x)) l.
Proof. intros A B p f l. induction l as [|x l IH]; [reflexivity|]. cbn [flat_map]. rewrite filter_app, IH. reflexivity. Qed.
Lemma map_flat_map : forall (A B C : Type) (h : B -> C) (f : A -> list B) l, map h (flat_map f l) = flat_map (fun x => map h (f x)) l.
Proof. intros A B C h f l. induction l as [|x l IH]; [reflexivity|]. cbn [flat_map]. rewrite map_app, IH. reflexivity. Qed.
Lemma flat_map_nth : forall (A B : Type) (f : A -> list B) (d : A) l, flat_map (fun u => f (nth u l d)) (seq 0 (length l)) = flat_map f l.
Proof.
  intros A B f d l. induction l as [|x l IH]; [reflexivity|]. cbn [length seq flat_map nth]. f_equal. rewrite <- seq_shift, flat_map_concat_map, map_map, <- flat_map_concat_map. exact IH.
Qed.

Lemma flat_map_const : forall (A B : Type) (c : nat) (f : A -> list B) l, (forall x, length (f x) = c) -> length (flat_map f l) = (length l * c)%nat.
Proof. intros A B c f l H. induction l as [|x l IH]; [reflexivity|]. cbn [flat_map length]. rewrite app_length, IH, H. lia. Qed.

Section Stop.
  Context (m : mesh) (us : list iunit) (cuts : list nat) (own : nat -> bool).
  Context (Dv : divides m us cuts own).
  Notation ni := (length (m_intfaces m)).
  Notation nb := (length (m_bounds m)).
  Lemma numbered_once : Permutation (flat_map numbered_by us) (seq 0 (ni + nb)).
  Proof.
    unfold numbered_by. eapply Permutation_trans; [apply flat_map_app_perm|]. eapply Permutation_trans; [apply Permutation_app_head; apply flat_map_app_perm|].
    rewrite seq_app. rewrite app_assoc. eapply Permutation_trans; [apply Permutation_app_comm|]. rewrite app_assoc.
    eapply Permutation_trans; [|apply Permutation_app; [exact (dv_ints _ _ _ _ Dv)|exact (dv_bnds _ _ _ _ Dv)]]. 
    apply Permutation_app_tail. eapply Permutation_trans; [apply Permutation_app_comm|]. apply Permutation_app_head.
    assert (E : forall l, map de_edge (filter de_ccw (flat_map (halves m own) l)) = l).
    { induction l as [|k l IH]; [reflexivity|]. cbn [flat_map]. rewrite filter_app, map_app, IH. unfold halves. cbn [filter de_ccw]. destruct (own k); reflexivity. }
    rewrite <- (E cuts). rewrite <- (map_flat_map _ _ _ de_edge (fun x => filter de_ccw (un_dist x))), <- filter_flat_map. apply Permutation_map. apply perm_filter. exact (dv_dist _ _ _ _ Dv).
  Qed.
  Lemma entries_len : forall f, length (edge_entries m f) = (S (m_p m) * 3)%nat.
  Proof. intros f. unfold edge_entries. rewrite (flat_map_const _ _ 3 (fun j => map (fun a => f a j) (seq 0 3))) by reflexivity. rewrite seq_length. reflexivity. Qed.
  Context (dqh : nat -> coeffs) (dqhs : nat -> nat -> coeffs) (Hd : traces_shared m us own dqh dqhs).
  Lemma entries_same : forall u k, (u < length us)%nat -> In k (numbered_by (the_unit us u)) ->
    lsum (edge_entries m (dqhs u k)) (fun x => x * x) = lsum (edge_entries m (dqh k)) (fun x => x * x).
  Proof.
    intros u k Hu Hk. unfold edge_entries. rewrite !lsum_flat_map. apply lsum_ext. intros j Hj. rewrite !lsum_map. apply lsum_ext. intros a Ha. apply in_seq in Hj, Ha.
    unfold numbered_by in Hk. rewrite app_assoc in Hk. apply in_app_or in Hk as [Hk|Hk].
    - rewrite (proj1 Hd u k a j Hu Hk) by lia. reflexivity.
    - apply in_map_iff in Hk as (d & <- & Hk). apply filter_In in Hk as (Hk & _). rewrite (proj2 Hd u d a j Hu Hk) by lia.
      pose proof (flip_sq own (de_edge d) j) as F. transitivity (flip own (de_edge d) j * flip own (de_edge d) j * (dqh (de_edge d) a j * dqh (de_edge d) a j)); [ring|rewrite F; ring].
  Qed.
  Lemma vectors_same : vec_norm (par_vector m us dqhs) = vec_norm (serial_vector m dqh) /\ length (par_vector m us dqhs) = length (serial_vector m dqh).
  Proof.
    split.
    - unfold vec_norm. f_equal. rewrite !sq_lsum. unfold par_vector, serial_vector. rewrite !lsum_flat_map.
      rewrite <- (lsum_perm _ _ _ _ numbered_once). rewrite <- (flat_map_nth _ _ numbered_by (IUnit [] [] [] []) us), lsum_flat_map.
      apply lsum_ext. intros u Hu. apply in_seq in Hu. rewrite lsum_flat_map. apply lsum_ext. intros k Hk. apply entries_same; [lia|exact Hk].
    - unfold par_vector, serial_vector.
      rewrite (flat_map_const _ _ (S (m_p m) * 3) (fun k => edge_entries m (dqh k))) by (intros; apply entries_len). rewrite <- (Permutation_length numbered_once).
      rewrite <- (flat_map_nth _ _ numbered_by (IUnit [] [] [] []) us). induction (seq 0 (length us)) as [|u l IH]; [reflexivity|]. cbn [flat_map]. rewrite !app_length.
      rewrite (flat_map_const _ _ (S (m_p m) * 3) (fun k => edge_entries m (dqhs u k))) by (intros; apply entries_len). rewrite IH. lia.
  Qed.
  Theorem stop_same : converged (par_vector m us dqhs) = converged (serial_vector m dqh).
  Proof. unfold converged. destruct vectors_same as (-> & ->). reflexivity. Qed.
End Stop.

Section Loops.
  Context (m : mesh) (us : list iunit) (cuts : list nat) (own : nat -> bool).
  Context (Dv : divides m us cuts own) (Cf : conforming m) (Sw : symmetric_weights m) (Sp : symmetric_points m) (Ft : forall ed, In ed cuts -> fits m ed).
  Context (eaux : nat -> nat -> aux3 R) (eauxs : nat -> nat -> nat -> aux3 R) (Ba : baths_shared m us eaux eauxs).
  Context (g dt theta : R).
  Section One.
    Context (t : R) (qp rp : nat -> coeffs) (qps rps : nat -> nat -> coeffs) (Hqp : elts_shared m us qp qps) (Hrp : elts_shared m us rp rps).
    Theorem loop_split : forall n q qh q' qh', loop m eaux g dt theta t qp rp n q qh q' qh' -> forall qs qhs, elts_shared m us q qs -> traces_shared m us own qh qhs ->
      exists qs' qhs', loop_par m us eauxs g dt theta t qps rps n qs qhs qs' qhs' /\ elts_shared m us q' qs' /\ traces_shared m us own qh' qhs'.
    Proof.
      intros n q qh q' qh' P. induction P as [q qh|n q qh s0 dq dqh SS C|n q qh s0 dq dqh q' qh' SS C P IH]; intros qs qhs A B.
      - exists qs, qhs. split; [constructor|]. split; assumption.
      - exists (fun u => plus (qs u) dq), (fun u => plus (qhs u) (split_traces us own dqh u)). split; [|split].
        + apply (loop_par_stop m us eauxs g dt theta t qps rps n qs qhs (fun _ => s0) (fun _ => dq) (split_traces us own dqh)).
          * exact (shared_cuts m us own dqh _ (split_traces_ok m us cuts own Dv dqh)).
          * apply (solves_same m us cuts own Dv Cf Sw Sp Ft eaux eauxs Ba g dt theta t q qh qs qhs A B qp rp qps rps Hqp Hrp s0 (fun _ => s0) dq dqh (fun _ => dq) (split_traces us own dqh) (split_elts_ok m us dq) (split_traces_ok m us cuts own Dv dqh)). exact SS.
          * rewrite (stop_same m us cuts own Dv dqh _ (split_traces_ok m us cuts own Dv dqh)). exact C.
        + apply (elts_plus m us q qs dq (fun _ => dq) A (split_elts_ok m us dq)).
        + exact (traces_plus m us own qh qhs dqh (split_traces us own dqh) B (split_traces_ok m us cuts own Dv dqh)).
      - destruct (IH (fun u => plus (qs u) dq) (fun u => plus (qhs u) (split_traces us own dqh u)) (elts_plus m us q qs dq (fun _ => dq) A (split_elts_ok m us dq)) (traces_plus m us own qh qhs dqh (split_traces us own dqh) B (split_traces_ok m us cuts own Dv dqh))) as (qs' & qhs' & L & E & T).
        exists qs', qhs'. split; [|split; assumption]. apply (loop_par_go m us eauxs g dt theta t qps rps n qs qhs (fun _ => s0) (fun _ => dq) (split_traces us own dqh)).
        + exact (shared_cuts m us own dqh _ (split_traces_ok m us cuts own Dv dqh)).
        + apply (solves_same m us cuts own Dv Cf Sw Sp Ft eaux eauxs Ba g dt theta t q qh qs qhs A B qp rp qps rps Hqp Hrp s0 (fun _ => s0) dq dqh (fun _ => dq) (split_traces us own dqh) (split_elts_ok m us dq) (split_traces_ok m us cuts own Dv dqh)). exact SS.
        + rewrite (stop_same m us cuts own Dv dqh _ (split_traces_ok m us cuts own Dv dqh)). exact C.
        + exact L.
    Qed.
    Theorem loop_join : forall n qs qhs qs' qhs', loop_par m us eauxs g dt theta t qps rps n qs qhs qs' qhs' -> forall q qh, elts_shared m us q qs -> traces_shared m us own qh qhs ->
      exists q' qh', loop m eaux g dt theta t qp rp n q qh q' qh' /\ elts_shared m us q' qs' /\ traces_shared m us own qh' qhs'.
    Proof.
      intros n qs qhs qs' qhs' P. induction P as [qs qhs|n qs qhs s0 dqs dqhs SC SS C|n qs qhs s0 dqs dqhs qs' qhs' SC SS C P IH]; intros q qh A B.
      - exists q, qh. split; [constructor|]. split; assumption.
      - exists (plus q (join_elts us dqs)), (plus qh (join_traces us cuts own dqhs)). split; [|split].
        + apply (loop_stop m eaux g dt theta t qp rp n q qh (s0 0%nat) (join_elts us dqs) (join_traces us cuts own dqhs)).
          * apply (solves_same m us cuts own Dv Cf Sw Sp Ft eaux eauxs Ba g dt theta t q qh qs qhs A B qp rp qps rps Hqp Hrp (s0 0%nat) s0 (join_elts us dqs) (join_traces us cuts own dqhs) dqs dqhs (join_elts_ok m us cuts own Dv dqs) (join_traces_ok m us cuts own Dv dqhs SC)). exact SS.
          * rewrite <- (stop_same m us cuts own Dv _ dqhs (join_traces_ok m us cuts own Dv dqhs SC)). exact C.
        + exact (elts_plus m us q qs _ dqs A (join_elts_ok m us cuts own Dv dqs)).
        + exact (traces_plus m us own qh qhs _ dqhs B (join_traces_ok m us cuts own Dv dqhs SC)).
      - destruct (IH (plus q (join_elts us dqs)) (plus qh (join_traces us cuts own dqhs)) (elts_plus m us q qs _ dqs A (join_elts_ok m us cuts own Dv dqs)) (traces_plus m us own qh qhs _ dqhs B (join_traces_ok m us cuts own Dv dqhs SC))) as (q' & qh' & L & E & T).
        exists q', qh'. split; [|split; assumption]. apply (loop_go m eaux g dt theta t qp rp n q qh (s0 0%nat) (join_elts us dqs) (join_traces us cuts own dqhs)).
        + apply (solves_same m us cuts own Dv Cf Sw Sp Ft eaux eauxs Ba g dt theta t q qh qs qhs A B qp rp qps rps Hqp Hrp (s0 0%nat) s0 (join_elts us dqs) (join_traces us cuts own dqhs) dqs dqhs (join_elts_ok m us cuts own Dv dqs) (join_traces_ok m us cuts own Dv dqhs SC)). exact SS.
        + rewrite <- (stop_same m us cuts own Dv _ dqhs (join_traces_ok m us cuts own Dv dqhs SC)). exact C.
        + exact L.
    Qed.
  End One.
  Context (order2 : bool) (tm : nat -> R).
  Lemma prev_shared : forall q qh qs qhs t, elts_shared m us q qs -> traces_shared m us own qh qhs ->
    elts_shared m us (init_rhs_prev m eaux g order2 t q qh) (fun u => unit_rhs_prev m (eauxs u) g (the_unit us u) order2 t (qs u) (qhs u)).
  Proof. intros q qh qs qhs t A B u e a i Hu He Ha Hi. apply (same_rhs_prev m us cuts own Dv Cf Sp Ft eaux eauxs Ba g t q qh qs qhs A B u Hu order2 e a i He Ha Hi). Qed.
  Context (q0 qh0 : nat -> coeffs) (q0s qh0s : nat -> nat -> coeffs) (H0 : elts_shared m us q0 q0s) (Hh0 : traces_shared m us own qh0 qh0s).
  Theorem run_split : forall k q qh, run m eaux g dt theta order2 tm q0 qh0 k q qh ->
    exists qs qhs, run_par m us eauxs g dt theta order2 tm q0s qh0s k qs qhs /\ elts_shared m us q qs /\ traces_shared m us own qh qhs.
  Proof.
    intros k q qh P. induction P as [|k q qh q' qh' P (qs & qhs & PP & A & B) L].
    - exists q0s, qh0s. split; [constructor|]. split; assumption.
    - destruct (loop_split (tm (S k)) q _ qs _ A (prev_shared q qh qs qhs (tm k) A B) 100 q qh q' qh' L qs qhs A B) as (qs' & qhs' & L' & A' & B').
      exists qs', qhs'. split; [|split; assumption]. exact (run_par_S m us eauxs g dt theta order2 tm q0s qh0s k qs qhs qs' qhs' PP L').
  Qed.
  Theorem run_join : forall k qs qhs, run_par m us eauxs g dt theta order2 tm q0s qh0s k qs qhs ->
    exists q qh, run m eaux g dt theta order2 tm q0 qh0 k q qh /\ elts_shared m us q qs /\ traces_shared m us own qh qhs.
  Proof.
    intros k qs qhs P. induction P as [|k qs qhs qs' qhs' P (q & qh & PP & A & B) L].
    - exists q0, qh0. split; [constructor|]. split; assumption.
    - destruct (loop_join (tm (S k)) q _ qs _ A (prev_shared q qh qs qhs (tm k) A B) 100 qs qhs qs' qhs' L q qh A B) as (q' & qh' & L' & A' & B').
      exists q', qh'. split; [|split; assumption]. exact (run_S m eaux g dt theta order2 tm q0 qh0 k q qh q' qh' PP L').
  Qed.
End Loops.

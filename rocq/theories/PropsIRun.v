(** Property theorems: the stopping test and whole runs of the distributed implicit HDG
    solver (C66). *)
From Coq Require Import Reals ZArith List Bool Arith Lra Lia Permutation.
From Verif Require Import Num ModelSWE Outcome ModelShape ModelBasis ModelJac ModelStep ModelIHDG SpecComm
  SpecSWE SpecShape SpecStepper SpecStep SpecIHDG SpecIHDG2 LemmasPar6 PropsStep
  ModelIPar SpecIPar PropsIPar ModelIRun SpecIRun LemmasIRun.
Import ListNotations.
Open Scope R_scope.

(** Every edge of the mesh is numbered by one unit, cuts included. *)
Theorem C66_numbered : forall m us cuts own, divides m us cuts own ->
  Permutation (flat_map numbered_by us) (seq 0 (length (m_intfaces m) + length (m_bounds m))).
Proof. exact numbered_once. Qed.
Print Assumptions C66_numbered.
(** The vectors of increments have the same length and norm, so the test for convergence
    has the same result. *)
Theorem C66_vectors : forall m us cuts own, divides m us cuts own -> forall dqh dqhs, traces_shared m us own dqh dqhs ->
  vec_norm (par_vector m us dqhs) = vec_norm (serial_vector m dqh) /\ length (par_vector m us dqhs) = length (serial_vector m dqh).
Proof. exact vectors_same. Qed.
Print Assumptions C66_vectors.
Theorem C66_stop : forall m us cuts own, divides m us cuts own -> forall dqh dqhs, traces_shared m us own dqh dqhs ->
  converged (par_vector m us dqhs) = converged (serial_vector m dqh).
Proof. exact stop_same. Qed.
Print Assumptions C66_stop.

(** The test: the Euclidean norm is below 1e-8 times the number of unknowns. *)
Theorem C66_test : forall v, v <> [] -> converged v = true <-> sqrt (lsum v (fun x => x ^ 2)) < 1 / 10 ^ 8 * INR (length v).
Proof. exact test_ok. Qed.
Print Assumptions C66_test.

(** The loop with its test: both stop after the same pass with the same states. *)
Theorem C66_loop_split : forall m us cuts own, divides m us cuts own -> conforming m -> symmetric_weights m -> symmetric_points m -> (forall ed, In ed cuts -> fits m ed) ->
  forall eaux eauxs, baths_shared m us eaux eauxs -> forall g dt theta t qp rp qps rps, elts_shared m us qp qps -> elts_shared m us rp rps ->
  forall n q qh q' qh', loop m eaux g dt theta t qp rp n q qh q' qh' -> forall qs qhs, elts_shared m us q qs -> traces_shared m us own qh qhs ->
  exists qs' qhs', loop_par m us eauxs g dt theta t qps rps n qs qhs qs' qhs' /\ elts_shared m us q' qs' /\ traces_shared m us own qh' qhs'.
Proof. exact loop_split. Qed.
Print Assumptions C66_loop_split.
Theorem C66_loop_join : forall m us cuts own, divides m us cuts own -> conforming m -> symmetric_weights m -> symmetric_points m -> (forall ed, In ed cuts -> fits m ed) ->
  forall eaux eauxs, baths_shared m us eaux eauxs -> forall g dt theta t qp rp qps rps, elts_shared m us qp qps -> elts_shared m us rp rps ->
  forall n qs qhs qs' qhs', loop_par m us eauxs g dt theta t qps rps n qs qhs qs' qhs' -> forall q qh, elts_shared m us q qs -> traces_shared m us own qh qhs ->
  exists q' qh', loop m eaux g dt theta t qp rp n q qh q' qh' /\ elts_shared m us q' qs' /\ traces_shared m us own qh' qhs'.
Proof. exact loop_join. Qed.
Print Assumptions C66_loop_join.

(** Any number of time steps. *)
Theorem C66_run_split : forall m us cuts own, divides m us cuts own -> conforming m -> symmetric_weights m -> symmetric_points m -> (forall ed, In ed cuts -> fits m ed) ->
  forall eaux eauxs, baths_shared m us eaux eauxs -> forall g dt theta order2 tm q0 qh0 q0s qh0s, elts_shared m us q0 q0s -> traces_shared m us own qh0 qh0s ->
  forall k q qh, run m eaux g dt theta order2 tm q0 qh0 k q qh ->
  exists qs qhs, run_par m us eauxs g dt theta order2 tm q0s qh0s k qs qhs /\ elts_shared m us q qs /\ traces_shared m us own qh qhs.
Proof. exact run_split. Qed.
Print Assumptions C66_run_split.
Theorem C66_run_join : forall m us cuts own, divides m us cuts own -> conforming m -> symmetric_weights m -> symmetric_points m -> (forall ed, In ed cuts -> fits m ed) ->
  forall eaux eauxs, baths_shared m us eaux eauxs -> forall g dt theta order2 tm q0 qh0 q0s qh0s, elts_shared m us q0 q0s -> traces_shared m us own qh0 qh0s ->
  forall k qs qhs, run_par m us eauxs g dt theta order2 tm q0s qh0s k qs qhs ->
  exists q qh, run m eaux g dt theta order2 tm q0 qh0 k q qh /\ elts_shared m us q qs /\ traces_shared m us own qh qhs.
Proof. exact run_join. Qed.
Print Assumptions C66_run_join.

(** Two triangles: the cut (edge 0) is numbered by unit 0 or unit 1.  An increment of the
    traces with entries 3 and 4 (degree 1) on the cut only, 30 unknowns in all: norm 5 in
    both codes though the signs differ, and the loop goes on. *)
Example C66_ex_numbered : map numbered_by (two_units true) = [[1; 2; 0]; [3; 4]]%nat /\ map numbered_by (two_units false) = [[1; 2]; [3; 4; 0]]%nat.
Proof. split; reflexivity. Qed.
Definition cut_inc (s : R) : nat -> coeffs := fun k a j => match k, a, j with 0%nat, 0%nat, 1%nat => 3 * s | 0%nat, 1%nat, 1%nat => 4 * s | _, _, _ => 0 end.
Example C66_ex_stop : traces_shared two (two_units false) (fun _ => false) (cut_inc 1) (fun _ => cut_inc (-1)) /\
  length (par_vector two (two_units false) (fun _ => cut_inc (-1))) = 30%nat /\ vec_norm (par_vector two (two_units false) (fun _ => cut_inc (-1))) = 5 /\
  converged (serial_vector two (cut_inc 1)) = false /\ converged (serial_vector two (cut_inc 0)) = true.
Proof.
  assert (N : forall s, vec_norm (serial_vector two (cut_inc s)) = 5 * Rabs s /\ length (serial_vector two (cut_inc s)) = 30%nat).
  { intros s. split; [|reflexivity]. unfold vec_norm. cbn. rewrite <- (sqrt_Rsqr (5 * Rabs s)) by (pose proof (Rabs_pos s); lra). f_equal. unfold Rsqr.
    transitivity (25 * (s * s)); [ring|]. rewrite <- (Rabs_pos_eq (s * s)) by nra. rewrite Rabs_mult. ring. }
  assert (T : traces_shared two (two_units false) (fun _ => false) (cut_inc 1) (fun _ => cut_inc (-1))).
  { split.
    - intros u k a j Hu Hk Ha Hj. cbn in Hu. assert (k <> 0%nat) by (destruct u as [|[|u]]; cbn in Hk; intuition lia). destruct k; [lia|reflexivity].
    - intros u d a j Hu Hd Ha Hj. cbn in Hu, Hj. assert (E : de_edge d = 0%nat) by (destruct u as [|[|u]]; cbn in Hd; destruct Hd as [<-|[]] || lia; reflexivity). rewrite E. unfold flip, cut_inc.
      destruct a as [|[|a]], j as [|[|j]]; try lia; cbn; ring. }
  split; [exact T|]. split; [reflexivity|]. split.
  - rewrite (proj1 (C66_vectors two (two_units false) [0%nat] (fun _ => false) (proj1 (two_ok false)) _ _ T)), (proj1 (N 1)), Rabs_R1. ring.
  - unfold converged. rewrite !(proj1 (N _)), !(proj2 (N _)), Rabs_R1, Rabs_R0. split; [apply Rltb_false|apply Rltb_true]; simpl; lra.
Qed.

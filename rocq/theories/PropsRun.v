(** Properties of run control: C20, C22, C23, C24, C35. *)
From Coq Require Import ZArith NArith List Bool Arith Reals String Ascii Lia Lra.
From Verif Require Import Num Outcome ModelStepper ModelRun SpecRun LemmasRun LemmasRun2 LemmasRun3.
Import ListNotations.

(** ** C20 *)
Theorem C20_partner_tags_match : forall a b, send_tag a b = receive_tag b a.
Proof. exact (fun a b => eq_refl). Qed.
Print Assumptions C20_partner_tags_match.

Theorem C20_tags_distinct : forall a b a' b', (a < 256)%N -> (b < 256)%N -> (a' < 256)%N -> (b' < 256)%N ->
  send_tag a b = send_tag a' b' -> a = a' /\ b = b'.
Proof. exact tag_injective. Qed.
Print Assumptions C20_tags_distinct.

Theorem C20_tag_value : forall a b, (a < 2 ^ 16)%N -> (b < 256)%N -> send_tag a b = (256 * a + b)%N.
Proof. intros a b Ha Hb. rewrite tag_value by assumption. lia. Qed.
Print Assumptions C20_tag_value.

Theorem C20_collision_refuted : exists a b a' b', (a <= 256)%N /\ (b <= 256)%N /\ (a' <= 256)%N /\ (b' <= 256)%N /\
  (a, b) <> (a', b') /\ send_tag a b = send_tag a' b'.
Proof. exists 1%N, 0%N, 0%N, 256%N. repeat split; try lia. discriminate. Qed.
Print Assumptions C20_collision_refuted.

(** The only tag range every MPI implementation must provide ends at 32767. *)
Theorem C20_portable_range_refuted : exists a b, (a < 256)%N /\ (b < 256)%N /\ (32767 < send_tag a b)%N.
Proof. exists 128%N, 0%N. repeat split; reflexivity. Qed.
Print Assumptions C20_portable_range_refuted.

Example tag_ex : send_tag 3 7 = 775%N /\ receive_tag 3 7 = 1795%N /\ send_tag 7 3 = 1795%N.
Proof. vm_compute. auto. Qed.

(** ** C22 *)
Theorem C22_each_unit_one_thread : forall n T, (T <> 0)%N -> (T < two32)%N -> (n + T <= two32)%N ->
  (forall id u, (id < T)%N -> in_range (begin_sim_id n T id) (end_sim_id n T id) u -> (u < n)%N) /\
  (forall u, (u < n)%N -> exists id, (id < T)%N /\ in_range (begin_sim_id n T id) (end_sim_id n T id) u /\
     forall id', (id' < T)%N -> in_range (begin_sim_id n T id') (end_sim_id n T id') u -> id' = id).
Proof. exact threads_cover. Qed.
Print Assumptions C22_each_unit_one_thread.

Example threads_ex : map (fun id => (begin_sim_id 5 4 id, end_sim_id 5 4 id)) [0; 1; 2; 3]%N = [(0, 2); (2, 4); (4, 5); (6, 5)]%N.
Proof. vm_compute. reflexivity. Qed.

(** ** C23 *)
Theorem C23_least_cover : forall x dt n, (0 < dt)%R -> (0 <= x)%R -> steps_for x dt = Ok n -> least_cover x dt n.
Proof. exact steps_cover. Qed.
Print Assumptions C23_least_cover.

Theorem C23_defined : forall x dt, (0 < dt)%R -> (0 <= x)%R -> (x <= (2 ^ 32 - 1) * dt)%R -> exists n, steps_for x dt = Ok n.
Proof. exact steps_defined. Qed.
Print Assumptions C23_defined.

Theorem C23_positive : forall x dt n, (0 < dt)%R -> (0 < x)%R -> steps_for x dt = Ok n -> (0 < n)%N.
Proof. exact steps_positive. Qed.
Print Assumptions C23_positive.

Theorem C23_output_schedule : forall n_stages order dt has_ramp ramp n f, (n_stages <> 0)%nat -> (f <> 0)%nat ->
  run_outputs n (N.of_nat f) (stepper_init n_stages order dt has_ramp ramp) =
  Ok (map (fun j => (j * f)%nat) (seq 0 (S (n / f)))).
Proof.
  intros ns p dt hr rd n f Hn Hf. rewrite run_outputs_filter by (try assumption; lia). rewrite schedule_multiples by assumption. reflexivity.
Qed.
Print Assumptions C23_output_schedule.

Theorem C23_zero_period_refuted : exists period dt freq, (0 <= period)%R /\ (0 < dt)%R /\ steps_for period dt = Ok freq /\
  forall n s, run_outputs n freq s = UB.
Proof. exists 0%R, 1%R, 0%N. destruct zero_period. repeat split; try lra; assumption. Qed.
Print Assumptions C23_zero_period_refuted.

Example steps_ex : steps_for 10 3 = Ok 4%N.
Proof.
  unfold steps_for. destruct (Req_EM_T 3 0); [lra|].
  rewrite (ceilR_unique (10 / 3) 4) by (split; lra). reflexivity.
Qed.
Example outputs_ex : run_outputs 7 3 (stepper_init 2 2 1%R false 0%R) = Ok [0; 3; 6]%nat.
Proof. apply (C23_output_schedule 2 2 1%R false 0%R 7 3); discriminate. Qed.

(** ** C24 *)
Theorem C24_names_agree : forall mesh l m,
  run_mesh_file (updated_mesh_name mesh) l m = Ok (partitioner_mesh_file mesh l m) /\
  run_dbmd_file (updated_mesh_name mesh) l m = Ok (partitioner_dbmd_file mesh l m) /\
  probe_file (updated_mesh_name mesh) l m = Ok (partitioner_mesh_file mesh l m) /\
  bcis_file (updated_mesh_name mesh) = bcis_file mesh.
Proof. exact names_agree. Qed.
Print Assumptions C24_names_agree.

Theorem C24_names_distinct : forall mesh l m l' m',
  (partitioner_mesh_file mesh l m = partitioner_mesh_file mesh l' m' -> l = l' /\ m = m') /\
  (partitioner_dbmd_file mesh l m = partitioner_dbmd_file mesh l' m' -> l = l' /\ m = m') /\
  partitioner_mesh_file mesh l m <> partitioner_dbmd_file mesh l' m'.
Proof. exact names_distinct. Qed.
Print Assumptions C24_names_distinct.

(** In a directory that holds the files of one partition, locality l starts
    exactly the submeshes written for it. *)
Theorem C24_finds_all_submeshes : forall mesh localities counts l, (l < localities)%nat ->
  find_units (S (counts l)) (mem (written mesh localities counts)) (updated_mesh_name mesh) (N.of_nat l) 0 =
  Ok (map N.of_nat (seq 0 (counts l))).
Proof. exact run_finds_partition. Qed.
Print Assumptions C24_finds_all_submeshes.

(** Files left over from an earlier partition into more submeshes are started as well. *)
Theorem C24_stale_files_refuted : exists mesh (older newer : nat -> nat),
  find_units 5 (mem (written mesh 1 newer ++ written mesh 1 older)) (updated_mesh_name mesh) 0 0 <>
  Ok (map N.of_nat (seq 0 (newer 0%nat))).
Proof. exists "m.14"%string, (fun _ => 3%nat), (fun _ => 2%nat). vm_compute. discriminate. Qed.
Print Assumptions C24_stale_files_refuted.

(** A name without a dot makes a parallel run throw instead of opening a file. *)
Theorem C24_name_without_dot : forall mesh l m, no_char "." mesh ->
  run_mesh_file mesh l m = Throw /\ probe_file mesh l m = Throw.
Proof.
  intros mesh l m H. unfold run_mesh_file, insert_at_dot, probe_file. rewrite last_dot_none by assumption. auto.
Qed.
Print Assumptions C24_name_without_dot.

(** Output files of different steps have different names. *)
Theorem C24_output_names_distinct : forall path name ext k k', (forall c r, ext = String c r -> ~ is_digit c) ->
  output_file path name ext k = output_file path name ext k' -> k = k'.
Proof. exact output_names_distinct. Qed.
Print Assumptions C24_output_names_distinct.

Example names_ex : partitioner_mesh_file "dir.v2/a_1.14" 3 12 = "dir.v2/a_1_3_12.meta"%string /\
  run_dbmd_file (updated_mesh_name "dir.v2/a_1.14") 3 12 = Ok "dir.v2/a_1_3_12.dbmd"%string.
Proof. vm_compute. auto. Qed.

(** ** C35 *)
Theorem C35_forcing_available : forall files freq dt nodes n n_stages time,
  (freq <> 0)%N -> (0 < dt)%R -> (N.of_nat n + freq <= two32)%N -> (n_stages <> 0)%nat -> files_complete files freq nodes n ->
  exists st v, meteo_run files freq dt nodes (run_calls n n_stages time) = Ok (st, v) /\
    Forall2 (forcing_ok files freq dt nodes) (run_calls n n_stages time) v /\
    exists j, forall k, st k <> None -> (k = j * freq \/ k = j * freq + freq)%N.
Proof. exact meteo_run_ok. Qed.
Print Assumptions C35_forcing_available.

Theorem C35_between_snapshots : forall freq dt j step t a b y, (freq <> 0)%N -> (0 < dt)%R ->
  (j * freq <= step < j * freq + freq)%N -> (NtoR step * dt <= t <= NtoR (step + 1) * dt)%R ->
  on_line (NtoR (j * freq) * dt) a (NtoR (j * freq + freq) * dt) b t y ->
  between a y b /\ (t = (NtoR (j * freq) * dt)%R -> y = a) /\ (t = (NtoR (j * freq + freq) * dt)%R -> y = b).
Proof.
  intros freq dt j step t a b y Hf Hd Hj Ht L.
  assert (T : (NtoR (j * freq) * dt < NtoR (j * freq + freq) * dt)%R).
  { apply Rmult_lt_compat_r; [assumption|]. rewrite NtoR_add. pose proof (NtoR_pos freq Hf). lra. }
  destruct (on_line_between _ _ _ _ _ _ T L) as (A & B & C). split; [|split; assumption].
  apply C. apply (stage_in_window freq dt j step); assumption.
Qed.
Print Assumptions C35_between_snapshots.

Theorem C35_missing_file_stops : forall files freq dt nodes n n_stages time m,
  (freq <> 0)%N -> (0 < dt)%R -> (N.of_nat n + freq <= two32)%N -> (n_stages <> 0)%nat ->
  (m < n)%nat -> (N.of_nat m mod freq = 0)%N -> files_complete files freq nodes m ->
  files (N.of_nat m + freq)%N = None \/ (m = 0%nat /\ files 0%N = None) ->
  meteo_run files freq dt nodes (run_calls n n_stages time) = Throw.
Proof. exact meteo_missing_file. Qed.
Print Assumptions C35_missing_file_stops.

(** A file that lacks one of the nodes is not reported: an empty vector is read. *)
Theorem C35_missing_node_refuted : exists files freq dt nodes time,
  (forall k, files k <> None) /\ meteo_run files freq dt nodes (run_calls 1 1 time) = UB.
Proof.
  exists (fun _ => Some [(1%N, Met 0 0 0)]), 1%N, 1%R, [1%N; 2%N], (fun _ _ => 0%R).
  split; [discriminate | reflexivity].
Qed.
Print Assumptions C35_missing_node_refuted.

Theorem C35_zero_frequency_undefined : forall files dt nodes n n_stages time, (n <> 0)%nat -> (n_stages <> 0)%nat ->
  meteo_run files 0 dt nodes (run_calls n n_stages time) = UB.
Proof.
  intros files dt nodes n ns time Hn Hs. destruct n as [|n]; [contradiction|]. destruct ns as [|ns]; [contradiction|]. reflexivity.
Qed.
Print Assumptions C35_zero_frequency_undefined.

Definition meteo_ex_files (k : N) : option (list (N * reading)) :=
  Some [(4%N, Met (IZR (Z.of_N k)) 1 0); (9%N, Met 0 0 (IZR (Z.of_N k)))].
Example meteo_ex_complete : files_complete meteo_ex_files 2 [9%N; 4%N] 5.
Proof.
  intros j _. eexists. split; [reflexivity|]. intros v [<-|[<-|[]]].
  - eexists. exists [(4%N, Met (IZR (Z.of_N (j * 2))) 1 0)], []. split; [reflexivity | intros ? []].
  - eexists. exists [], [(9%N, Met 0 0 (IZR (Z.of_N (j * 2))))]. split; [reflexivity|]. intros x [<-|[]]. discriminate.
Qed.
Example meteo_ex : exists st v, meteo_run meteo_ex_files 2 1 [9%N; 4%N] (run_calls 5 2 (fun k i => INR k + INR i)%R) = Ok (st, v) /\
  Forall2 (forcing_ok meteo_ex_files 2 1 [9%N; 4%N]) (run_calls 5 2 (fun k i => INR k + INR i)%R) v.
Proof.
  destruct (C35_forcing_available meteo_ex_files 2 1 [9%N; 4%N] 5 2 (fun k i => INR k + INR i)%R) as (st & v & E & F & _);
    [discriminate | lra | unfold two32; lia | discriminate | exact meteo_ex_complete |].
  exists st, v. auto.
Qed.

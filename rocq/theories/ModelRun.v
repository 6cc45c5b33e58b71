(** Run control: number of steps, output schedule, thread split, MPI tags, file
    names of partitioned runs, meteorological input. *)
From Coq Require Import ZArith NArith List Bool Arith Reals String Ascii DecimalString.
From Verif Require Import Num Outcome ModelStepper.
Import ListNotations.

Definition two32 : N := (2 ^ 32)%N.

(** ** MPI tags: source/communication/ompi_communicator.cpp lines 12-15.
    The cast to unsigned short keeps 16 bits; the shift and the bitwise or are
    done in int and cannot overflow. *)
Definition ushort (x : N) : N := (x mod 2 ^ 16)%N.
Definition send_tag (submesh_in submesh_ex : N) : N :=
  N.lor (N.shiftl (ushort submesh_in) 8) (ushort submesh_ex).
Definition receive_tag (submesh_in submesh_ex : N) : N :=
  N.lor (N.shiftl (ushort submesh_ex) 8) (ushort submesh_in).

(** ** Thread split: source/simulation/ompi/simulation_ompi.hpp lines 68-73.
    [n] is sim_units.size() (size_t), the other variables are 32-bit. *)
Definition uint32 (x : N) : N := (x mod two32)%N.
Definition sim_per_thread (n n_threads : N) : N := uint32 ((n + n_threads - 1) / n_threads).
Definition begin_sim_id (n n_threads thread_id : N) : N := uint32 (sim_per_thread n n_threads * thread_id).
Definition end_sim_id (n n_threads thread_id : N) : N :=
  N.min (uint32 (sim_per_thread n n_threads * (uint32 (thread_id + 1)))) (uint32 n).

(** ** Step counts: source/simulation/serial/simulation.hpp line 47,
    simulation_ompi.hpp line 37, source/preprocessor/input_parameters.hpp lines
    229-230, 241-242, 253-254: (uint)std::ceil(x / dt).  A quotient that is not
    finite or does not fit into uint makes the conversion undefined. *)
Definition ceilR (x : R) : Z := (1 - up (- x))%Z.
Definition steps_for (x dt : R) : outcome N :=
  if Req_EM_T dt 0 then UB else
  let z := ceilR (x / dt) in
  if (0 <=? z)%Z && (z <? 2 ^ 32)%Z then Ok (Z.to_N z) else UB.

(** ** Output: source/simulation/writer.hpp, the guards of lines 123, 153 and
    190 ("step % frequency == 0"; modulo zero is undefined), the call from
    WriteFirstStep (line 117), and Simulation::Run (simulation.hpp lines 66-82)
    with step_serial (rkdg_swe_proc_serial_step.hpp lines 15-27): a step runs
    all stages, each ending in ++stepper, and then offers output.  Returns the
    steps at which one kind of output is written. *)
Definition write_guard (freq step : N) : outcome bool :=
  if (freq =? 0)%N then UB else Ok ((step mod freq =? 0)%N).
Definition offer_output (freq : N) (s : stepper) (out : list nat) : outcome (list nat) :=
  do w <- write_guard freq (N.of_nat (st_step s)) ;
  Ok (if w then out ++ [st_step s] else out).
Definition run_one_step (freq : N) (st : stepper * list nat) (_ : nat) : outcome (stepper * list nat) :=
  let s := Nat.iter (st_nstages (fst st)) stepper_incr (fst st) in
  do out <- offer_output freq s (snd st) ;
  Ok (s, out).
Definition run_outputs (n_steps : nat) (freq : N) (s0 : stepper) : outcome (list nat) :=
  do out0 <- offer_output freq s0 [] ;
  do r <- ofold (run_one_step freq) (seq 1 n_steps) (s0, out0) ;
  Ok (snd r).

(** ** File names.  std::to_string on unsigned values, find_last_of('.'),
    substr(0, pos) (pos may be npos) and insert. *)
Definition to_string (n : N) : string := NilEmpty.string_of_uint (N.to_uint n).
Fixpoint last_dot (s : string) : option nat :=
  match s with
  | EmptyString => None
  | String c r =>
    match last_dot r with
    | Some i => Some (S i)
    | None => if Ascii.eqb c "." then Some 0%nat else None
    end
  end.
Fixpoint stake (n : nat) (s : string) : string :=
  match n, s with S n', String c r => String c (stake n' r) | _, _ => EmptyString end.
Fixpoint sdrop (n : nat) (s : string) : string :=
  match n, s with S n', String _ r => sdrop n' r | _, _ => s end.
Definition stem (s : string) : string := match last_dot s with Some i => stake i s | None => s end.
(** s.insert(s.find_last_of("."), t) throws when there is no '.'. *)
Definition insert_at_dot (s t : string) : outcome string :=
  match last_dot s with Some i => Ok (stake i s ++ t ++ sdrop i s)%string | None => Throw end.

Definition pair_suffix (l m : N) : string := ("_" ++ to_string l ++ "_" ++ to_string m)%string.

(** partitioner/partitioner.cpp lines 86-96, 106-107;
    partitioner/write_distributed_interfaces.cpp lines 85-89. *)
Definition partitioner_mesh_file (mesh : string) (l m : N) : string := (stem mesh ++ pair_suffix l m ++ ".meta")%string.
Definition partitioner_dbmd_file (mesh : string) (l m : N) : string := (stem mesh ++ pair_suffix l m ++ ".dbmd")%string.
Definition updated_mesh_name (mesh : string) : string := (stem mesh ++ ".meta")%string.

(** input_parameters.hpp lines 120-123 (bc_is_file_name, db_file_name) and 264-273. *)
Definition bcis_file (mesh : string) : string := (stem mesh ++ ".bcis")%string.
Definition run_mesh_file (mesh : string) (l m : N) : outcome string := insert_at_dot mesh (pair_suffix l m).
Definition run_dbmd_file (mesh : string) (l m : N) : outcome string :=
  insert_at_dot (stem mesh ++ ".dbmd")%string (pair_suffix l m).

(** simulation_ompi.hpp lines 41-53: the names probed for submeshes; substr(npos)
    throws when there is no '.'. *)
Definition probe_file (mesh : string) (l m : N) : outcome string :=
  match last_dot mesh with
  | Some i => Ok (stake i mesh ++ "_" ++ to_string l ++ "_" ++ to_string m ++ sdrop i mesh)%string
  | None => Throw
  end.
(** The while loop; [fuel] bounds the number of iterations. *)
Fixpoint find_units (fuel : nat) (file_exists : string -> bool) (mesh : string) (l : N) (m : N) : outcome (list N) :=
  match fuel with
  | O => UB
  | S k =>
    do f <- probe_file mesh l m ;
    if file_exists f then do r <- find_units k file_exists mesh l (m + 1) ; Ok (m :: r) else Ok []
  end.

(** writer.hpp lines 143, 179: "_data_" + step + extension. *)
Definition output_file (path name ext : string) (step : N) : string :=
  (path ++ name ++ "_data_" ++ to_string step ++ ext)%string.

(** ** Meteorological input: source/problem/SWE/problem_parser/swe_parser.hpp
    lines 51-169 with SourceTerms::meteo_forcing on.  [files k] are the rows of
    the data file for step k up to the first malformed one, None if there is no
    such file; a row is a node id with wind stress (x, y) and pressure.
    node_meteo_data_step is a map from steps to maps from nodes to rows; an
    entry for a step comes into being with its first row. *)
Record reading := Met { m_x : R; m_y : R; m_p : R }.
Definition store := N -> option (N -> option reading).
Definition updN {A : Type} (m : N -> A) (k : N) (a : A) : N -> A := fun j => if (j =? k)%N then a else m j.

(** lines 93-116 and 118-142. *)
Definition load_file (files : N -> option (list (N * reading))) (st : store) (key : N) : outcome store :=
  match st key with
  | Some _ => Ok st
  | None =>
    match files key with
    | None => Throw
    | Some [] => Ok st
    | Some rows => Ok (updN st key (Some (fold_left (fun d r => updN d (fst r) (Some (snd r))) rows (fun _ => None))))
    end
  end.
(** lines 85-143, ParseMeteoInput; step - frequency wraps around in uint. *)
Definition parse_meteo (files : N -> option (list (N * reading))) (freq : N) (st : store) (step : N) : outcome store :=
  let st1 := updN st (uint32 (step + two32 - freq)) None in
  do st2 <- load_file files st1 step ;
  load_file files st2 (uint32 (step + freq)).

(** lines 145-169, InterpolateMeteoData, for the nodes of the mesh; a row that
    is missing leaves an empty vector whose element 0 is read. *)
Definition interp1 (th a b : R) : R := (a + th * (b - a))%R.
Definition interp_node (st : store) (s0 s1 : N) (th : R) (node : N) : outcome (N * reading) :=
  match st s0, st s1 with
  | Some d0, Some d1 =>
    match d0 node, d1 node with
    | Some a, Some b => Ok (node, Met (interp1 th (m_x a) (m_x b)) (interp1 th (m_y a) (m_y b)) (interp1 th (m_p a) (m_p b)))
    | _, _ => UB
    end
  | _, _ => UB
  end.
Definition NtoR (n : N) : R := IZR (Z.of_N n).
Definition interpolate_meteo (freq : N) (dt t : R) (nodes : list N) (st : store) (step : N) : outcome (list (N * reading)) :=
  let s0 := (step - step mod freq)%N in
  let s1 := uint32 (s0 + freq) in
  let t0 := (NtoR s0 * dt)%R in
  let t1 := (NtoR s1 * dt)%R in
  let th := ((t - t0) / (t1 - t0))%R in
  ofold (fun acc node => do r <- interp_node st s0 s1 th node ; Ok (acc ++ [r])) nodes [].

(** lines 51-83, ParseInput at one stage; [t] is GetTimeAtCurrentStage(). *)
Definition parse_input (files : N -> option (list (N * reading))) (freq : N) (dt : R) (nodes : list N)
    (st : store) (call : N * nat * R) : outcome (store * list (N * reading)) :=
  let '(step, stage, t) := call in
  if (freq =? 0)%N then UB else
  do st' <- (if (step mod freq =? 0)%N && (stage =? 0)%nat then parse_meteo files freq st step else Ok st) ;
  do v <- interpolate_meteo freq dt t nodes st' step ;
  Ok (st', v).

(** The calls made by a run (rkdg_swe_proc_serial_step.hpp lines 15-21), results in order. *)
Definition meteo_run (files : N -> option (list (N * reading))) (freq : N) (dt : R) (nodes : list N)
    (calls : list (N * nat * R)) : outcome (store * list (list (N * reading))) :=
  ofold (fun (acc : store * list (list (N * reading))) call =>
           do r <- parse_input files freq dt nodes (fst acc) call ;
           Ok (fst r, snd acc ++ [snd r])) calls (fun _ => None, []).
Definition run_calls (n_steps n_stages : nat) (time : nat -> nat -> R) : list (N * nat * R) :=
  flat_map (fun k => map (fun i => (N.of_nat k, i, time k i)) (seq 0 n_stages)) (seq 0 n_steps).

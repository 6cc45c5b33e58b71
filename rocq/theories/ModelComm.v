(** Model of the message buffers between submeshes: layout, exchange, contents.

    Buffers are lists of numbers; one rank boundary is modelled at a time (each
    has its own pair of buffers per communication type).  MPI itself is modelled
    as: the receive buffer of a rank boundary ends up equal to the send buffer of
    its partner for the same communication type. *)
From Coq Require Import ZArith NArith List Bool Arith Reals.
From Verif Require Import Num Outcome.
Import ListNotations.
Open Scope nat_scope.

(** Arithmetic on uint (32 bits). *)
Definition w32 (n : N) : N := (n mod 2 ^ 32)%N.

(** ** Layout *)
Inductive scheme := RKDG | EHDG | IHDG.

(** source/problem/SWE/problem_data_structure (swe_definitions.hpp) lines 72-83:
    enum CommTypes of each scheme; the position in the list below is its value.
    RKDG: baryctr_coord, bound_state, baryctr_state.
    EHDG: baryctr_coord, init_global_prob, bound_state, baryctr_state.
    IHDG: baryctr_coord, init_global_prob, baryctr_state.
    The value of the list is the increment of begin_index:
    rkdg_swe_problem.hpp lines 66-78, ehdg_swe_problem.hpp lines 83-97,
    ihdg_swe_problem.hpp lines 83-96; SWE::n_variables = 3. *)
Inductive comm := baryctr_coord | init_global_prob | bound_state | baryctr_state.
Definition comms (s : scheme) : list comm :=
  match s with
  | RKDG => [baryctr_coord; bound_state; baryctr_state]
  | EHDG => [baryctr_coord; init_global_prob; bound_state; baryctr_state]
  | IHDG => [baryctr_coord; init_global_prob; baryctr_state]
  end.
Definition increments (s : scheme) (ngp : N) : list N :=
  (match s with
   | RKDG => [2; 3 * ngp + 1; 3 + ngp + 1]
   | EHDG => [2; ngp; 3 * ngp + 1; 3 + ngp + 1]
   | IHDG => [2; 1 + (3 + 1) * ngp; 3 + ngp + 1]
   end)%N.
Definition add_all (a b : list N) : list N := map (fun xy => w32 (fst xy + snd xy)) (combine a b).
Definition comm_buffer_offsets (s : scheme) (begin_index : list N) (ngp : N) : list N * list N :=
  (begin_index, add_all begin_index (increments s ngp)).

(** source/problem/SWE/problem_preprocessor/swe_pre_create_dbound.hpp lines 30-133:
    offsets of the faces of one rank boundary in file order, and the final
    begin_index, to which the buffers are resized. *)
Definition layout (s : scheme) (ngps : list N) : list (list N) * list N :=
  fold_left (fun acc ngp => let o := comm_buffer_offsets s (snd acc) ngp in (fst acc ++ [fst o], snd o))
    ngps ([], repeat 0%N (length (comms s))).

(** ** Exchange *)
Section Buffers.
  Context {T : Type} {NT : Num T}.
  (** std::copy into / out of a vector at an offset; outside the vector: undefined.
      source/communication/db_data_exchanger.hpp lines 48-56.  The vector of
      buffers and the vector of offsets are indexed by the communication type. *)
  Definition write_at (buf : list T) (off : nat) (m : list T) : outcome (list T) :=
    if off + length m <=? length buf then Ok (firstn off buf ++ m ++ skipn (off + length m) buf) else UB.
  Definition read_at (buf : list T) (off n : nat) : outcome (list T) :=
    if off + n <=? length buf then Ok (firstn n (skipn off buf)) else UB.
  Definition set_to_send_buffer (bufs : list (list T)) (offset : list N) (c : nat) (m : list T) : outcome (list (list T)) :=
    do buf <- of_index (nth_error bufs c) ;
    do off <- of_index (nth_error offset c) ;
    do buf' <- write_at buf (N.to_nat off) m ;
    Ok (firstn c bufs ++ buf' :: skipn (S c) bufs).
  Definition get_from_receive_buffer (bufs : list (list T)) (offset : list N) (c : nat) (n : nat) : outcome (list T) :=
    do buf <- of_index (nth_error bufs c) ;
    do off <- of_index (nth_error offset c) ;
    read_at buf (N.to_nat off) n.

  (** Buffers after create_distributed_boundaries; resize value-initialises. *)
  Definition buffers (s : scheme) (ngps : list N) : list (list T) :=
    map (fun n => repeat ($0)%num (N.to_nat n)) (snd (layout s ngps)).

  (** One round of sends for communication type number c: the faces in [order] (the
      order of CallForEachDistributedBoundary, which goes type by type and not in
      file order), face i writing msg i. *)
  Definition send_all (offs : list (list N)) (c : nat) (msg : nat -> list T) (order : list nat) (bufs : list (list T)) : outcome (list (list T)) :=
    ofold (fun b i => do o <- of_index (nth_error offs i) ; set_to_send_buffer b o c (msg i)) order bufs.
  Definition receive (offs : list (list N)) (c i n : nat) (bufs : list (list T)) : outcome (list T) :=
    do o <- of_index (nth_error offs i) ; get_from_receive_buffer bufs o c n.

  (** ** Contents *)
  (** (double)bool and (bool)double. *)
  Definition of_bool (b : bool) : T := (if b then $1 else $0)%num.
  Definition to_bool (x : T) : bool := ((x <? $0)%num || ($0 <? x)%num).

  (** What one side knows about a face: q at the Gauss points of its side (variable,
      point), bathymetry and depth there, state and coordinates at its barycentre,
      wet flag. *)
  Record side := Side {
    d_ngp : nat; d_bary : nat -> T; d_wet : bool; d_q : nat -> nat -> T; d_bath : nat -> T;
    d_qbary : nat -> T; d_h : nat -> T;
    d_owner : bool; d_dof : N }.

  (** swe_pre_init_data.hpp lines 336-348. *)
  Definition bary_message (d : side) : list T := map (d_bary d) [0; 1].
  (** rkdg_swe_proc_dbound.hpp lines 14-27; ehdg_swe_proc_dbound.hpp lines 14-27. *)
  Definition state_message (d : side) : list T :=
    of_bool (d_wet d) :: flat_map (fun gp => map (fun var => d_q d var gp) [0; 1; 2]) (seq 0 (d_ngp d)).
  (** swe_CS_slope_limiter.hpp lines 57-71. *)
  Definition slope_message (d : side) : list T :=
    if d_wet d then of_bool true :: map (d_qbary d) [0; 1; 2] ++ map (d_h d) (seq 0 (d_ngp d))
    else of_bool false :: repeat ($0)%num (3 + d_ngp d).
  (** ehdg_swe_pre_init_global_prob.hpp lines 57-68. *)
  Definition ehdg_init_message (d : side) : list T := map (d_bath d) (seq 0 (d_ngp d)).
  (** ihdg_swe_pre_init_global_prob.hpp lines 187-230; the last number is sent by the
      owner of the edge only. *)
  Definition ihdg_init_message (d : side) : list T :=
    flat_map (fun gp => map (fun var => d_q d var gp) [0; 1; 2]) (seq 0 (d_ngp d)) ++ map (d_bath d) (seq 0 (d_ngp d)) ++
    (if d_owner d then [nofZ (Z.of_N (d_dof d))] else []).

  Definition message (s : scheme) (c : comm) (d : side) : list T :=
    match c with
    | baryctr_coord => bary_message d
    | bound_state => state_message d
    | baryctr_state => slope_message d
    | init_global_prob => match s with EHDG => ehdg_init_message d | _ => ihdg_init_message d end
    end.

  (** Reading back: matrix entries are written in a loop, so the result is the list
      of assignments (variable, point, value) in order. *)
  Definition at_ (m : list T) (i : nat) : outcome T := of_index (nth_error m i).
  Definition put (q : nat -> nat -> T) (var gp : nat) (v : T) : nat -> nat -> T :=
    fun var' gp' => if (var' =? var) && (gp' =? gp) then v else q var' gp'.
  (** q_ex(var, ngp - gp - 1) = message[base + 3 * gp + var]:
      rkdg_swe_dbc_distributed.hpp lines 46-57, ehdg_swe_dbc_distributed.hpp lines 39-57 (base 1),
      ihdg_swe_pre_init_global_prob.hpp lines 269-278 (base 0). *)
  Definition read_q (base ngp : nat) (m : list T) (q0 : nat -> nat -> T) : outcome (nat -> nat -> T) :=
    ofold (fun q gp => ofold (fun q var => do v <- at_ m (base + 3 * gp + var) ; Ok (put q var (ngp - gp - 1) v)) [0; 1; 2] q)
      (seq 0 ngp) q0.
  (** bath_ex[ngp - gp - 1] = message[base + gp]: ihdg lines 280-282 (base 3 * ngp);
      ehdg_swe_pre_init_global_prob.hpp lines 86-98 (base 0).  Variable 0. *)
  Definition read_rev (base ngp : nat) (m : list T) (b0 : nat -> nat -> T) : outcome (nat -> nat -> T) :=
    ofold (fun b gp => do v <- at_ m (base + gp) ; Ok (put b 0 (ngp - gp - 1) v)) (seq 0 ngp) b0.
  (** swe_trouble_check.hpp lines 73-80: hdif[gp] = h[gp] - message[1 + 3 + (ngp - gp - 1)]. *)
  Definition read_hdif (ngp : nat) (m : list T) (h : nat -> T) : outcome (nat -> nat -> T) :=
    ofold (fun b gp => do v <- at_ m (1 + 3 + (ngp - gp - 1)) ; Ok (put b 0 gp (b 0 gp - v)%num)) (seq 0 ngp) (fun _ => h).
  (** message.back(). *)
  Definition back (m : list T) : outcome T := match rev m with [] => UB | x :: _ => Ok x end.
End Buffers.

(** (uint)double for a value that is not negative; out of range: undefined. *)
Definition to_uint (x : R) : outcome N :=
  let z := Int_part x in if (0 <=? z)%Z && (z <? 2 ^ 32)%Z then Ok (Z.to_N z) else UB.

(** source/communication/ompi_communicator.cpp lines 21-31: the number of
    communication types is read off the first rank boundary.  [nbuf] lists the
    number of send buffers of each rank boundary. *)
Definition initialize_communication (nbuf : list nat) : outcome (nat * nat) :=
  do ncomm <- of_index (nth_error nbuf 0) ;
  Ok (ncomm, length nbuf).

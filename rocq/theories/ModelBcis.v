(** Harmonic forcing and levee data: problem/SWE/problem_input/swe_inputs.cpp lines
    212-315 (read_bcis), swe_inputs.hpp lines 25-84, the lookups in
    problem_preprocessor/swe_pre_create_bound.hpp, swe_pre_create_intface.hpp and
    swe_pre_create_dbound.hpp, and the classes Tide and Flow of the three
    discretizations.  Reals for double.

    A line of the file is its list of numbers; further numbers on a line are
    ignored, as by the stream.  Lines that are too short and files that end
    early are outside the model ([None]): the code then goes on with the values
    of earlier lines. *)
From Coq Require Import Reals NArith ZArith List Bool Arith.
From Verif Require Import Num Outcome ModelSWE ModelShape ModelMesh ModelStepper ModelQuad ModelPi.
Import ListNotations.
Open Scope R_scope.

Inductive token := Int (n : N) | Real (x : R).
Definition line := list token.
(** stream >> double. *)
Definition as_real (t : token) : R := match t with Int n => IZR (Z.of_N n) | Real x => x end.

(** swe_inputs.hpp lines 25-32 and 52-59: TideNode and FlowNode are alike. *)
Record hnode := HNode { hn_freq : list R; hn_ff : list R; hn_eq : list R; hn_amp : list R; hn_ph : list R }.
Definition no_hnode : hnode := HNode [] [] [] [] [].
(** std::map<uint, TideNode>. *)
Definition htable := N -> option hnode.
(** Lines 251-258 and 286-293: operator[] creates a missing node. *)
Definition add_row (con : R * R * R) (id : N) (amp ph : R) (t : htable) : htable :=
  fun n => if N.eqb n id then
    let o := match t n with Some o => o | None => no_hnode end in
    let '(f, ff, eq) := con in
    Some (HNode (hn_freq o ++ [f]) (hn_ff o ++ [ff]) (hn_eq o ++ [eq]) (hn_amp o ++ [amp]) (hn_ph o ++ [ph]))
  else t n.

(** LeveeInput: H_barrier, C_subcritical, C_supercritical. *)
Definition levee := (R * R * R)%type.
(** levee_is_data[key] = levee on the ordered map. *)
Fixpoint rm_put {V : Type} (m : rmap V) (k : N * N) (v : V) : rmap V :=
  match m with
  | [] => [(k, v)]
  | (k', v') :: r =>
      if key_ltb k k' then (k, v) :: m
      else if key_eqb k k' then (k, v) :: r
      else (k', v') :: rm_put r k v
  end.

Record bcis := Bcis { bc_tide : list htable; bc_flow : list htable; bc_levee : rmap levee }.
Definition no_bcis : bcis := Bcis [] [] [].

(** Lines 245-259 (280-294): [n] node lines of one constituent. *)
Fixpoint read_rows (n : nat) (con : R * R * R) (ls : list line) (t : htable) : option (list line * htable) :=
  match n with
  | O => Some (ls, t)
  | S n =>
      match ls with
      | (Int id :: a :: p :: _) :: r => read_rows n con r (add_row con id (as_real a) (as_real p) t)
      | _ => None
      end
  end.
(** Lines 239-260 (274-295). *)
Fixpoint read_cons (ncon nnodes : nat) (ls : list line) (t : htable) : option (list line * htable) :=
  match ncon with
  | O => Some (ls, t)
  | S ncon =>
      match ls with
      | (f :: ff :: eq :: _) :: r =>
          match read_rows nnodes (as_real f, as_real ff, as_real eq) r t with
          | Some (r', t') => read_cons ncon nnodes r' t'
          | None => None
          end
      | _ => None
      end
  end.
(** Lines 228-262 (263-297): number of constituents, then the constituents. *)
Definition read_harmonic (nnodes : nat) (ls : list line) : option (list line * htable) :=
  match ls with
  | (Int ncon :: _) :: r => read_cons (N.to_nat ncon) nnodes r (fun _ => None)
  | _ => None
  end.
(** Lines 298-311. *)
Fixpoint read_levees (n : nat) (ls : list line) (m : rmap levee) : option (list line * rmap levee) :=
  match n with
  | O => Some (ls, m)
  | S n =>
      match ls with
      | (Int front :: Int back :: H :: cs :: cp :: _) :: r =>
          read_levees n r (rm_put m (front, back) (as_real H, as_real cs, as_real cp))
      | _ => None
      end
  end.
(** Lines 225-313, one round of the loop; other types take no further lines. *)
Definition read_section (ls : list line) (d : bcis) : option (list line * bcis) :=
  match ls with
  | (Int btype :: Int nnodes :: _) :: r =>
      let n := N.to_nat nnodes in
      if N.eqb btype bt_tide then
        option_map (fun x => (fst x, Bcis (bc_tide d ++ [snd x]) (bc_flow d) (bc_levee d))) (read_harmonic n r)
      else if N.eqb btype bt_flow then
        option_map (fun x => (fst x, Bcis (bc_tide d) (bc_flow d ++ [snd x]) (bc_levee d))) (read_harmonic n r)
      else if N.eqb btype bt_levee then
        option_map (fun x => (fst x, Bcis (bc_tide d) (bc_flow d) (snd x))) (read_levees n r (bc_levee d))
      else Some (r, d)
  | _ => None
  end.
(** The loop; every round takes at least one line, so [fuel] = number of lines. *)
Fixpoint read_bcis (fuel : nat) (ls : list line) (d : bcis) : option bcis :=
  match ls, fuel with
  | [], _ => Some d
  | _, O => None
  | _, S fuel =>
      match read_section ls d with
      | Some (r, d') => read_bcis fuel r d'
      | None => None
      end
  end.

(** swe_inputs.hpp lines 37-49 (64-76). *)
Definition get_data (t : htable) (ids : list N) : option (list hnode) :=
  if forallb (fun n => match t n with Some _ => true | None => false end) ids
  then Some (map (fun n => match t n with Some o => o | None => no_hnode end) ids)
  else None.
(** swe_pre_create_bound.hpp lines 42-54 (74-86): the first boundary that has all
    nodes of the face. *)
Fixpoint find_data (ts : list htable) (ids : list N) : outcome (list hnode) :=
  match ts with
  | [] => Throw
  | t :: r => match get_data t ids with Some l => Ok l | None => find_data r ids end
  end.

(** The members frequency, forcing_fact, equilib_arg, amplitude[con][node], phase[con][node]. *)
Record harmonics := Harmonics { h_freq : list R; h_ff : list R; h_eq : list R; h_amp : list (list R); h_ph : list (list R) }.
(** A loop filling a vector entry by entry. *)
Fixpoint ocollect {A : Type} (f : nat -> outcome A) (start n : nat) : outcome (list A) :=
  match n with
  | O => Ok []
  | S n => do x <- f start ; do r <- ocollect f (S start) n ; Ok (x :: r)
  end.
(** rkdg_swe_bc_tide.hpp lines 33-53 and the other five constructors. *)
Definition make_harmonics (input : list hnode) : outcome harmonics :=
  do first <- of_index (nth_error input 0) ;
  let fill (field : hnode -> list R) :=
    ocollect (fun con => ocollect (fun node =>
      do o <- of_index (nth_error input node) ; of_index (nth_error (field o) con)) 0 (length input))
      0 (length (hn_freq first)) in
  do amp <- fill hn_amp ;
  do ph <- fill hn_ph ;
  Ok (Harmonics (hn_freq first) (hn_ff first) (hn_eq first) amp ph).
(** CreateBoundary for the face with nodes [ids]. *)
Definition create_harmonics (ts : list htable) (ids : list N) : outcome harmonics :=
  do l <- find_data ts ids ; make_harmonics l.

(** geometry/boundary.hpp lines 168-173 with GetBoundaryPsi at parameter [z]. *)
Definition nodal_value (v : list R) (z : R) : R := nth 0 v 0 * GetBoundaryPsi z 0 + nth 1 v 0 * GetBoundaryPsi z 1.
(** rkdg_swe_bc_flow.hpp lines 76-84, rkdg_swe_bc_tide.hpp lines 74-83, the same in
    EHDG, and ComputeInitTrace of IHDG; [ramp] is GetRamp, [t] GetTimeAtCurrentStage. *)
Definition signal (h : harmonics) (ramp t z : R) : R :=
  fold_left (fun s con => s + ramp * nth con (h_ff h) 0 * nodal_value (nth con (h_amp h) []) z *
    cos (nth con (h_freq h) 0 * t + (nth con (h_eq h) 0 - nodal_value (nth con (h_ph h) []) z) * code_pi / 180))
    (seq 0 (length (h_freq h))) 0.
(** ComputeGlobalKernels of IHDG (ihdg_swe_bc_flow.hpp lines 154-162,
    ihdg_swe_bc_tide.hpp lines 149-158): GetRampNext, GetTimeAtNextStage, and no
    conversion of the angles. *)
Definition signal_implicit (h : harmonics) (ramp t z : R) : R :=
  fold_left (fun s con => s + ramp * nth con (h_ff h) 0 * nodal_value (nth con (h_amp h) []) z *
    cos (nth con (h_freq h) 0 * t + nth con (h_eq h) 0 - nodal_value (nth con (h_ph h) []) z))
    (seq 0 (length (h_freq h))) 0.

(** The value imposed at parameter [z] by the explicit solvers at a stage, and by the
    implicit solver in a Newton pass. *)
Definition imposed (h : harmonics) (s : stepper) (z : R) : R := signal h (st_ramp s) (time_at_stage s) z.
Definition imposed_implicit (h : harmonics) (s : istepper) (z : R) : R := signal_implicit h (is_ramp_next s) (itime_next s) z.
(** rkdg_swe_bc_flow.hpp lines 86-99, rkdg_swe_bc_tide.hpp lines 86-95: the flux at a
    Gauss point. *)
Definition flow_flux (g : R) (h : harmonics) (s : stepper) (z : R) (q : vec3 R) (a : aux3 R) (n : vec2 R) : vec3 R :=
  LLF_flux g q (flow_ex (imposed h s z) n q) a n.
Definition tide_flux (g : R) (h : harmonics) (s : stepper) (z : R) (q : vec3 R) (a : aux3 R) (n : vec2 R) : vec3 R :=
  LLF_flux g q (tide_ex (imposed h s z) q) a n.

(** swe_pre_create_intface.hpp lines 50-68: levee data of an interface; [ids_in] and
    [ids_ex] are the nodes of the two faces. *)
Definition levee_at (m : rmap levee) (a b : N) : outcome levee :=
  match rm_find m (a, b) with
  | Some l => Ok l
  | None => match rm_find m (b, a) with Some l => Ok l | None => Throw end
  end.
Definition levee_data (m : rmap levee) (ids_in ids_ex : list N) : outcome (list levee) :=
  ocollect (fun node =>
    do a <- of_index (nth_error ids_in node) ;
    do b <- of_index (nth_error ids_ex (length ids_in - node - 1)) ;
    levee_at m a b) 0 (length ids_in).
(** swe_pre_create_dbound.hpp lines 91-108: levee data of a face on a rank boundary;
    every entry of the map with the node in it is taken. *)
Fixpoint dist_levee_data (m : rmap levee) (ids : list N) : outcome (list levee) :=
  match ids with
  | [] => Ok []
  | n :: r =>
      match filter (fun x => N.eqb (fst (fst x)) n || N.eqb (snd (fst x)) n) m with
      | [] => Throw
      | l => do rest <- dist_levee_data m r ; Ok (map snd l ++ rest)
      end
  end.
(** rkdg_swe_is_levee.hpp lines 35-59 and rkdg_swe_dbc_distributed_levee.hpp lines 38-62: crest
    height and coefficients at parameter [z]; the product of a row with more or fewer
    than two entries and psi_bound_gp (two rows) is undefined. *)
Definition levee_gp (l : list levee) (z : R) : outcome levee :=
  match l with
  | [_; _] => let get f := nodal_value (map f l) z in
      Ok (get (fun x => fst (fst x)), get (fun x => snd (fst x)), get (fun x => snd x))
  | _ => UB
  end.

(** mesh_generators/quad_mesh_generator.cpp lines 281-296, WriteBCISFile, on the four
    boundaries of lines 145-160 with their types and (frequency, forcing factor,
    equilibrium argument); node 1.0, 0.0 for amplitude and phase.  operator<< rounds the
    three numbers to six digits; here they are the numbers as written. *)
Definition generated_bcis (types : list N) (params : list (R * R * R)) (m n : N) : list line :=
  flat_map (fun x : (N * (R * R * R)) * list N =>
    let '((t, (f, ff, eq)), nodes) := x in
    if N.eqb t bt_tide || N.eqb t bt_flow then
      [Int t; Int (N.of_nat (length nodes))] :: [Int 1%N] :: [Real f; Real ff; Real eq] :: map (fun id => [Int id; Real 1; Real 0]) nodes
    else []) (combine (combine types params) (boundary_nodes m n)).

(** * Input files.
    source/preprocessor/input_parameters.hpp lines 95-261 and 295-435 (InputParameters: read, write),
    source/problem/SWE/problem_input/swe_inputs.cpp lines 4-210 and 315-441 (SWE::Inputs; GN::Inputs
    is the same, gn_inputs.hpp lines 10-13), source/simulation/serial/simulation_base.cpp lines 6-26 (and
    simulation_ompi_base.cpp), partitioner/partitioner.cpp lines 43-109.
    Simplifications: a file is the tree yaml-cpp makes of it (no sequences, keys unique; emitting a
    tree and loading it again gives the tree); conversions between scalars and doubles, unsigned
    integers, booleans and times are parameters; warnings on std::cerr left out; the default
    values of fields of a disabled feature are left out. *)
From Coq Require Import NArith List Bool String Ascii.
From Verif Require Import Outcome ModelRun.
Import ListNotations.
Open Scope string_scope.

Inductive yaml := Null | Scalar (s : string) | Map (l : list (string * yaml)).
Fixpoint lookup {A : Type} (k : string) (l : list (string * A)) : option A :=
  match l with [] => None | (k', v) :: r => if String.eqb k k' then Some v else lookup k r end.
(** Node::operator[]: a key of null is undefined, of a scalar an exception (BadSubscript). *)
Definition get (y : yaml) (k : string) : outcome (option yaml) :=
  match y with Map l => Ok (lookup k l) | Null => Ok None | Scalar _ => Throw end.
Definition has_key (y : yaml) (k : string) : outcome bool :=
  do v <- get y k ; Ok (match v with Some _ => true | None => false end).
(** a && b && ... from left to right. *)
Fixpoint has_keys (y : yaml) (ks : list string) : outcome bool :=
  match ks with [] => Ok true | k :: r => do b <- has_key y k ; if b then has_keys y r else Ok false end.
(** as<std::string>(): null reads as "null". *)
Definition as_string (v : option yaml) : outcome string :=
  match v with Some (Scalar s) => Ok s | Some Null => Ok "null" | _ => Throw end.

(** Doubles [F], struct tm [T] and the conversions. *)
Record conv (F T : Type) := Conv {
  pd : string -> option F; sd : F -> string;
  pu : string -> option N; su : N -> string;
  pb : string -> option bool; sb : bool -> string;
  ptime : string -> T; stime : T -> string;
  norm : T -> T;             (* what timegm leaves in its argument *)
  span : T -> T -> F;        (* difftime(timegm(end), timegm(start)) *)
  negative : F -> bool;      (* x < 0. *)
  ceil_div : F -> F -> option N; (* (uint)std::ceil(x / dt); None when the value does not fit *)
  threshold : F -> F;        (* 1.0e6 * x * epsilon *)
  zero : F; def_g : F; def_air : F; def_water : F }.
Arguments pd {F T}. Arguments sd {F T}. Arguments pu {F T}. Arguments su {F T}. Arguments pb {F T}. Arguments sb {F T}.
Arguments ptime {F T}. Arguments stime {F T}. Arguments norm {F T}. Arguments span {F T}. Arguments negative {F T}.
Arguments ceil_div {F T}. Arguments threshold {F T}. Arguments zero {F T}. Arguments def_g {F T}. Arguments def_air {F T}. Arguments def_water {F T}.

Inductive ic (F : Type) := IcDefault | IcConstant (ze qx qy : F) | IcFunction.
Inductive friction (F : Type) := NoFriction | Chezy (c : F) | Manning (c : F) (file : string).
Arguments IcDefault {F}. Arguments IcConstant {F}. Arguments IcFunction {F}. Arguments NoFriction {F}. Arguments Chezy {F}. Arguments Manning {F}.

(** swe_inputs.hpp lines 9-156 without the boundary data. *)
Record swe (F : Type) := Swe {
  w_name : string; w_g : F; w_air : F; w_water : F;
  w_proj : option (F * F * F);                     (* longitude_o, latitude_o, R *)
  w_ic : ic F; w_fsource : bool; w_friction : friction F;
  w_meteo : option (string * string * string * F); (* type, raw file, file, frequency *)
  w_tide : bool; w_coriolis : bool; w_wetdry : option F; w_limiter : option (F * F) }.
Arguments Swe {F}. Arguments w_name {F}. Arguments w_g {F}. Arguments w_air {F}. Arguments w_water {F}. Arguments w_proj {F}. Arguments w_ic {F}.
Arguments w_fsource {F}. Arguments w_friction {F}. Arguments w_meteo {F}. Arguments w_tide {F}. Arguments w_coriolis {F}. Arguments w_wetdry {F}. Arguments w_limiter {F}.

Inductive coords := Cartesian | Polar | Spherical.
(** input_parameters.hpp lines 19-79 for problem input [P]. *)
Record params (F T P : Type) := Params {
  i_order : N;
  i_format : string; i_mesh : string; i_bcis : string; i_dbmd : string; i_coords : coords;
  i_start : T; i_end : T; i_run : F; i_dt : F; i_rkorder : N; i_stages : N; i_ramp : F;
  i_problem : P;
  i_balancer : option (string * F);
  i_output : option (string * option (string * bool) * option (F * N) * option (F * N) * option (F * N)) }.
  (* path, log file (name, verbose), vtk, vtu, modal output (frequency, steps) *)
Arguments Params {F T P}. Arguments i_order {F T P}. Arguments i_format {F T P}. Arguments i_mesh {F T P}. Arguments i_bcis {F T P}. Arguments i_dbmd {F T P}.
Arguments i_coords {F T P}. Arguments i_start {F T P}. Arguments i_end {F T P}. Arguments i_run {F T P}. Arguments i_dt {F T P}. Arguments i_rkorder {F T P}.
Arguments i_stages {F T P}. Arguments i_ramp {F T P}. Arguments i_problem {F T P}. Arguments i_balancer {F T P}. Arguments i_output {F T P}.

Section Input.
  Context {F T : Type} (cv : conv F T).
  Definition as_conv {A : Type} (p : string -> option A) (v : option yaml) : outcome A :=
    match v with Some (Scalar s) => match p s with Some x => Ok x | None => Throw end | _ => Throw end.
  Definition get_string (y : yaml) (k : string) : outcome string := do v <- get y k ; as_string v.
  Definition get_double (y : yaml) (k : string) : outcome F := do v <- get y k ; as_conv (pd cv) v.
  Definition get_uint (y : yaml) (k : string) : outcome N := do v <- get y k ; as_conv (pu cv) v.
  Definition get_bool (y : yaml) (k : string) : outcome bool := do v <- get y k ; as_conv (pb cv) v.

  (** ** swe_inputs.cpp lines 4-210.  [section y k d f]: if there is a node k, f of it, else the default. *)
  Definition section {A : Type} (y : yaml) (k : string) (d : A) (f : yaml -> outcome A) : outcome A :=
    do v <- get y k ; match v with Some n => f n | None => Ok d end.
  Definition default_double (y : yaml) (k : string) (d : F) : outcome F :=
    do b <- has_key y k ; if b then get_double y k else Ok d.
  (** Lines 29-39. *)
  Definition read_proj (n : yaml) : outcome (option (F * F * F)) :=
    do b <- has_keys n ["longitude_o"; "latitude_o"; "R"] ;
    if b then do x <- get_double n "longitude_o" ; do y <- get_double n "latitude_o" ; do r <- get_double n "R" ; Ok (Some (x, y, r)) else Ok None.
  (** Lines 44-67. *)
  Definition read_ic (n : yaml) : outcome (ic F) :=
    do t <- has_key n "type" ;
    if t then
      do s <- get_string n "type" ;
      if s =? "Constant" then
        do b <- has_keys n ["initial_surface_height"; "initial_momentum_x"; "initial_momentum_y"] ;
        if b then do z <- get_double n "initial_surface_height" ; do x <- get_double n "initial_momentum_x" ; do y <- get_double n "initial_momentum_y" ; Ok (IcConstant z x y)
        else Ok IcDefault
      else if s =? "Function" then Ok IcFunction else Ok IcDefault
    else Ok IcDefault.
  (** Lines 72-84 and 161-173. *)
  Definition read_switch (n : yaml) : outcome bool :=
    match n with Null => Ok false | _ => do s <- as_string (Some n) ; Ok (s =? "Enable") end.
  (** Lines 88-123. *)
  Definition read_friction (n : yaml) : outcome (friction F) :=
    do t <- has_key n "type" ;
    if t then
      do s <- get_string n "type" ;
      if s =? "Chezy" then
        do b <- has_key n "coefficient" ;
        if b then do c <- get_double n "coefficient" ; if negative cv c then Throw else Ok (Chezy c) else Ok NoFriction
      else if s =? "Manning" then
        do b <- has_keys n ["coefficient"; "input_file"] ;
        if b then do c <- get_double n "coefficient" ; do f <- get_string n "input_file" ; if negative cv c then Throw else Ok (Manning c f) else Ok NoFriction
      else Ok NoFriction
    else Ok NoFriction.
  (** Lines 128-139. *)
  Definition read_meteo (n : yaml) : outcome (option (string * string * string * F)) :=
    do b <- has_keys n ["type"; "raw_input_file"; "input_file"; "frequency"] ;
    if b then do t <- get_string n "type" ; do r <- get_string n "raw_input_file" ; do f <- get_string n "input_file" ; do q <- get_double n "frequency" ; Ok (Some (t, r, f, q))
    else Ok None.
  (** Lines 144-156. *)
  Definition read_tide (n : yaml) : outcome bool :=
    do t <- has_key n "type" ; if t then do s <- get_string n "type" ; Ok (s =? "Test") else Ok false.
  (** Lines 177-185. *)
  Definition read_wetdry (n : yaml) : outcome (option F) :=
    do b <- has_key n "h_o" ; if b then do h <- get_double n "h_o" ; Ok (Some h) else Ok None.
  (** Lines 189-209. *)
  Definition read_limiter (n : yaml) : outcome (option (F * F)) :=
    do t <- has_key n "type" ;
    if t then
      do s <- get_string n "type" ;
      if s =? "Cockburn-Shu" then
        do b <- has_keys n ["M"; "nu"] ;
        if b then do m <- get_double n "M" ; do u <- get_double n "nu" ; Ok (Some (m, u)) else Ok None
      else Ok None
    else Ok None.
  Definition read_swe (y : yaml) : outcome (swe F) :=
    do name <- get_string y "name" ;
    do g <- default_double y "gravity" (def_g cv) ;
    do ra <- default_double y "density_air" (def_air cv) ;
    do rw <- default_double y "density_water" (def_water cv) ;
    do sp <- section y "spherical_projection" None read_proj ;
    do i <- section y "initial_conditions" IcDefault read_ic ;
    do fs <- section y "function_source" false read_switch ;
    do bf <- section y "bottom_friction" NoFriction read_friction ;
    do me <- section y "meteo_forcing" None read_meteo ;
    do ti <- section y "tide_potential" false read_tide ;
    do co <- section y "coriolis" false read_switch ;
    do wd <- section y "wetting_drying" None read_wetdry ;
    do sl <- section y "slope_limiting" None read_limiter ;
    Ok (Swe name g ra rw sp i fs bf me ti co wd sl).

  (** ** swe_inputs.cpp lines 315-441. *)
  Definition num (x : F) : yaml := Scalar (sd cv x).
  Definition opt (k : string) (o : option yaml) : list (string * yaml) := match o with Some v => [(k, v)] | None => [] end.
  Definition switch (k : string) (b : bool) : list (string * yaml) := if b then [(k, Scalar "Enable")] else [].
  Definition write_swe (w : swe F) : yaml :=
    Map ([("name", Scalar (w_name w)); ("gravity", num (w_g w)); ("density_air", num (w_air w)); ("density_water", num (w_water w))] ++
      opt "spherical_projection" (match w_proj w with Some (x, y, r) => Some (Map [("type", Scalar "Enable"); ("longitude_o", num x); ("latitude_o", num y); ("R", num r)]) | None => None end) ++
      opt "initial_conditions" (match w_ic w with
        | IcDefault => None
        | IcConstant z x y => Some (Map [("type", Scalar "Constant"); ("initial_surface_height", num z); ("initial_momentum_x", num x); ("initial_momentum_y", num y)])
        | IcFunction => Some (Map [("type", Scalar "Function")]) end) ++
      switch "function_source" (w_fsource w) ++
      opt "bottom_friction" (match w_friction w with
        | NoFriction => None
        | Chezy c => Some (Map [("type", Scalar "Chezy"); ("coefficient", num c)])
        | Manning c f => Some (Map [("type", Scalar "Manning"); ("coefficient", num c); ("input_file", Scalar f)]) end) ++
      opt "meteo_forcing" (match w_meteo w with Some (t, r, f, q) => Some (Map [("type", Scalar t); ("raw_input_file", Scalar r); ("input_file", Scalar f); ("frequency", num q)]) | None => None end) ++
      opt "tide_potential" (if w_tide w then Some (Map [("type", Scalar "Test")]) else None) ++
      switch "coriolis" (w_coriolis w) ++
      opt "wetting_drying" (match w_wetdry w with Some h => Some (Map [("h_o", num h)]) | None => None end) ++
      opt "slope_limiting" (match w_limiter w with Some (m, u) => Some (Map [("type", Scalar "Cockburn-Shu"); ("M", num m); ("nu", num u)]) | None => None end)).

  (** ** input_parameters.hpp lines 95-261; [prob] is problem_specific_ctor_helper on the node "problem". *)
  Definition need (b : outcome bool) : outcome unit := do x <- b ; if x then Ok tt else Throw.
  Definition read_coords (s : string) : outcome coords :=
    if s =? "cartesian" then Ok Cartesian else if s =? "polar" then Ok Polar else if s =? "spherical" then Ok Spherical else Throw.
  (** Line 206: back() of an empty string. *)
  Fixpoint ends_slash (s : string) : bool :=
    match s with EmptyString => false | String c EmptyString => Ascii.eqb c "/" | String _ r => ends_slash r end.
  Definition with_slash (s : string) : outcome string :=
    match s with EmptyString => UB | _ => Ok (if ends_slash s then s else s ++ "/") end.
  (** Lines 225-235, 237-247, 249-259. *)
  Definition read_freq (dt : F) (n : yaml) : outcome (option (F * N)) :=
    do _ <- need (has_key n "frequency") ;
    do q <- get_double n "frequency" ;
    match ceil_div cv q dt with Some k => Ok (Some (q, k)) | None => UB end.
  Definition read_log (n : yaml) : outcome (option (string * bool)) :=
    do _ <- need (has_keys n ["verbose"; "name"]) ;
    do v <- get_bool n "verbose" ; do s <- get_string n "name" ; Ok (Some (s, v)).
  Definition read_output (dt : F) (n : yaml) : outcome (option (string * option (string * bool) * option (F * N) * option (F * N) * option (F * N))) :=
    do _ <- need (has_key n "path") ;
    do p <- get_string n "path" ; do p' <- with_slash p ;
    do l <- section n "logfile" None read_log ;
    do a <- section n "vtk" None (read_freq dt) ;
    do b <- section n "vtu" None (read_freq dt) ;
    do c <- section n "modal" None (read_freq dt) ;
    Ok (Some (p', l, a, b, c)).
  Definition read_balancer (n : yaml) : outcome (option (string * F)) :=
    do _ <- need (has_keys n ["name"; "rebalance_frequency"]) ;
    do s <- get_string n "name" ; do q <- get_double n "rebalance_frequency" ; Ok (Some (s, q)).
  (** The node of a key that has to be there. *)
  Definition must (y : yaml) (k : string) : outcome yaml := do v <- get y k ; match v with Some n => Ok n | None => Throw end.
  Definition read_params {P : Type} (prob : yaml -> outcome P) (y : yaml) : outcome (params F T P) :=
    do _ <- must y "polynomial_order" ; do o <- get_uint y "polynomial_order" ;
    do m <- must y "mesh" ;
    do _ <- need (has_keys m ["format"; "file_name"; "coordinate_system"]) ;
    do fmt <- get_string m "format" ;
    if negb ((fmt =? "Adcirc") || (fmt =? "Meta")) then Throw else
    do mesh <- get_string m "file_name" ;
    do cs <- get_string m "coordinate_system" ; do c <- read_coords cs ;
    do ts <- must y "timestepping" ;
    do _ <- need (has_keys ts ["start_time"; "end_time"; "dt"; "order"; "nstages"]) ;
    do t0 <- get_string ts "start_time" ; do t1 <- get_string ts "end_time" ;
    do dt <- get_double ts "dt" ; do ord <- get_uint ts "order" ; do ns <- get_uint ts "nstages" ;
    do ramp <- default_double ts "ramp_duration" (zero cv) ;
    do pr <- must y "problem" ; do p <- prob pr ;
    do lb <- section y "load_balancer" None read_balancer ;
    do out <- section y "output" None (read_output dt) ;
    Ok (Params o fmt mesh (stem mesh ++ ".bcis") (stem mesh ++ ".dbmd") c (norm cv (ptime cv t0)) (norm cv (ptime cv t1))
          (span cv (ptime cv t0) (ptime cv t1)) dt ord ns ramp p lb out).

  (** Lines 394-435. *)
  Definition any_problem (y : yaml) : outcome yaml := Ok y.
  Definition swe_problem (y : yaml) : outcome (swe F) :=
    do s <- get_string y "name" ; if (s =? "rkdg_swe") || (s =? "ehdg_swe") || (s =? "ihdg_swe") then read_swe y else Throw.
  Definition gn_problem (y : yaml) : outcome (swe F) :=
    do s <- get_string y "name" ; if (s =? "ehdg_gn") || (s =? "ihdg_gn") then read_swe y else Throw.

  (** ** Lines 295-392. *)
  Definition coords_name (c : coords) : string := match c with Cartesian => "cartesian" | Polar => "polar" | Spherical => "spherical" end.
  Definition write_freq (k : string) (o : option (F * N)) : list (string * yaml) :=
    opt k (match o with Some (q, _) => Some (Map [("frequency", num q)]) | None => None end).
  Definition write_params {P : Type} (prob : P -> yaml) (i : params F T P) : yaml :=
    Map ([("polynomial_order", Scalar (su cv (i_order i)));
          ("mesh", Map [("format", Scalar (i_format i)); ("file_name", Scalar (i_mesh i)); ("coordinate_system", Scalar (coords_name (i_coords i)))]);
          ("timestepping", Map [("start_time", Scalar (stime cv (i_start i))); ("end_time", Scalar (stime cv (i_end i))); ("dt", num (i_dt i));
             ("order", Scalar (su cv (i_rkorder i))); ("nstages", Scalar (su cv (i_stages i))); ("ramp_duration", num (i_ramp i))]);
          ("problem", prob (i_problem i))] ++
      opt "output" (match i_output i with
        | Some (p, l, a, b, c) => Some (Map ([("path", Scalar p)] ++
            opt "logfile" (match l with Some (s, v) => Some (Map [("name", Scalar s); ("verbose", Scalar (sb cv v))]) | None => None end) ++
            write_freq "vtk" a ++ write_freq "vtu" b ++ write_freq "modal" c))
        | None => None end) ++
      opt "load_balancer" (match i_balancer i with Some (s, q) => Some (Map [("name", Scalar s); ("rebalance_frequency", num q)]) | None => None end)).

  (** ** simulation_base.cpp lines 6-26: which solver runs, and with what. *)
  Inductive solver := RKDG_SWE | EHDG_SWE | IHDG_SWE | EHDG_GN.
  Definition create (y : yaml) : outcome (solver * params F T (swe F)) :=
    do p <- must y "problem" ; do _ <- must p "name" ;
    do s <- get_string p "name" ;
    if s =? "rkdg_swe" then do i <- read_params swe_problem y ; Ok (RKDG_SWE, i)
    else if s =? "ehdg_swe" then do i <- read_params swe_problem y ; Ok (EHDG_SWE, i)
    else if s =? "ihdg_swe" then do i <- read_params swe_problem y ; Ok (IHDG_SWE, i)
    else if s =? "ehdg_gn" then do i <- read_params gn_problem y ; Ok (EHDG_GN, i)
    else Throw.

  (** ** The partitioner.  partitioner.cpp lines 103-109: the input file for the parallel run. *)
  Definition to_meta {P : Type} (i : params F T P) : params F T P :=
    Params (i_order i) "Meta" (stem (i_mesh i) ++ ".meta") (i_bcis i) (i_dbmd i) (i_coords i) (i_start i) (i_end i) (i_run i) (i_dt i) (i_rkorder i) (i_stages i)
      (i_ramp i) (i_problem i) (i_balancer i) (i_output i).
  Definition parallelized (y : yaml) : outcome yaml :=
    do i <- read_params any_problem y ; Ok (write_params (fun n => n) (to_meta i)).
  (** Lines 70-81: true when the weights are those of SWE::PartitionerInputs (one for the element, one
      for its being wet), false for DefaultPartitionerInputs (one for the element). *)
  Definition wet_weights (y : yaml) : outcome bool :=
    do i <- read_params any_problem y ;
    do v <- get (i_problem i) "name" ;
    match v with None => Ok false | Some _ => do s <- as_string v ; if s =? "swe" then do _ <- read_swe (i_problem i) ; Ok true else Ok false end.
End Input.

(** ** swe_pre_init_prob_params.hpp lines 5-47 with swe_definitions.hpp lines 8-42: the globals. *)
Record globals (F : Type) := Globals {
  s_g : F; s_air : F; s_water : F;
  s_fsource : bool; s_bfriction : bool; s_meteo : bool; s_tide : bool; s_coriolis : bool; s_Cf : F;
  s_wetdry : bool; s_limit : bool; s_ho : F; s_hothr : F; s_M : F; s_nu : F }.
Arguments Globals {F}. Arguments s_g {F}. Arguments s_air {F}. Arguments s_water {F}. Arguments s_fsource {F}. Arguments s_bfriction {F}. Arguments s_meteo {F}.
Arguments s_tide {F}. Arguments s_coriolis {F}. Arguments s_Cf {F}. Arguments s_wetdry {F}. Arguments s_limit {F}. Arguments s_ho {F}. Arguments s_hothr {F}. Arguments s_M {F}. Arguments s_nu {F}.
Definition init_globals {F T : Type} (cv : conv F T) (w : swe F) (s : globals F) : globals F :=
  let cf := match w_friction w with NoFriction => None | Chezy c => Some c | Manning c _ => Some c end in
  Globals (w_g w) (w_air w) (w_water w)
    (w_fsource w || s_fsource s)
    (match cf with Some _ => true | None => s_bfriction s end)
    (match w_meteo w with Some _ => true | None => s_meteo s end)
    (w_tide w || s_tide s) (w_coriolis w || s_coriolis s)
    (match cf with Some c => c | None => s_Cf s end)
    (match w_wetdry w with Some _ => true | None => s_wetdry s end)
    (match w_limiter w with Some _ => true | None => s_limit s end)
    (match w_wetdry w with Some h => h | None => s_ho s end)
    (match w_wetdry w with Some h => threshold cv h | None => s_hothr s end)
    (match w_limiter w with Some (m, _) => m | None => s_M s end)
    (match w_limiter w with Some (_, u) => u | None => s_nu s end).

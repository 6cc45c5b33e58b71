(** * What is expected of reading and writing input files. *)
From Coq Require Import NArith List Bool String Ascii.
From Verif Require Import Outcome ModelInput.
Import ListNotations.
Open Scope string_scope.

(** The node of a tree at the end of a path of keys. *)
Fixpoint node (y : yaml) (p : list string) : option yaml :=
  match p with
  | [] => Some y
  | k :: r => match y with Map l => match List.find (fun e => String.eqb k (fst e)) l with Some e => node (snd e) r | None => None end | _ => None end
  end.
Definition leaf (y : yaml) (p : list string) (s : string) : Prop := node y p = Some (Scalar s).
(** A text; an empty value is the text null. *)
Definition word (y : yaml) (p : list string) (s : string) : Prop := leaf y p s \/ (node y p = Some Null /\ s = "null").

Section Spec.
  Context {F T : Type} (cv : conv F T).
  Definition number (y : yaml) (p : list string) (x : F) : Prop := exists s, leaf y p s /\ pd cv s = Some x.
  Definition whole (y : yaml) (p : list string) (n : N) : Prop := exists s, leaf y p s /\ pu cv s = Some n.
  Definition truth (y : yaml) (p : list string) (b : bool) : Prop := exists s, leaf y p s /\ pb cv s = Some b.
  Definition number_or (d : F) (y : yaml) (p : list string) (x : F) : Prop := number y p x \/ (node y p = None /\ x = d).

  (** Numbers and truth values survive printing; timegm does not change the instant. *)
  Record faithful : Prop := {
    f_double : forall x, pd cv (sd cv x) = Some x;
    f_uint : forall n, pu cv (su cv n) = Some n;
    f_bool : forall b, pb cv (sb cv b) = Some b;
    f_span : forall a b, span cv (norm cv a) (norm cv b) = span cv a b }.
  (** A time survives printing (a year of four digits, say). *)
  Definition printable (t : T) : Prop := norm cv (ptime cv (stime cv t)) = t.

  (** The problem section says what it says, and nothing else. *)
  Record says (y : yaml) (w : swe F) : Prop := {
    y_name : word y ["name"] (w_name w);
    y_g : number_or (def_g cv) y ["gravity"] (w_g w);
    y_air : number_or (def_air cv) y ["density_air"] (w_air w);
    y_water : number_or (def_water cv) y ["density_water"] (w_water w);
    y_proj : forall a b r, w_proj w = Some (a, b, r) <->
      number y ["spherical_projection"; "longitude_o"] a /\ number y ["spherical_projection"; "latitude_o"] b /\ number y ["spherical_projection"; "R"] r;
    y_constant : forall z qx qy, w_ic w = IcConstant z qx qy <->
      leaf y ["initial_conditions"; "type"] "Constant" /\ number y ["initial_conditions"; "initial_surface_height"] z /\
      number y ["initial_conditions"; "initial_momentum_x"] qx /\ number y ["initial_conditions"; "initial_momentum_y"] qy;
    y_function : w_ic w = IcFunction <-> leaf y ["initial_conditions"; "type"] "Function";
    y_fsource : w_fsource w = true <-> leaf y ["function_source"] "Enable";
    y_chezy : forall c, w_friction w = Chezy c <-> leaf y ["bottom_friction"; "type"] "Chezy" /\ number y ["bottom_friction"; "coefficient"] c;
    y_manning : forall c f, w_friction w = Manning c f <->
      leaf y ["bottom_friction"; "type"] "Manning" /\ number y ["bottom_friction"; "coefficient"] c /\ word y ["bottom_friction"; "input_file"] f;
    y_friction : forall c f, w_friction w = Chezy c \/ w_friction w = Manning c f -> negative cv c = false;
    y_meteo : forall t r f q, w_meteo w = Some (t, r, f, q) <->
      word y ["meteo_forcing"; "type"] t /\ word y ["meteo_forcing"; "raw_input_file"] r /\ word y ["meteo_forcing"; "input_file"] f /\ number y ["meteo_forcing"; "frequency"] q;
    y_tide : w_tide w = true <-> leaf y ["tide_potential"; "type"] "Test";
    y_coriolis : w_coriolis w = true <-> leaf y ["coriolis"] "Enable";
    y_wetdry : forall h, w_wetdry w = Some h <-> number y ["wetting_drying"; "h_o"] h;
    y_limiter : forall m u, w_limiter w = Some (m, u) <->
      leaf y ["slope_limiting"; "type"] "Cockburn-Shu" /\ number y ["slope_limiting"; "M"] m /\ number y ["slope_limiting"; "nu"] u }.

  (** Which problem sections are read at all: what is missing is tolerated, what is there but
      no number, or a negative friction coefficient, is not. *)
  Definition given (y : yaml) (p : list string) : Prop := node y p <> None.
  Definition a_number (y : yaml) (p : list string) : Prop := exists x, number y p x.
  Definition a_word (y : yaml) (p : list string) : Prop := exists s, word y p s.
  Definition no_scalar (y : yaml) (k : string) : Prop := forall s, ~ leaf y [k] s.
  Definition no_map (y : yaml) (k : string) : Prop := forall l, node y [k] <> Some (Map l).
  Record readable (y : yaml) : Prop := {
    r_name : a_word y ["name"];
    r_g : given y ["gravity"] -> a_number y ["gravity"];
    r_air : given y ["density_air"] -> a_number y ["density_air"];
    r_water : given y ["density_water"] -> a_number y ["density_water"];
    r_sections : forall k, In k ["spherical_projection"; "initial_conditions"; "bottom_friction"; "meteo_forcing"; "tide_potential"; "wetting_drying"; "slope_limiting"] -> no_scalar y k;
    r_switches : forall k, In k ["function_source"; "coriolis"] -> no_map y k;
    r_proj : (forall k, In k ["longitude_o"; "latitude_o"; "R"] -> given y ["spherical_projection"; k]) ->
      forall k, In k ["longitude_o"; "latitude_o"; "R"] -> a_number y ["spherical_projection"; k];
    r_ic : given y ["initial_conditions"; "type"] -> a_word y ["initial_conditions"; "type"];
    r_constant : leaf y ["initial_conditions"; "type"] "Constant" ->
      (forall k, In k ["initial_surface_height"; "initial_momentum_x"; "initial_momentum_y"] -> given y ["initial_conditions"; k]) ->
      forall k, In k ["initial_surface_height"; "initial_momentum_x"; "initial_momentum_y"] -> a_number y ["initial_conditions"; k];
    r_friction : given y ["bottom_friction"; "type"] -> a_word y ["bottom_friction"; "type"];
    r_chezy : leaf y ["bottom_friction"; "type"] "Chezy" -> given y ["bottom_friction"; "coefficient"] ->
      exists c, number y ["bottom_friction"; "coefficient"] c /\ negative cv c = false;
    r_manning : leaf y ["bottom_friction"; "type"] "Manning" -> given y ["bottom_friction"; "coefficient"] -> given y ["bottom_friction"; "input_file"] ->
      (exists c, number y ["bottom_friction"; "coefficient"] c /\ negative cv c = false) /\ a_word y ["bottom_friction"; "input_file"];
    r_meteo : (forall k, In k ["type"; "raw_input_file"; "input_file"; "frequency"] -> given y ["meteo_forcing"; k]) ->
      (forall k, In k ["type"; "raw_input_file"; "input_file"] -> a_word y ["meteo_forcing"; k]) /\ a_number y ["meteo_forcing"; "frequency"];
    r_tide : given y ["tide_potential"; "type"] -> a_word y ["tide_potential"; "type"];
    r_wetdry : given y ["wetting_drying"; "h_o"] -> a_number y ["wetting_drying"; "h_o"];
    r_limiter : given y ["slope_limiting"; "type"] -> a_word y ["slope_limiting"; "type"];
    r_cockburn : leaf y ["slope_limiting"; "type"] "Cockburn-Shu" -> given y ["slope_limiting"; "M"] -> given y ["slope_limiting"; "nu"] ->
      a_number y ["slope_limiting"; "M"] /\ a_number y ["slope_limiting"; "nu"] }.

  (** Output every [k] steps when a frequency is given: the steps of length dt that cover it. *)
  Definition output_steps (y : yaml) (dt : F) (k : string) (o : option (F * N)) : Prop :=
    match o with
    | Some (q, n) => number y ["output"; k; "frequency"] q /\ ceil_div cv q dt = Some n
    | None => node y ["output"; k] = None
    end.
  (** The rest of the file; [sub] says what the problem section becomes. *)
  Record says_all {P : Type} (sub : yaml -> P -> Prop) (y : yaml) (i : params F T P) : Prop := {
    z_order : whole y ["polynomial_order"] (i_order i);
    z_format : leaf y ["mesh"; "format"] (i_format i) /\ (i_format i = "Adcirc" \/ i_format i = "Meta");
    z_mesh : word y ["mesh"; "file_name"] (i_mesh i);
    z_coords : leaf y ["mesh"; "coordinate_system"] (match i_coords i with Cartesian => "cartesian" | Polar => "polar" | Spherical => "spherical" end);
    z_times : exists a b, word y ["timestepping"; "start_time"] a /\ word y ["timestepping"; "end_time"] b /\
      i_start i = norm cv (ptime cv a) /\ i_end i = norm cv (ptime cv b) /\ i_run i = span cv (ptime cv a) (ptime cv b);
    z_dt : number y ["timestepping"; "dt"] (i_dt i);
    z_rk : whole y ["timestepping"; "order"] (i_rkorder i) /\ whole y ["timestepping"; "nstages"] (i_stages i);
    z_ramp : number_or (zero cv) y ["timestepping"; "ramp_duration"] (i_ramp i);
    z_problem : exists n, node y ["problem"] = Some n /\ sub n (i_problem i);
    z_balancer : match i_balancer i with
      | Some (s, q) => word y ["load_balancer"; "name"] s /\ number y ["load_balancer"; "rebalance_frequency"] q
      | None => node y ["load_balancer"] = None end;
    z_output : match i_output i with
      | Some (p, l, a, b, c) =>
          (exists s, word y ["output"; "path"] s /\ s <> "" /\ (p = s \/ p = s ++ "/") /\ exists d, p = d ++ "/") /\
          match l with
          | Some (s, v) => word y ["output"; "logfile"; "name"] s /\ truth y ["output"; "logfile"; "verbose"] v
          | None => node y ["output"; "logfile"] = None end /\
          output_steps y (i_dt i) "vtk" a /\ output_steps y (i_dt i) "vtu" b /\ output_steps y (i_dt i) "modal" c
      | None => node y ["output"] = None end }.

  (** The parameters of the parallel run: everything but the format and the file of the mesh. *)
  Record same_but_mesh {P : Type} (i j : params F T P) : Prop := {
    m_order : i_order j = i_order i; m_format : i_format j = "Meta";
    m_mesh : exists base, i_mesh j = base ++ ".meta" /\ i_bcis i = base ++ ".bcis" /\ i_dbmd i = base ++ ".dbmd";
    m_bcis : i_bcis j = i_bcis i; m_dbmd : i_dbmd j = i_dbmd i; m_coords : i_coords j = i_coords i;
    m_start : i_start j = i_start i; m_end : i_end j = i_end i; m_run : i_run j = i_run i; m_dt : i_dt j = i_dt i;
    m_rk : i_rkorder j = i_rkorder i /\ i_stages j = i_stages i; m_ramp : i_ramp j = i_ramp i;
    m_problem : i_problem j = i_problem i; m_balancer : i_balancer j = i_balancer i; m_output : i_output j = i_output i }.
End Spec.

(** The globals show the input; [d] are the values compiled in. *)
Record shows {F T : Type} (cv : conv F T) (w : swe F) (d s : globals F) : Prop := {
  g_const : s_g s = w_g w /\ s_air s = w_air w /\ s_water s = w_water w;
  g_fsource : s_fsource s = w_fsource w; g_tide : s_tide s = w_tide w; g_coriolis : s_coriolis s = w_coriolis w;
  g_meteo : s_meteo s = true <-> w_meteo w <> None;
  g_friction : match w_friction w with NoFriction => s_bfriction s = false /\ s_Cf s = s_Cf d | Chezy c | Manning c _ => s_bfriction s = true /\ s_Cf s = c end;
  g_wetdry : match w_wetdry w with None => s_wetdry s = false /\ s_ho s = s_ho d /\ s_hothr s = s_hothr d | Some h => s_wetdry s = true /\ s_ho s = h /\ s_hothr s = threshold cv h end;
  g_limit : match w_limiter w with None => s_limit s = false /\ s_M s = s_M d /\ s_nu s = s_nu d | Some (m, u) => s_limit s = true /\ s_M s = m /\ s_nu s = u end }.
(** swe_definitions.hpp lines 8-37: everything off. *)
Definition all_off {F : Type} (d : globals F) : Prop :=
  s_fsource d = false /\ s_bfriction d = false /\ s_meteo d = false /\ s_tide d = false /\ s_coriolis d = false /\ s_wetdry d = false /\ s_limit d = false.

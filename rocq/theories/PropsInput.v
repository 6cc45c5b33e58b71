(** C60: input files are read as written and written as read; the partitioner's file. *)
From Coq Require Import NArith ZArith List Bool String Ascii DecimalString DecimalZ DecimalN.
From Verif Require Import Outcome ModelRun ModelInput SpecInput LemmasInput LemmasInput2 LemmasInput3.
Import ListNotations.
Open Scope string_scope.

(** Every value read is the one in the file; a feature is on exactly when its section is complete. *)
Theorem C60_reads_problem : forall {F T} (cv : conv F T) y w, read_swe cv y = Ok w -> says cv y w.
Proof. exact @read_swe_says. Qed.
Print Assumptions C60_reads_problem.
(** A problem section is read exactly when it is [readable]; otherwise there is an exception.  In particular empty and
    incomplete sections are read. *)
Theorem C60_accepts : forall {F T} (cv : conv F T) y,
  (readable cv y -> exists w, read_swe cv y = Ok w) /\ (~ readable cv y -> read_swe cv y = Throw).
Proof. exact @read_swe_exact. Qed.
Print Assumptions C60_accepts.
Theorem C60_reads : forall {F T P} (cv : conv F T) (prob : yaml -> outcome P) (sub : yaml -> P -> Prop) y i,
  (forall n p, prob n = Ok p -> sub n p) -> read_params cv prob y = Ok i -> says_all cv sub y i.
Proof. exact (fun F T P cv => @read_params_says F T cv P). Qed.
Print Assumptions C60_reads.

(** What was read is read again after writing. *)
Theorem C60_round : forall {F T} (cv : conv F T), faithful cv -> forall y i, printable cv (i_start i) -> printable cv (i_end i) ->
  (read_params cv (swe_problem cv) y = Ok i -> read_params cv (swe_problem cv) (write_params cv (write_swe cv) i) = Ok i) /\
  (read_params cv (gn_problem cv) y = Ok i -> read_params cv (gn_problem cv) (write_params cv (write_swe cv) i) = Ok i).
Proof.
  intros F T cv Hf y i Hs He. split; intro H; [exact (round_read cv Hf _ _ y i (round_swe_problem cv Hf) H Hs He)|exact (round_read cv Hf _ _ y i (round_gn_problem cv Hf) H Hs He)].
Qed.
Print Assumptions C60_round.

(** The partitioner's file starts the same solver with the same parameters on the partitioned mesh, and partitioning it again changes nothing. *)
Theorem C60_parallelized : forall {F T} (cv : conv F T), faithful cv -> forall y k i, create cv y = Ok (k, i) -> printable cv (i_start i) -> printable cv (i_end i) ->
  exists y' j, parallelized cv y = Ok y' /\ create cv y' = Ok (k, j) /\ same_but_mesh i j.
Proof. exact @parallel_run. Qed.
Print Assumptions C60_parallelized.
Theorem C60_again : forall {F T} (cv : conv F T), faithful cv -> forall y i y', read_params cv any_problem y = Ok i -> printable cv (i_start i) -> printable cv (i_end i) ->
  parallelized cv y = Ok y' -> parallelized cv y' = Ok y'.
Proof. exact @parallel_idem. Qed.
Print Assumptions C60_again.

(** The globals show the input, also when each submesh sets them. *)
Theorem C60_globals : forall {F T} (cv : conv F T) w d, all_off d ->
  shows cv w d (init_globals cv w d) /\ forall n, shows cv w d (Nat.iter (S n) (init_globals cv w) d).
Proof.
  intros F T cv w d Hd. split; [exact (init_shows cv w d Hd)|]. induction n as [|n IH]; [exact (init_shows cv w d Hd)|].
  change (Nat.iter (S (S n)) (init_globals cv w) d) with (init_globals cv w (init_globals cv w (Nat.iter n (init_globals cv w) d))). rewrite init_idem. exact IH.
Qed.
Print Assumptions C60_globals.

(** ** Concrete numbers: integers in decimal, times in seconds. *)
Definition zparse (s : string) : option Z := option_map Z.of_int (NilZero.int_of_string s).
Definition zprint (z : Z) : string := NilZero.string_of_int (Z.to_int z).
Definition nparse (s : string) : option N := option_map N.of_uint (NilZero.uint_of_string s).
Definition nprint (n : N) : string := NilZero.string_of_uint (N.to_uint n).
Definition zconv : conv Z Z := Conv _ _ zparse zprint nparse nprint
  (fun s => if s =? "true" then Some true else if s =? "false" then Some false else None) (fun b => if b then "true" else "false")
  (fun s => match zparse s with Some z => z | None => 0%Z end) zprint (fun t => t) (fun a b => (b - a)%Z) (fun x => (x <? 0)%Z)
  (fun q dt => if (0 <? dt)%Z && (0 <=? q)%Z then Some (Z.to_N ((q + dt - 1) / dt)) else None) (fun h => h) 0%Z 10%Z 1%Z 1000%Z.
Lemma zparse_print : forall z, zparse (zprint z) = Some z.
Proof.
  intro z. unfold zparse, zprint. rewrite NilZero.isi; [cbn; rewrite DecimalZ.of_to; reflexivity| |].
  - intro H. assert (E : Z.of_int (Z.to_int z) = 0%Z) by (rewrite H; reflexivity). rewrite DecimalZ.of_to in E. subst. discriminate H.
  - intro H. assert (E : Z.of_int (Z.to_int z) = 0%Z) by (rewrite H; reflexivity). rewrite DecimalZ.of_to in E. subst. discriminate H.
Qed.
Lemma zconv_faithful : faithful zconv.
Proof.
  constructor; [exact zparse_print| |intros [|]; reflexivity|reflexivity].
  intro n. change (nparse (nprint n) = Some n). unfold nparse, nprint. rewrite NilZero.usu; [cbn; rewrite DecimalN.Unsigned.of_to; reflexivity|].
  intro H. assert (E : N.of_uint (N.to_uint n) = 0%N) by (rewrite H; reflexivity). rewrite DecimalN.Unsigned.of_to in E. subst. discriminate H.
Qed.
Lemma zconv_printable : forall t : Z, printable zconv t.
Proof. intro t. unfold printable. cbn. rewrite zparse_print. reflexivity. Qed.

Definition file_ex (name start path friction : string) : yaml :=
  Map [("polynomial_order", Scalar "2");
       ("mesh", Map [("format", Scalar "Adcirc"); ("file_name", Scalar "data/inlet.14"); ("coordinate_system", Scalar "cartesian")]);
       ("timestepping", Map [("start_time", Scalar start); ("end_time", Scalar "3600"); ("dt", Scalar "7"); ("order", Scalar "2"); ("nstages", Scalar "3")]);
       ("problem", Map [("name", Scalar name); ("gravity", Scalar "9"); ("wetting_drying", Map [("h_o", Scalar "1")]);
          ("bottom_friction", Map [("type", Scalar friction); ("coefficient", Scalar "3"); ("input_file", Scalar "m.dat")]); ("coriolis", Scalar "Enable")]);
       ("output", Map [("path", Scalar path); ("logfile", Map [("name", Scalar "log"); ("verbose", Scalar "true")]); ("vtu", Map [("frequency", Scalar "60")])])].
Definition params_ex (fmt mesh : string) : params Z Z (swe Z) :=
  Params 2%N fmt mesh "data/inlet.bcis" "data/inlet.dbmd" Cartesian 0%Z 3600%Z 3600%Z 7%Z 2%N 3%N 0%Z
    (Swe "ehdg_swe" 9%Z 1%Z 1000%Z None IcDefault false (Manning 3%Z "m.dat") None false true (Some 1%Z) None) None
    (Some ("output/", Some ("log", true), None, Some (60%Z, 9%N), None)).
Example input_ex :
  create zconv (file_ex "ehdg_swe" "0" "output" "Manning") = Ok (EHDG_SWE, params_ex "Adcirc" "data/inlet.14") /\
  (do y <- parallelized zconv (file_ex "ehdg_swe" "0" "output" "Manning") ; create zconv y) = Ok (EHDG_SWE, params_ex "Meta" "data/inlet.meta") /\
  create zconv (write_params zconv (write_swe zconv) (params_ex "Adcirc" "data/inlet.14")) = Ok (EHDG_SWE, params_ex "Adcirc" "data/inlet.14").
Proof. repeat apply conj; vm_compute; reflexivity. Qed.
Print Assumptions input_ex.
Example tolerant_ex :
  read_swe zconv (Map [("name", Scalar "rkdg_swe"); ("wetting_drying", Null); ("spherical_projection", Map [("R", Scalar "far")])]) =
    Ok (Swe "rkdg_swe" 10%Z 1%Z 1000%Z None IcDefault false NoFriction None false false None None) /\
  read_swe zconv (Map [("name", Scalar "rkdg_swe"); ("wetting_drying", Map [("h_o", Scalar "far")])]) = Throw /\
  read_swe zconv (Map [("name", Scalar "rkdg_swe"); ("wetting_drying", Scalar "Enable")]) = Throw.
Proof. repeat apply conj; vm_compute; reflexivity. Qed.

(** ** Violations. *)
(** No input a solver accepts is partitioned with weights for wet elements; the name that asks for them is one no solver accepts. *)
Theorem C60_weights_refuted :
  (forall {F T} (cv : conv F T) y k i, create cv y = Ok (k, i) -> wet_weights cv y = Ok false) /\
  (forall {F T} (cv : conv F T) y, wet_weights cv y = Ok true -> leaf y ["problem"; "name"] "swe" /\ create cv y = Throw) /\
  (exists i, create zconv (file_ex "rkdg_swe" "0" "output" "Manning") = Ok (RKDG_SWE, i) /\ w_wetdry (i_problem i) = Some 1%Z) /\
  wet_weights zconv (file_ex "rkdg_swe" "0" "output" "Manning") = Ok false /\ wet_weights zconv (file_ex "swe" "0" "output" "Manning") = Ok true.
Proof.
  split; [exact @solver_weights|]. split; [exact @wet_weights_name|]. split; [eexists; split; vm_compute; reflexivity|]. split; vm_compute; reflexivity.
Qed.
Print Assumptions C60_weights_refuted.
(** The reader for Green-Naghdi problems accepts a solver that does not exist. *)
Theorem C60_ihdg_gn_refuted : exists i, read_params zconv (gn_problem zconv) (file_ex "ihdg_gn" "0" "output" "Manning") = Ok i /\
  create zconv (file_ex "ihdg_gn" "0" "output" "Manning") = Throw.
Proof. eexists. split; vm_compute; reflexivity. Qed.
Print Assumptions C60_ihdg_gn_refuted.
(** An empty output path is undefined behaviour, not an error. *)
Theorem C60_path_refuted : create zconv (file_ex "rkdg_swe" "0" "" "Manning") = UB.
Proof. vm_compute. reflexivity. Qed.
Print Assumptions C60_path_refuted.
(** A misspelt section runs without what was asked for; a time that is no time runs from the zero of the calendar. *)
Theorem C60_silent_refuted :
  (exists i, create zconv (file_ex "rkdg_swe" "0" "output" "manning") = Ok (RKDG_SWE, i) /\ w_friction (i_problem i) = NoFriction) /\
  (exists i, create zconv (file_ex "rkdg_swe" "noon" "output" "Manning") = Ok (RKDG_SWE, i) /\ i_start i = 0%Z).
Proof. split; eexists; split; vm_compute; reflexivity. Qed.
Print Assumptions C60_silent_refuted.

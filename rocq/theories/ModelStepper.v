(** Time steppers.

    Coefficients are exact rationals: the decimal literals of the source are
    taken at face value (not rounded to double) and quotients such as 1./3. are
    exact.  The clock is real-valued. *)
From Coq Require Import ZArith QArith List Bool Arith Reals Qreals.
From Verif Require Import Num ModelSWE.
Import ListNotations.

(** ** Coefficient tables: source/simulation/stepper/explicit_ssp_rk_stepper.cpp,
    InitializeCoefficients, first component ark, second brk; entries that the
    source leaves at their initial 0 (lines 23-27) are written 0. *)

(** explicit_ssp_rk_stepper.cpp lines 30-32. *)
Definition rk_1_1 : list (list Q) * list (list Q) :=
  (([ [1] ]),
   ([ [1] ]))%Q.

(** explicit_ssp_rk_stepper.cpp lines 35-41. *)
Definition rk_2_2 : list (list Q) * list (list Q) :=
  (([ [1];
      [(1#2); (1#2)] ]),
   ([ [1];
      [0; (1#2)] ]))%Q.

(** explicit_ssp_rk_stepper.cpp lines 44-53. *)
Definition rk_3_3 : list (list Q) * list (list Q) :=
  (([ [1];
      [(3#4); (1#4)];
      [(1#3); 0; (2#3)] ]),
   ([ [1];
      [0; (1#4)];
      [0; 0; (2#3)] ]))%Q.

(** explicit_ssp_rk_stepper.cpp lines 56-66. *)
Definition rk_4_3 : list (list Q) * list (list Q) :=
  (([ [1];
      [0; 1];
      [(2#3); 0; (1#3)];
      [0; 0; 0; 1] ]),
   ([ [(1#2)];
      [0; (1#2)];
      [0; 0; (1#6)];
      [0; 0; 0; (1#2)] ]))%Q.

(** explicit_ssp_rk_stepper.cpp lines 69-83. *)
Definition rk_5_3 : list (list Q) * list (list Q) :=
  (([ [1];
      [0; 1];
      [0.355909775063327; 0; 0.644090224936674];
      [0.367933791638137; 0; 0; 0.632066208361863];
      [0; 0; 0.237593836598569; 0; 0.762406163401431] ]),
   ([ [0.377268915331368];
      [0; 0.377268915331368];
      [0; 0; 0.242995220537396];
      [0; 0; 0; 0.23845893284629];
      [0; 0; 0; 0; 0.287632146308408] ]))%Q.

(** explicit_ssp_rk_stepper.cpp lines 86-102. *)
Definition rk_6_3 : list (list Q) * list (list Q) :=
  (([ [1];
      [0; 1];
      [0; 0; 1];
      [0.476769811285196; 0.098511733286064; 0; 0.42471845542874];
      [0; 0; 0; 0; 1];
      [0; 0; 0.155221702560091; 0; 0; 0.844778297439909] ]),
   ([ [0.284220721334261];
      [0; 0.284220721334261];
      [0; 0; 0.284220721334261];
      [0; 0; 0; 0.12071378576593];
      [0; 0; 0; 0; 0.284220721334261];
      [0; 0; 0; 0; 0; 0.2401034970659] ]))%Q.

(** explicit_ssp_rk_stepper.cpp lines 105-124. *)
Definition rk_7_3 : list (list Q) * list (list Q) :=
  (([ [1];
      [0; 1];
      [0; 0; 1];
      [0.184962588071072; 0; 0; 0.815037411928928];
      [0.18071865657038; 0.314831034403793; 0; 0; 0.504450309025826];
      [0; 0; 0; 0; 0; 1];
      [0; 0; 0; 0.120199; 0; 0; 0.879801] ]),
   ([ [0.233213863663009];
      [0; 0.233213863663009];
      [0; 0; 0.233213863663009];
      [0; 0; 0; 0.190078023865845];
      [0; 0; 0; 0; 0.117644805593912];
      [0; 0; 0; 0; 0; 0.233213863663009];
      [0; 0; 0; 0; 0; 0; 0.205181790464579] ]))%Q.

(** explicit_ssp_rk_stepper.cpp lines 127-149. *)
Definition rk_8_3 : list (list Q) * list (list Q) :=
  (([ [1];
      [0; 1];
      [0; 0; 1];
      [0; 0; 0; 1];
      [0.421366967085359; 0.005949401107575; 0; 0; 0.572683631807067];
      [0; 0.004254010666365; 0; 0; 0; 0.995745989333635];
      [0; 0; 0.104380143093325; 0.243265240906726; 0; 0; 0.65235461599995];
      [0; 0; 0; 0; 0; 0; 0; 1] ]),
   ([ [0.195804015330143];
      [0; 0.195804015330143];
      [0; 0; 0.195804015330143];
      [0; 0; 0; 0.195804015330143];
      [0; 0; 0; 0; 0.112133754621673];
      [0; 0; 0; 0; 0; 0.194971062960412];
      [0; 0; 0; 0; 0; 0; 0.127733653231944];
      [0; 0; 0; 0; 0; 0; 0; 0.195804015330143] ]))%Q.

(** explicit_ssp_rk_stepper.cpp lines 152-170. *)
Definition rk_5_4 : list (list Q) * list (list Q) :=
  (([ [1];
      [0.44437049406734; 0.55562950593266];
      [0.6201018513854; 0; 0.3798981486146];
      [0.17807995410773; 0; 0; 0.82192004589227];
      [0.00683325884039; 0; 0.51723167208978; 0.12759831133288; 0.34833675773694] ]),
   ([ [0.39175222700392];
      [0; 0.36841059262959];
      [0; 0; 0.25189177424738];
      [0; 0; 0; 0.54497475021237];
      [0; 0; 0; 0.08460416338212; 0.22600748319395] ]))%Q.

(** explicit_ssp_rk_stepper.cpp lines 173-194. *)
Definition rk_6_4 : list (list Q) * list (list Q) :=
  (([ [1];
      [0.30948026455053; 0.69051973544947];
      [0.54205244285557; 0; 0.45794755714443];
      [0.35984960863377; 0; 0; 0.64015039136623];
      [0; 0; 0; 0; 1];
      [0.05776282890116; 0; 0.44216432622405; 0; 0.10115567086469; 0.39891717401009] ]),
   ([ [0.39270746575722];
      [0; 0.30154043149172];
      [0; 0; 0.19997937335132];
      [0; 0; 0; 0.27954483459696];
      [0; 0; 0; 0; 0.43668618869443];
      [0; 0; 0.0915093153168; 0; 0.04417328437472; 0.14911300530736] ]))%Q.

(** explicit_ssp_rk_stepper.cpp lines 197-222. *)
Definition rk_7_4 : list (list Q) * list (list Q) :=
  (([ [1];
      [0.20161507213829; 0.79838492786171];
      [0.19469598207921; 0; 0.80530401792079];
      [0.58143386885601; 0; 0; 0.41856613114399];
      [0.01934367892154; 0; 0; 0; 0.98065632107846];
      [0; 0; 0; 0; 0; 1];
      [0.06006304558847; 0; 0.30152730794242; 0.10518998496676; 0.01483791154585; 0; 0.5183817499565] ]),
   ([ [0.30111872706068];
      [0; 0.24040865318216];
      [0; 0; 0.24249212077315];
      [0; 0; 0; 0.1260381006008];
      [0; 0; 0; 0; 0.29529398308716];
      [0; 0; 0; 0; 0; 0.30111872706068];
      [0; 0; 0.09079551914158; 0.0288835935488; 0; 0; 0.15609445267839] ]))%Q.

(** explicit_ssp_rk_stepper.cpp lines 225-254. *)
Definition rk_8_4 : list (list Q) * list (list Q) :=
  (([ [1];
      [0.10645325745007; 0.89354674254993];
      [0; 0; 1];
      [0.57175518477257; 0; 0; 0.42824481522743];
      [0.19161667219044; 0; 0; 0; 0.80838332780956];
      [0; 0; 0; 0; 0; 1];
      [0; 0; 0; 0; 0; 0; 1];
      [0.02580435327923; 0; 0.03629901341774; 0.31859181340256; 0.05186768980103; 0.0394407621732; 0.00511633747411; 0.52288003045213] ]),
   ([ [0.24120020561311];
      [0; 0.21552365802797];
      [0; 0; 0.24120020561311];
      [0; 0; 0; 0.1032927374856];
      [0; 0; 0; 0; 0.19498222488188];
      [0; 0; 0; 0; 0; 0.24120020561311];
      [0; 0; 0; 0; 0; 0; 0.24120020561311];
      [0; 0; 0.00875532949991; 0.06195575835101; 0; 0.00951311994571; 0; 0.12611877085604] ]))%Q.

(** explicit_ssp_rk_stepper.cpp lines 30-258: selection by (nstages, order);
    [None] is the thrown std::logic_error. *)
Definition rk_table (nstages order : nat) : option (list (list Q) * list (list Q)) :=
  match nstages, order with
  | 1, 1 => Some rk_1_1
  | 2, 2 => Some rk_2_2
  | 3, 3 => Some rk_3_3
  | 4, 3 => Some rk_4_3
  | 5, 3 => Some rk_5_3
  | 6, 3 => Some rk_6_3
  | 7, 3 => Some rk_7_3
  | 8, 3 => Some rk_8_3
  | 5, 4 => Some rk_5_4
  | 6, 4 => Some rk_6_4
  | 7, 4 => Some rk_7_4
  | 8, 4 => Some rk_8_4
  | _, _ => None
  end%nat.

(** Entry [i][k] of a ragged table (row i has i+1 entries, lines 23-27). *)
Definition entry (M : list (list Q)) (i k : nat) : Q := nth k (nth i M []) 0%Q.

(** Update of one entry of a two-dimensional array. *)
Definition upd2 {A : Type} (f : nat -> nat -> A) (i k : nat) (v : A) : nat -> nat -> A :=
  fun i' k' => if Nat.eqb i' i && Nat.eqb k' k then v else f i' k'.

(** explicit_ssp_rk_stepper.cpp lines 262-270: the crk loops. *)
Definition crk_loop (nstages : nat) (ark brk : nat -> nat -> Q) : nat -> nat -> Q :=
  fold_left (fun crk i =>
    fold_left (fun crk k =>
      let casum := fold_left (fun c l => Qred (c + crk l k * ark i l)) (seq (k + 1) (i - (k + 1))) 0%Q in
      upd2 crk i k (Qred (brk i k + casum)))
      (seq 0 i) crk)
    (seq 0 nstages) (fun _ _ => 0%Q).

(** explicit_ssp_rk_stepper.cpp lines 272-276: the drk loop (drk starts at 0, line 21). *)
Definition drk_loop (nstages : nat) (crk : nat -> nat -> Q) : nat -> Q :=
  fold_left (fun drk k =>
    fold_left (fun drk l => upd drk k (Qred (drk k + crk (k - 1)%nat l))) (seq 0 k) drk)
    (seq 1 (nstages - 1)) (fun _ => 0%Q).

Definition drk_of (nstages order : nat) (k : nat) : Q :=
  match rk_table nstages order with
  | Some (A, B) => drk_loop nstages (crk_loop nstages (entry A) (entry B)) k
  | None => 0%Q
  end.

(** ** State of ESSPRKStepper (explicit_ssp_rk_stepper.hpp lines 13-30).
    [has_ramp] stands for !almost_equal(ramp_duration, 0). *)
Record stepper := Stepper {
  st_nstages : nat; st_order : nat; st_dt : R;
  st_step : nat; st_stage : nat; st_timestamp : nat;
  st_t : R; st_has_ramp : bool; st_ramp_duration : R; st_ramp : R }.

(** explicit_ssp_rk_stepper.cpp lines 3-14: constructor. *)
Definition stepper_init (nstages order : nat) (dt : R) (has_ramp : bool) (rd : R) : stepper :=
  Stepper nstages order dt 0 0 0 0%R has_ramp rd (if has_ramp then 0 else 1)%R.

(** explicit_ssp_rk_stepper.hpp line 46. *)
Definition time_at_stage (s : stepper) : R :=
  (st_t s + st_dt s * Q2R (drk_of (st_nstages s) (st_order s) (st_stage s)))%R.

(** std::tanh. *)
Definition tanhR (x : R) : R := ((exp x - exp (- x)) / (exp x + exp (- x)))%R.

(** explicit_ssp_rk_stepper.hpp lines 49-65: operator++.  nstages = 0 would be
    a remainder by zero; the constructor throws for it. *)
Definition stepper_incr (s : stepper) : stepper :=
  let stage := Nat.modulo (st_stage s + 1) (st_nstages s) in
  let t := (if Nat.eqb stage 0 then st_t s + st_dt s else st_t s)%R in
  let step := if Nat.eqb stage 0 then (st_step s + 1)%nat else st_step s in
  let s1 := Stepper (st_nstages s) (st_order s) (st_dt s) step stage (st_timestamp s + 1)
                    t (st_has_ramp s) (st_ramp_duration s) (st_ramp s) in
  if st_has_ramp s
  then Stepper (st_nstages s) (st_order s) (st_dt s) step stage (st_timestamp s + 1)
         t (st_has_ramp s) (st_ramp_duration s)
         (tanhR (2 * (time_at_stage s1 / 86400) / st_ramp_duration s))
  else s1.

(** ** UpdateState, explicit_ssp_rk_stepper.hpp lines 67-80.
    The modal coefficients of an element (or of all elements) are a vector
    indexed by an arbitrary type; [q s] is state[s].q, [sol s] is
    state[s].solution. *)
Section Update.
  Context {I : Type}.
  Definition rvec := I -> R.
  Definition rv0 : rvec := fun _ => 0%R.
  Definition rvadd (a b : rvec) : rvec := fun i => (a i + b i)%R.
  Definition rvscale (c : R) (a : rvec) : rvec := fun i => (c * a i)%R.

  Definition next_state (A B : list (list Q)) (dt : R) (stage : nat) (q sol : nat -> rvec) : rvec :=
    fold_left (fun acc s =>
      rvadd acc (rvadd (rvscale (Q2R (entry A stage s)) (q s))
                       (rvscale (dt * Q2R (entry B stage s))%R (sol s))))
      (seq 0 (stage + 1)) rv0.

  (** One whole step of an element: before UpdateState at stage k the spatial
      operator stores state[k].solution (an arbitrary function [rhs] of the
      stage number and all states computed so far); UpdateState then
      overwrites state[k+1].q and at the last stage swaps state[0].q and
      state[nstages].q. *)
  Definition stage_update (A B : list (list Q)) (dt : R) (nstages : nat)
      (rhs : nat -> (nat -> rvec) -> rvec) (st : (nat -> rvec) * (nat -> rvec)) (k : nat)
      : (nat -> rvec) * (nat -> rvec) :=
    let sol := upd (snd st) k (rhs k (fst st)) in
    let q := upd (fst st) (k + 1) (next_state A B dt k (fst st) sol) in
    (if Nat.eqb (k + 1) nstages then upd (upd q 0 (q nstages)) nstages (q 0%nat) else q, sol).

  Definition rk_step (A B : list (list Q)) (dt : R) (nstages : nat)
      (rhs : nat -> (nat -> rvec) -> rvec) (st : (nat -> rvec) * (nat -> rvec)) :=
    fold_left (stage_update A B dt nstages rhs) (seq 0 nstages) st.
End Update.

(** ** ImplicitStepper, implicit_stepper.hpp lines 30-54: effective number of
    stages and theta; [None] is the thrown std::logic_error. *)
Definition implicit_scheme (order nstages : nat) : option (nat * Q) :=
  if Nat.eqb order 1 && Nat.eqb nstages 1 then Some (1%nat, 0%Q)
  else if Nat.eqb order 2 && Nat.eqb nstages 1 then Some (1%nat, (1#2)%Q)
  else if Nat.eqb order 2 && Nat.eqb nstages 2 then Some (1%nat, (1#2)%Q)
  else None.

Record istepper := IStepper {
  is_nstages : nat; is_dt : R; is_step : nat; is_stage : nat; is_timestamp : nat;
  is_t : R; is_has_ramp : bool; is_ramp_duration : R; is_ramp : R; is_ramp_next : R }.

Definition istepper_init (nstages : nat) (dt : R) (has_ramp : bool) (rd : R) : istepper :=
  IStepper nstages dt 0 0 0 0%R has_ramp rd (if has_ramp then 0 else 1)%R
    (if has_ramp then tanhR (2 * (dt / 86400) / rd) else 1)%R.

(** implicit_stepper.hpp lines 67-68. *)
Definition itime_now (s : istepper) : R := is_t s.
Definition itime_next (s : istepper) : R := (is_t s + is_dt s)%R.

(** implicit_stepper.hpp lines 72-89. *)
Definition istepper_incr (s : istepper) : istepper :=
  let stage := Nat.modulo (is_stage s + 1) (is_nstages s) in
  let t := (if Nat.eqb stage 0 then is_t s + is_dt s else is_t s)%R in
  let step := if Nat.eqb stage 0 then (is_step s + 1)%nat else is_step s in
  if is_has_ramp s
  then IStepper (is_nstages s) (is_dt s) step stage (is_timestamp s + 1) t true (is_ramp_duration s)
         (is_ramp_next s) (tanhR (2 * ((t + is_dt s) / 86400) / is_ramp_duration s))%R
  else IStepper (is_nstages s) (is_dt s) step stage (is_timestamp s + 1) t false (is_ramp_duration s)
         (is_ramp s) (is_ramp_next s).

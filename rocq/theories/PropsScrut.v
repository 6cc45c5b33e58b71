(** C69: NaN found before it is written. *)
From Coq Require Import ZArith List Bool Arith Lia.
From Coq.Floats Require Import SpecFloat.
From Verif Require Import Outcome ModelScrut SpecScrut LemmasScrut.
Import ListNotations.

(** The check is silent exactly if no coefficient is NaN, and names the first variable with one. *)
Theorem C69_check : forall ndof q,
  (scrutinize ndof q = None <-> ~ has_nan ndof q) /\
  (forall v, scrutinize ndof q = Some v <->
     v < 3 /\ nan_in_row ndof q v /\ forall w, w < v -> ~ nan_in_row ndof q w).
Proof. exact scrutinize_ok. Qed.
Print Assumptions C69_check.

(** Whatever the kernels and the post-processing compute: no step of a run, finished or
    aborted, leaves a NaN to be written, and a run that goes on has made all its steps. *)
Theorem C69_written : forall c t n s, 1 <= c_nstages c ->
  Forall (clean (c_n c) (c_ndof c)) (fst (run (step_serial c) (c_nstages c) t n s)) /\
  (forall s', snd (run (step_serial c) (c_nstages c) t n s) = Running s' ->
     length (fst (run (step_serial c) (c_nstages c) t n s)) = n /\
     (0 < n -> clean (c_n c) (c_ndof c) (fun e => d_q s' e 0))).
Proof. exact written. Qed.
Print Assumptions C69_written.

(** The same with the dispersive correction, whose stages check nothing. *)
Theorem C69_written_gn : forall c g len t n s, 1 <= c_nstages c ->
  Forall (clean (c_n c) (c_ndof c)) (fst (run (step_gn c g) len t n s)).
Proof. exact written_gn. Qed.
Print Assumptions C69_written_gn.

(** The slot the next stage starts from is clean. *)
Theorem C69_stage : forall c t k s s', stage_serial c t k s = Running s' ->
  clean (c_n c) (c_ndof c) (fun e => d_q s' e (Nat.modulo (k + 1) (c_nstages c))).
Proof. exact stage_clean. Qed.
Print Assumptions C69_stage.

(** A run is aborted only for a NaN. *)
Theorem C69_abort_only : forall c t k s, stage_serial c t k s = Aborted ->
  exists p e, e < c_n c /\ c_post c (Nat.modulo (k + 1) (c_nstages c)) (update_all c t k s) = Ok p /\
    has_nan (c_ndof c) (d_q p e (Nat.modulo (k + 1) (c_nstages c))).
Proof. exact abort_only. Qed.
Print Assumptions C69_abort_only.

(** Without post-processing a NaN computed by the kernels of a stage, or already in a
    state the stage combines, stops the run in that stage, even if its weight in the scheme is zero. *)
Theorem C69_detected : forall c t k s e v d, (forall i x, c_post c i x = Ok x) -> k < c_nstages c ->
  e < c_n c -> v < 3 -> d < c_ndof c ->
  c_solution c t k s e v d = S754_nan \/ (exists i, i <= k /\ d_q s e i v d = S754_nan) ->
  stage_serial c t k s = Aborted.
Proof. exact detected. Qed.
Print Assumptions C69_detected.

(** A NaN left by the correction is found in the next shallow-water stage, before the output. *)
Theorem C69_detected_gn : forall c g t s s1 s2 e v d, (forall i x, c_post c i x = Ok x) -> 1 <= c_nstages c ->
  stages (stage_serial c) t (all_stages c) s = Running s1 ->
  stages (correction_stage g) (t + c_nstages c) (all_stages g) s1 = Running s2 ->
  e < c_n c -> v < 3 -> d < c_ndof c -> d_q s2 e 0 v d = S754_nan -> step_gn c g t s = Aborted.
Proof. exact detected_gn. Qed.
Print Assumptions C69_detected_gn.

(** With wetting and drying and slope limiting, as configured, a NaN that does not stop the run was in
    the discharge of an element that wetting and drying leaves dry or finds with mean depth at most the limit. *)
Theorem C69_detected_post : forall c wd sl h_o thr bath bath_min active delta t k s e v d,
  c_post c = post_serial wd sl (c_n c) (c_ndof c) h_o thr bath bath_min active delta -> k < c_nstages c -> 3 <= c_ndof c ->
  e < c_n c -> v < 3 -> d < c_ndof c ->
  c_solution c t k s e v d = S754_nan \/ (exists i, i <= k /\ d_q s e i v d = S754_nan) ->
  forall s', stage_serial c t k s = Running s' ->
  wd = true /\ v <> 0 /\ (d_wet s' e = false \/
    dleb (mean_depth thr (depths (c_ndof c) (bath e)
      (next_q (c_A c) (c_B c) (c_dt c) k (d_q s e) (put (d_sol s e) k (c_solution c t k s e))))) (dadd h_o thr) = true).
Proof. exact detected_post. Qed.
Print Assumptions C69_detected_post.

(** The limiter leaves a variable alone if a coefficient of it, or a slope computed for it, is NaN: the first
    is found by the search, the second is dropped without notice. *)
Theorem C69_limiter : forall ndof delta q row,
  nan_in_row ndof q row \/ (exists b, b < 3 /\ delta row b = S754_nan) -> limit ndof delta q row = q row.
Proof. exact limit_keeps. Qed.
Print Assumptions C69_limiter.

(** The kernel keeps a NaN of the surface elevation. *)
Theorem C69_wd_level : forall ndof h_o thr bath bath_min q wet, 3 <= ndof -> nan_in_row ndof q 0 ->
  exists q' wet', wetting_drying ndof h_o thr bath bath_min q wet = Ok (q', wet') /\ nan_in_row ndof q' 0.
Proof. exact wd_level. Qed.
Print Assumptions C69_wd_level.

(** A NaN depth at a vertex makes the mean depth NaN, which is not at most the limit. *)
Theorem C69_mean_depth : forall thr h v, v < 3 -> h v = S754_nan -> mean_depth thr h = S754_nan.
Proof. exact mean_nan. Qed.
Print Assumptions C69_mean_depth.

(** What it hides: if all vertices are at most the limit deep, or some are and the mean depth is, the discharge is
    put to zero whatever it was. *)
Theorem C69_wd_hidden : forall ndof h_o thr bath bath_min q wet, 3 <= ndof ->
  let h := depths ndof bath q in
  dry_count (dadd h_o thr) h <> 0 ->
  dry_count (dadd h_o thr) h = 3 \/ dleb (mean_depth thr h) (dadd h_o thr) = true ->
  exists q' wet', wetting_drying ndof h_o thr bath bath_min q wet = Ok (q', wet') /\
    forall row dof, row = 1 \/ row = 2 -> exists sgn, q' row dof = S754_zero sgn.
Proof. exact wd_hidden. Qed.
Print Assumptions C69_wd_hidden.

(** The implicit solver, whatever its iteration computes, converged or not. *)
Theorem C69_written_implicit : forall n ndof nst iterate sl active delta len t m s, 1 <= nst ->
  Forall (clean n ndof) (fst (run (step_implicit n ndof nst iterate sl active delta) len t m s)).
Proof. exact written_implicit. Qed.
Print Assumptions C69_written_implicit.

(** A NaN left by the iteration aborts its step (every scheme accepted has one stage, C09_implicit_scheme). *)
Theorem C69_detected_implicit : forall n ndof iterate sl active delta t s e v d,
  e < n -> v < 3 -> d < ndof -> d_q (iterate t 0 s) e 1 v d = S754_nan ->
  step_implicit n ndof 1 iterate sl active delta t s = Aborted.
Proof. exact detected_implicit. Qed.
Print Assumptions C69_detected_implicit.

(** ** Cases *)
Definition half : double := ddiv (dofZ 1) (dofZ 2).
Definition zero : double := S754_zero false.
(** Heun's method with time step 2 on two elements. *)
Definition heun (sol : nat -> nat -> dstate -> nat -> coeffs) : solver :=
  Solver 2 3 2 [[dofZ 1]; [half; half]] [[dofZ 1]; [zero; half]] (dofZ 2) sol (fun _ s => Ok s).
Definition start (x : double) : dstate := DState (fun _ _ _ _ => x) (fun _ _ _ _ => zero) (fun _ => true).
Definition steady (_ _ : nat) (_ : dstate) (_ : nat) : coeffs := fun _ _ => dofZ 1.
(** A NaN in one coefficient of element 1 at time stamp 4. *)
Definition breaks (t k : nat) (s : dstate) (e : nat) : coeffs := fun v d =>
  if Nat.eqb t 4 && Nat.eqb e 1 && Nat.eqb v 2 && Nat.eqb d 1 then S754_nan else dofZ 1.

(** Rate one, time step two: the value grows from 1 to 7 in three steps, which are all written. *)
Example C69_ex_goes_on :
  let r := run (step_serial (heun steady)) 2 0 3 (start (dofZ 1)) in
  map (fun o : output => o 1 2 1) (fst r) = [dofZ 3; dofZ 5; dofZ 7] /\
  match snd r with Running _ => True | _ => False end.
Proof. split; vm_compute; [reflexivity | exact I]. Qed.
(** The run with the NaN writes two steps and is aborted in the third. *)
Example C69_ex_aborted :
  let r := run (step_serial (heun breaks)) 2 0 3 (start (dofZ 1)) in
  map (fun o : output => o 1 2 1) (fst r) = [dofZ 3; dofZ 5] /\ snd r = Aborted.
Proof. split; vm_compute; reflexivity. Qed.
(** The correction computes a NaN at time stamp 4 only: a step from time stamp 0, which corrects at 2 and 3,
    is written; a step from time stamp 2, which corrects at 4 and 5, is aborted. *)
Example C69_ex_gn :
  fst (run (step_gn (heun steady) (heun breaks)) 6 0 1 (start (dofZ 1))) <> [] /\
  step_gn (heun steady) (heun breaks) 2 (start (dofZ 1)) = Aborted /\
  match stages (correction_stage (heun breaks)) 4 (all_stages (heun breaks)) (start (dofZ 1)) with
  | Running s2 => d_q s2 1 0 2 1 = S754_nan | _ => False end.
Proof.
  split; [vm_compute; discriminate | split; vm_compute; reflexivity].
Qed.

(** An implicit run whose iteration doubles the values, until a NaN at time stamp 2. *)
Definition doubling (t _ : nat) (s : dstate) : dstate :=
  DState (fun e => put (d_q s e) 1 (fun v d => if Nat.eqb t 2 && Nat.eqb e 1 && Nat.eqb v 1 && Nat.eqb d 2 then S754_nan
                                               else dmul (dofZ 2) (d_q s e 0 v d))) (d_sol s) (d_wet s).
Example C69_ex_implicit :
  let r := run (step_implicit 2 3 1 doubling false d_wet (fun _ _ _ _ => zero)) 1 0 3 (start (dofZ 1)) in
  map (fun o : output => o 1 1 2) (fst r) = [dofZ 2; dofZ 4] /\ snd r = Aborted.
Proof. split; vm_compute; reflexivity. Qed.

(** A single element with least depth 1 and threshold 1, hence limit 2, over bathymetry zero;
    depths 5/2, 1, 1 at the vertices.  Euler's method with a rate that is zero except for NaN in the discharge. *)
Definition slope : coeffs := fun v d =>
  match v, d with
  | 0, 0 => ddiv (dofZ 3) (dofZ 2) | 0, 1 => ddiv (dofZ (-1)) (dofZ 4) | 0, 2 => ddiv (dofZ (-3)) (dofZ 4)
  | _, _ => zero end.
Definition low : solver :=
  Solver 1 3 1 [[dofZ 1]] [[dofZ 1]] (dofZ 1) (fun _ _ _ _ v _ => match v with 0 => zero | _ => S754_nan end)
    (post_serial true true 1 3 (dofZ 1) (dofZ 1) (fun _ _ => zero) (fun _ => zero) d_wet (fun _ _ _ _ => dofZ 1)).
Definition low_start : dstate := DState (fun _ _ => slope) (fun _ _ _ _ => zero) (fun _ => true).

Example C69_ex_hidden :
  let q : coeffs := fun v d => match v with 0 => slope 0 d | _ => S754_nan end in
  let h := depths 3 (fun _ => zero) q in
  dry_count (dofZ 2) h = 2 /\ dleb (mean_depth (dofZ 1) h) (dadd (dofZ 1) (dofZ 1)) = true.
Proof. vm_compute; split; reflexivity. Qed.

(** The whole discharge of a wet element is NaN, yet the run goes on: wetting and drying, done
    before the check, puts it to zero. *)
Theorem C69_hidden_refuted : exists c t k s s',
  (exists h_o thr bath bath_min active delta,
     c_post c = post_serial true true (c_n c) (c_ndof c) h_o thr bath bath_min active delta) /\
  k < c_nstages c /\ d_wet s 0 = true /\ (forall d, c_solution c t k s 0 1 d = S754_nan) /\
  stage_serial c t k s = Running s' /\ d_wet s' 0 = true /\ isnan (d_q s' 0 0 1 0) = false.
Proof.
  assert (G : match stage_serial low 0 0 low_start with
              | Running s' => d_wet s' 0 = true /\ isnan (d_q s' 0 0 1 0) = false | _ => False end) by (vm_compute; split; reflexivity).
  destruct (stage_serial low 0 0 low_start) as [s' | |] eqn:E; [| contradiction | contradiction].
  exists low, 0, 0, low_start, s'.
  split; [exists (dofZ 1), (dofZ 1), (fun _ _ => zero), (fun _ => zero), d_wet, (fun _ _ _ _ => dofZ 1); reflexivity |].
  split; [simpl; lia | split; [reflexivity | split; [reflexivity | split; [exact E | exact G]]]].
Qed.
Print Assumptions C69_hidden_refuted.

(** The kernel on a partly dry element: least depth 2, threshold 1, bathymetry 1, depths 1, 5, 6 at the
    vertices; they become 2, 9/2, 11/2, and the discharge of the first vertex goes in halves to the others. *)
Definition partly : coeffs := fun v d => dofZ (nth d (nth v [[3; 1; 2]; [4; 1; 2]; [2; 0; 1]]%Z []) 0%Z).
Definition partly_after : coeffs := fun v d => ddiv (dofZ (nth d (nth v [[2; 7; 9]; [0; 11; 13]; [0; 7; 5]]%Z []) 0%Z)) (dofZ 2).
Definition table (q : coeffs) : list (list double) := map (fun v => map (q v) (seq 0 3)) (seq 0 3).
Example C69_ex_partly : match wetting_drying 3 (dofZ 2) (dofZ 1) (fun _ => dofZ 1) (dofZ 1) partly true with
  | Ok (q, wet) => wet = true /\ table q = table (to_basis partly_after) | _ => False end.
Proof. vm_compute; split; reflexivity. Qed.
(** The same with the depths 5, 1, 3, of which the first is the greatest: they become 9/2, 2, 5/2 (threshold 1/2). *)
Definition partly2 : coeffs := fun v d => dofZ (nth d (nth v [[2; 0; -2]; [4; 1; 2]; [2; 0; 1]]%Z []) 0%Z).
Definition partly2_after : coeffs := fun v d => ddiv (dofZ (nth d (nth v [[7; 2; 3]; [0; 0; 0]; [0; 0; 0]]%Z []) 0%Z)) (dofZ 2).
Example C69_ex_partly_first : match wetting_drying 3 (dofZ 2) (ddiv (dofZ 1) (dofZ 2)) (fun _ => dofZ 1) (dofZ 1) partly2 true with
  | Ok (q, wet) => wet = true /\ map (q 0) (seq 0 3) = map (to_basis partly2_after 0) (seq 0 3) | _ => False end.
Proof. vm_compute; split; reflexivity. Qed.
(** All vertices at most the limit deep: the depth becomes its mean 4, the discharge zero, the element dry. *)
Example C69_ex_flat : match wetting_drying 3 (dofZ 5) (dofZ 1) (fun _ => dofZ 1) (dofZ 1) partly true with
  | Ok (q, wet) => wet = false /\ table q = table (to_basis (fun row _ => match row with 0 => dofZ 3 | _ => zero end)) | _ => False end.
Proof. vm_compute; split; reflexivity. Qed.
(** To the basis and back: the value 6 at one vertex and zero at the others is recovered exactly, for each vertex. *)
Example C69_ex_projections :
  let at_vrtx w : coeffs := fun _ v => if Nat.eqb v w then dofZ 6 else zero in
  map (fun w => map (to_linear 3 (to_basis (at_vrtx w)) 0) (seq 0 3)) (seq 0 3) = map (fun w => map (at_vrtx w 0) (seq 0 3)) (seq 0 3).
Proof. vm_compute; reflexivity. Qed.
(** The limiter: slopes 1, -1, 0 for the first variable of that element, none for the second, NaN for the third. *)
Example C69_ex_limit :
  let delta row b := match row with 0 => dofZ (nth b [1; -1; 0]%Z 0%Z) | 1 => zero | _ => S754_nan end in
  let q := limit 3 delta partly in
  table q = [map (to_basis (limited_vrtx delta (to_linear 3 partly)) 0) (seq 0 3);
             map (to_basis (fun _ _ => dofZ 4) 1) (seq 0 3); map (partly 2) (seq 0 3)] /\
  map (limited_vrtx delta (to_linear 3 partly) 0) (seq 0 3) = [dofZ 1; dofZ 5; dofZ 3].
Proof. vm_compute; split; reflexivity. Qed.

(** An infinite value is not a NaN: it is written. *)
Definition huge : solver :=
  Solver 1 1 1 [[dofZ 1]] [[dofZ 1]] (dofZ 1) (fun _ _ _ _ _ _ => dofZ (2 ^ 1023)) (fun _ s => Ok s).
Theorem C69_infinite_refuted : exists c n s o s', 1 <= c_nstages c /\
  (forall e i v d, exists m x, d_q s e i v d = S754_finite false m x) /\
  (forall t k x e v d, exists m y, c_solution c t k x e v d = S754_finite false m y) /\
  run (step_serial c) (c_nstages c) 0 n s = ([o], Running s') /\ o 0 0 0 = S754_infinity false.
Proof.
  assert (G : match run (step_serial huge) (c_nstages huge) 0 1 (start (dofZ (2 ^ 1023))) with
              | ([o], Running _) => o 0 0 0 = S754_infinity false | _ => False end) by (vm_compute; reflexivity).
  destruct (run (step_serial huge) (c_nstages huge) 0 1 (start (dofZ (2 ^ 1023)))) as [[|o [|? ?]] [s' | |]] eqn:E;
    try contradiction.
  exists huge, 1, (start (dofZ (2 ^ 1023))), o, s'.
  split; [simpl; lia |].
  split; [intros; vm_compute; eexists; eexists; reflexivity |].
  split; [intros; vm_compute; eexists; eexists; reflexivity |].
  split; [exact E | exact G].
Qed.
Print Assumptions C69_infinite_refuted.

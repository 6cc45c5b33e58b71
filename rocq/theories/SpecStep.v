(** Water balance of a whole mesh.  The mean of an expansion over its element is
    its first coefficient (C27_cell_mean), so a volume is the sum of area times
    coefficient. *)
From Coq Require Import Reals QArith Qreals List Bool Arith.
From Verif Require Import Num ModelSWE ModelShape SpecShape SpecStepper ModelStepper ModelStep.
Import ListNotations.
Open Scope R_scope.

Definition tri_area (n : nodes) : R := Rabs (orient (n 0%nat) (n 1%nat) (n 2%nat)) / 2.
Definition half_side (n : nodes) (b : nat) : R := dist (n ((b + 1) mod 3)%nat) (n ((b + 2) mod 3)%nat) / 2.
Definition lsum {A : Type} (l : list A) (f : A -> R) : R := fold_right Rplus 0 (map f l).

(** Volume above the datum in a slot, and its rate of change there. *)
Definition volume (m : mesh) (st : mstate) (slot : nat) : R :=
  rsum (m_n m) (fun e => tri_area (m_nodes m e) * ms_q st e slot 0%nat 0%nat).
Definition production (m : mesh) (st : mstate) (slot : nat) : R :=
  rsum (m_n m) (fun e => tri_area (m_nodes m e) * ms_sol st e slot 0%nat 0%nat).

(** Discharge through the outer boundary (positive outwards). *)
Definition outflow (m : mesh) (c : config) (t : R) (k : nat) (st : mstate) : R :=
  lsum (m_bounds m) (fun b => if ms_wet st (b_elt b) then
    half_side (m_nodes m (b_elt b)) (b_id b) * rsum (length (m_rule1 m)) (fun gp =>
      fst (nth gp (m_rule1 m) (0, 0)) * ze (boundary_flux m c t k st b gp)) else 0).
(** Net loss over levees: what leaves one side minus what arrives at the other. *)
Definition levee_loss (m : mesh) (c : config) (k : nat) (st : mstate) : R :=
  lsum (m_intfaces m) (fun f => match i_kind f with
    | Internal => 0
    | Levee _ => if ms_wet st (i_in f) || ms_wet st (i_ex f) then
        half_side (m_nodes m (i_in f)) (i_bin f) * rsum (length (m_rule1 m)) (fun gp =>
          fst (nth gp (m_rule1 m) (0, 0)) * (ze (fst (interface_flux m c k st f) gp) + ze (snd (interface_flux m c k st f) gp)))
        else 0 end).
(** Water added by function_source, quadrature over the wet elements. *)
Definition rain (m : mesh) (t : R) (st : mstate) : R :=
  match m_fs m with
  | None => 0
  | Some f => rsum (m_n m) (fun e => if ms_wet st e then
      tri_area (m_nodes m e) / 2 * rsum (length (m_rule2 m)) (fun gp =>
        fst (nth gp (m_rule2 m) (0, (0, 0))) * ze (f t e gp)) else 0)
  end.

(** Meshes for which the balance holds: proper triangles, faces numbered 0 to 2,
    symmetric face weights, Cartesian coordinates (sp = 1). *)
Record mesh_ok (m : mesh) : Prop := MeshOk {
  ok_order : (1 <= m_p m)%nat;
  ok_triangles : forall e, (e < m_n m)%nat -> orient (m_nodes m e 0%nat) (m_nodes m e 1%nat) (m_nodes m e 2%nat) <> 0;
  ok_weights : forall gp, (gp < length (m_rule1 m))%nat ->
    fst (nth (length (m_rule1 m) - 1 - gp) (m_rule1 m) (0, 0)) = fst (nth gp (m_rule1 m) (0, 0));
  ok_sp : forall e b gp, sp (m_faux m e b gp) = 1;
  ok_intfaces : forall f, In f (m_intfaces m) -> (i_in f < m_n m)%nat /\ (i_ex f < m_n m)%nat /\ (i_bin f < 3)%nat;
  ok_bounds : forall b, In b (m_bounds m) -> (b_elt b < m_n m)%nat /\ (b_id b < 3)%nat;
  ok_bath : forall e v, (v < 3)%nat -> m_bath_min m e <= m_bath m e v }.
Definition closed (m : mesh) : Prop :=
  m_fs m = None /\ (forall b, In b (m_bounds m) -> b_bc b = Land) /\ (forall f, In f (m_intfaces m) -> i_kind f = Internal).

(** The Shu-Osher combination of a stage, for the elevation of one element, and
    the mean depth it gives. *)
Definition combined (c : config) (dt : R) (k : nat) (st st' : mstate) (e : nat) : R :=
  rsum (S k) (fun s => Q2R (entry (c_A c) k s) * ms_q st e s 0%nat 0%nat + dt * Q2R (entry (c_B c) k s) * ms_sol st' e s 0%nat 0%nat).
Definition combined_depth (m : mesh) (c : config) (dt : R) (k : nat) (st st' : mstate) (e : nat) : R :=
  combined c dt k st st' e + (m_bath m e 0%nat + m_bath m e 1%nat + m_bath m e 2%nat) / 3.
(** Water created by lifting elements to the threshold depth. *)
Definition lifted (m : mesh) (c : config) (dt : R) (k : nat) (st st' : mstate) : R :=
  if c_wd c then rsum (m_n m) (fun e => tri_area (m_nodes m e) * Rmax 0 (c_thr c - combined_depth m c dt k st st' e)) else 0.

(** State and stepper after [k] stages of a step, and the net inflow seen there. *)
Definition after (m : mesh) (c : config) (s : mstate * stepper) (k : nat) : mstate * stepper :=
  match stages m c k s with Outcome.Ok s' => s' | _ => s end.
Definition net_inflow (m : mesh) (c : config) (s : mstate * stepper) : R :=
  let '(st, stp) := s in
  let k := st_stage stp in
  rain m (time_at_stage stp) st - levee_loss m c k st - outflow m c (time_at_stage stp) k st.
(** Water created in stage [k] of a step. *)
Definition lifted_at (m : mesh) (c : config) (s : mstate * stepper) (k : nat) : R :=
  lifted m c (st_dt (snd s)) k (fst (after m c s k)) (fst (after m c s (S k))).

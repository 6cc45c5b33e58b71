(** What one stage of the explicit HDG solver is to compute. *)
From Coq Require Import Reals QArith Qreals List Bool Arith.
From Coquelicot Require Import Hierarchy Derive.
From Verif Require Import Num ModelSWE Outcome ModelShape ModelBasis ModelJac ModelStepper ModelWetDry ModelSlope ModelStep ModelInit ModelIHDG ModelEHDG
  SpecSWE SpecShape SpecBasis SpecJac SpecStepper SpecSlope SpecStep SpecStage SpecRest.
Import ListNotations.
Open Scope R_scope.

(** ** Fluxes *)
(** HDG flux of the inner state [q] with trace [qh] over depth [b]: normal flux of the
    trace, plus the largest wave speed of the trace times the jump. *)
Definition hdg_flux (c : config) (q qh : vec3 R) (b : R) (n : vec2 R) : vec3 R :=
  let h := ze qh + b in
  let tau := sqrt (c_g c * h) + Rabs ((qx qh * nx n + qy qh * ny n) / h) in
  let r v := row v (flux_x c qh b 1) * nx n + row v (flux_y c qh b) * ny n + tau * (row v q - row v qh) in
  V3 (r 0%nat) (r 1%nat) (r 2%nat).
(** Trace of an interface: the mean.  Trace of a wall: the state without its normal discharge. *)
Definition mean_state (p q : vec3 R) : vec3 R := V3 ((ze p + ze q) / 2) ((qx p + qx q) / 2) ((qy p + qy q) / 2).
Definition wall_trace (n : vec2 R) (q : vec3 R) : vec3 R :=
  let qn := qx q * nx n + qy q * ny n in V3 (ze q) (qx q - qn * nx n) (qy q - qn * ny n).
Definition neg3 (x : vec3 R) : vec3 R := V3 (- ze x) (- qx x) (- qy x).
(** Trace of an open boundary: a polynomial along the edge. *)
Definition edge_value (m : mesh) (qh : coeffs) (gp : nat) : vec3 R :=
  let s := snd (nth gp (m_rule1 m) (0, 0)) in
  let r v := rsum (S (m_p m)) (fun j => qh v j * legendre_phi j s) in V3 (r 0%nat) (r 1%nat) (r 2%nat).

Section Fluxes.
  Context (m : mesh) (c : config) (solve : nat -> (nat -> nat -> R) -> (nat -> R) -> nat -> R) (t : R) (k : nat).
  Let ngp := length (m_rule1 m).

  (** Both fluxes at a point of an interface; the wetting and drying rule (C06, C07) applies
      when a side is dry. *)
  Definition interface_point (st : mstate) (f : intface) (gp : nat) : vec3 R * vec3 R :=
    let gx := (ngp - 1 - gp)%nat in
    let p := face_value m k st (i_in f) (i_bin f) gp in
    let q := face_value m k st (i_ex f) (i_bex f) gx in
    let qh := mean_state p q in
    let b := (bath (m_faux m (i_in f) (i_bin f) gp) + bath (m_faux m (i_ex f) (i_bex f) gx)) / 2 in
    let n := normal m (i_in f) (i_bin f) in
    let F := hdg_flux c p qh b n in
    if ms_wet st (i_in f) && ms_wet st (i_ex f) then (F, neg3 F)
    else ehdg_wd_point (c_g c) (ms_wet st (i_in f)) (ms_wet st (i_ex f)) p q qh (Aux b (ze qh + b) 0) n (V2 (- nx n) (- ny n)) F (neg3 F).

  (** The flux buffers and traces [s1] left by the global step from [s]. *)
  Record fluxes_of (s s1 : estate) : Prop := FluxesOf {
    fl_internal : forall f gp, In f (m_intfaces m) -> i_kind f = Internal ->
      ms_wet (es_m s) (i_in f) || ms_wet (es_m s) (i_ex f) = true -> (gp < ngp)%nat ->
      (es_F s1 (i_in f) (i_bin f) gp, es_F s1 (i_ex f) (i_bex f) (ngp - 1 - gp)%nat) = interface_point (es_m s) f gp;
    (** nothing is computed at a levee *)
    fl_levee : forall f data gp, In f (m_intfaces m) -> i_kind f = Levee data ->
      es_F s1 (i_in f) (i_bin f) gp = es_F s (i_in f) (i_bin f) gp /\ es_F s1 (i_ex f) (i_bex f) gp = es_F s (i_ex f) (i_bex f) gp;
    fl_land : forall b gp, In b (m_bounds m) -> b_bc b = Land -> ms_wet (es_m s) (b_elt b) = true -> (gp < ngp)%nat ->
      let q := face_value m k (es_m s) (b_elt b) (b_id b) gp in
      let n := normal m (b_elt b) (b_id b) in
      es_F s1 (b_elt b) (b_id b) gp = hdg_flux c q (wall_trace n q) (bath (m_faux m (b_elt b) (b_id b) gp)) n;
    fl_open : forall i b ex, nth_error (m_bounds m) i = Some b -> b_bc b = Exterior ex ->
      let n := normal m (b_elt b) (b_id b) in
      let q gp := if ms_wet (es_m s) (b_elt b) then face_value m k (es_m s) (b_elt b) (b_id b) gp else es_q s (b_elt b) (b_id b) gp in
      es_qh s1 i = bc_trace m c solve 100 b q (fun gp => ex t gp n (q gp)) (es_qh s i) /\
      forall gp, (gp < ngp)%nat ->
        es_F s1 (b_elt b) (b_id b) gp = hdg_flux c (q gp) (edge_value m (es_qh s1 i) gp) (bath (m_faux m (b_elt b) (b_id b) gp)) n }.
End Fluxes.

(** ** The weak form with given fluxes at the faces *)
Section WeakForm.
  Context (m : mesh) (c : config) (t : R) (k : nat) (st : mstate) (F : nat -> nat -> nat -> vec3 R).

  (** As [interior], sp left out of the flux. *)
  Definition hdg_interior (e v i : nat) : R :=
    tri_area (m_nodes m e) / 2 * rsum (length (m_rule2 m)) (fun gp =>
      let '(w, z) := nth gp (m_rule2 m) (0, (0, 0)) in
      let q := value m (ms_q st e k) z in
      let b := bath (m_aux m e gp) in
      w * (row v (flux_x c q b 1) * grad_x (m_nodes m e) (GetDPhi i z) +
           row v (flux_y c q b) * grad_y (m_nodes m e) (GetDPhi i z) +
           row v (source m c t e gp q b (m_db m e gp)) * GetPhi i z)).
  Definition hdg_interface_load (f : intface) (e v i : nat) : R :=
    if ms_wet st (i_in f) || ms_wet st (i_ex f) then
      let hs := half_side (m_nodes m (i_in f)) (i_bin f) in
      (if Nat.eqb e (i_in f) then face_integral m hs (i_bin f) v i (F (i_in f) (i_bin f)) else 0) +
      (if Nat.eqb e (i_ex f) then face_integral m hs (i_bex f) v i (F (i_ex f) (i_bex f)) else 0)
    else 0.
  Definition hdg_boundary_load (b : bound) (e v i : nat) : R :=
    if Nat.eqb e (b_elt b) && ms_wet st e then face_integral m (half_side (m_nodes m e) (b_id b)) (b_id b) v i (F e (b_id b)) else 0.
  Definition hdg_form (e v i : nat) : R :=
    (if ms_wet st e then hdg_interior e v i else 0) -
    lsum (m_intfaces m) (fun f => hdg_interface_load f e v i) - lsum (m_bounds m) (fun b => hdg_boundary_load b e v i).
End WeakForm.

(** ** From the right-hand side to the next state: as [stage_of], right-hand side [form] *)
Definition stage_with (form : nat -> nat -> nat -> R) (m : mesh) (c : config) (nbr : nat -> nat -> nat) (stp : stepper)
    (st : mstate) (wd : nat -> elt_wd) (st' : mstate) : Prop :=
  let k := st_stage stp in
  let slot := ((k + 1) mod st_nstages stp)%nat in
  forall e, (e < m_n m)%nat -> exists rhs sol next,
    (forall v i, rhs v i = form e v i) /\
    solves_mass m e sol rhs /\ ms_sol st' e = upd (ms_sol st e) k sol /\
    (forall v i, next v i = shu_osher c (st_dt stp) k (ms_q st e) (upd (ms_sol st e) k sol) v i) /\
    (let before := EltWD next (upd (ms_rhs st e) k rhs slot) (ms_wet st e) (ms_cd st e) in
     if c_wd c then wetting_drying_kernel (m_p m) (c_h_o c) (c_thr c) (m_bath m e) (m_bath_min m e) before = Ok (wd e) else wd e = before) /\
    ms_wet st' e = e_wet (wd e) /\ ms_cd st' e = e_completely_dry (wd e) /\
    (let s := m_sl m e in
     if c_sl c then
       slope_limiting_kernel (m_p m)
         (SlIn (sl_g s) (sl_M s) (sl_nu s) (sl_med s) (sl_al s) (sl_rs s) (sl_bath s) (fun b => centre_value (e_q (wd (nbr e b)))))
         (e_wet (wd e)) (map (fun b => e_wet (wd (nbr e b))) [0; 1; 2]%nat) (e_q (wd e)) = Ok (ms_q st' e slot)
     else ms_q st' e slot = e_q (wd e)) /\
    ((k + 1 < st_nstages stp)%nat -> forall s, s <> (k + 1)%nat -> ms_q st' e s = ms_q st e s).

(** ** Water balance *)
Section Balance.
  Context (m : mesh) (F : nat -> nat -> nat -> vec3 R) (st : mstate).
  Let side (e b : nat) : R := rsum (length (m_rule1 m)) (fun gp => fst (nth gp (m_rule1 m) (0, 0)) * ze (F e b gp)).
  Definition hdg_outflow : R := lsum (m_bounds m) (fun b =>
    if ms_wet st (b_elt b) then half_side (m_nodes m (b_elt b)) (b_id b) * side (b_elt b) (b_id b) else 0).
  Definition hdg_levee_loss : R := lsum (m_intfaces m) (fun f => match i_kind f with
    | Internal => 0
    | Levee _ => if ms_wet st (i_in f) || ms_wet st (i_ex f) then
        half_side (m_nodes m (i_in f)) (i_bin f) * (side (i_in f) (i_bin f) + side (i_ex f) (i_bex f)) else 0 end).
End Balance.

(** State and stepper after [j] stages of a step, and the net inflow there: [F] are the
    buffers after the stage. *)
Definition hdg_after (m : mesh) (c : config) (solve : nat -> (nat -> nat -> R) -> (nat -> R) -> nat -> R) (x : estate * stepper) (j : nat) : estate * stepper :=
  match ehdg_stages m c solve j x with Outcome.Ok x' => x' | _ => x end.
Definition hdg_inflow (m : mesh) (F : nat -> nat -> nat -> vec3 R) (x : estate * stepper) : R :=
  rain m (time_at_stage (snd x)) (es_m (fst x)) - hdg_levee_loss m F (es_m (fst x)) - hdg_outflow m F (es_m (fst x)).

(** Meshes for the balance: as [mesh_ok], any sp, each face once. *)
Record hdg_mesh_ok (m : mesh) : Prop := HdgMeshOk {
  hk_order : (1 <= m_p m)%nat;
  hk_triangles : forall e, (e < m_n m)%nat -> orient (m_nodes m e 0%nat) (m_nodes m e 1%nat) (m_nodes m e 2%nat) <> 0;
  hk_weights : forall gp, (gp < length (m_rule1 m))%nat ->
    fst (nth (length (m_rule1 m) - 1 - gp) (m_rule1 m) (0, 0)) = fst (nth gp (m_rule1 m) (0, 0));
  hk_faces : faces_once m;
  hk_bath : forall e v, (v < 3)%nat -> m_bath_min m e <= m_bath m e v }.
(** Net inflow and created water of stage [k] of a step. *)
Section Step.
  Context (m : mesh) (c : config) (solve : nat -> (nat -> nat -> R) -> (nat -> R) -> nat -> R) (x : estate * stepper).
  Definition hdg_inflow_at (k : nat) : R := hdg_inflow m (es_F (fst (hdg_after m c solve x (S k)))) (hdg_after m c solve x k).
  Definition hdg_lifted_at (k : nat) : R :=
    lifted m c (st_dt (snd x)) k (es_m (fst (hdg_after m c solve x k))) (es_m (fst (hdg_after m c solve x (S k)))).
End Step.

(** The same mesh with other projection factors in the elements and at the faces; the same
    input without spherical projection. *)
Definition with_sp (m : mesh) (s : nat -> nat -> R) (sf : nat -> nat -> nat -> R) : mesh :=
  Mesh (m_n m) (m_p m) (m_nodes m) (m_rule2 m) (m_rule1 m)
    (fun e gp => Aux (bath (m_aux m e gp)) (hh (m_aux m e gp)) (s e gp)) (m_db m)
    (fun e b gp => Aux (bath (m_faux m e b gp)) (hh (m_faux m e b gp)) (sf e b gp))
    (m_src m) (m_fs m) (m_intfaces m) (m_bounds m) (m_bath m) (m_bath_min m) (m_sl m).
Definition plane (i : input) : input :=
  Input (in_n i) (in_p i) (in_nodes i) (in_z i) (in_rule2 i) (in_rule1 i) (in_src i) (in_fs i) (in_intfaces i) (in_bounds i)
    None (in_ic i) (in_g i) (in_M i) (in_nu i).

(** ** The trace of an open boundary *)
Section Open.
  Context (m : mesh) (c : config) (b : bound) (q qinf : nat -> vec3 R).
  Let n := normal m (b_elt b) (b_id b).
  Let depth (gp : nat) : R := bath (m_faux m (b_elt b) (b_id b) gp).
  Let ngp := length (m_rule1 m).

  (** What enters from inside minus what enters from outside, in characteristic
      variables: A+ (q - trace) - A- (qinf - trace), tested with the polynomials of the edge. *)
  Definition mismatch_at (u : vec3 R) (gp v : nat) : R :=
    let a := Aux (depth gp) (ze u + depth gp) 0 in
    let diff x := V3 (ze x - ze u) (qx x - qx u) (qy x - qy u) in
    row v (ModelIHDG.mvec (get_Aplus (c_g c) u a n) (diff (q gp))) - row v (ModelIHDG.mvec (get_Aminus (c_g c) u a n) (diff (qinf gp))).
  Definition mismatch (qh : coeffs) (v j : nat) : R :=
    half_side (m_nodes m (b_elt b)) (b_id b) * rsum ngp (fun gp =>
      let '(w, s) := nth gp (m_rule1 m) (0, 0) in w * mismatch_at (edge_value m qh gp) gp v * legendre_phi j s).

  Definition one_changed (qh : coeffs) (v j : nat) (s : R) : coeffs := fun v' j' => if (Nat.eqb v' v && Nat.eqb j' j)%bool then s else qh v' j'.
  (** [J v j v' j'] is the derivative of mismatch (v, j) in coefficient (v', j'). *)
  Definition trace_jacobian (qh : coeffs) (J : nat -> nat -> nat -> nat -> R) : Prop :=
    forall v j v' j', (v < 3)%nat -> (j <= m_p m)%nat -> (v' < 3)%nat -> (j' <= m_p m)%nat ->
    is_derive (fun s : R => mismatch (one_changed qh v' j' s) v j) (qh v' j') (J v j v' j').
  Definition newton_increment (qh : coeffs) (J : nat -> nat -> nat -> nat -> R) (d : coeffs) : Prop :=
    forall v j, (v < 3)%nat -> (j <= m_p m)%nat ->
    rsum 3 (fun v' => rsum (S (m_p m)) (fun j' => J v j v' j' * d v' j')) = - mismatch qh v j.
  Definition same_trace (d d' : coeffs) : Prop := forall v j, (v < 3)%nat -> (j <= m_p m)%nat -> d v j = d' v j.
  Definition one_increment (qh : coeffs) (J : nat -> nat -> nat -> nat -> R) : Prop :=
    exists d, newton_increment qh J d /\ forall d', newton_increment qh J d' -> same_trace d d'.
  (** Wet, and no characteristic of the trace at rest. *)
  Definition noncritical_trace (qh : coeffs) : Prop := forall gp, (gp < ngp)%nat ->
    let u := edge_value m qh gp in let h := ze u + depth gp in
    let un := qx u / h * nx n + qy u / h * ny n in let cel := sqrt (c_g c * h) in
    0 < h /\ un <> 0 /\ un - cel <> 0 /\ un + cel <> 0.
  Definition trace_change (d d' : coeffs) : coeffs := fun v j => d' v j - d v j.
  Definition change_size (d : coeffs) : R :=
    sqrt (rsum (S (m_p m)) (fun j => rsum 3 (fun v => d v j * d v j))) / (3 * INR (S (m_p m))).
End Open.
(** A discharge along an edge of normal [n] with coefficients [s], in the ordering of
    the linear system (3 dof + variable). *)
Definition along (n : vec2 R) (s : nat -> R) (i : nat) : R :=
  match (i mod 3)%nat with 0%nat => 0 | 1%nat => - ny n * s (i / 3)%nat | _ => nx n * s (i / 3)%nat end.

(** Level [c] and no discharge in slot [k] of every element, all wet. *)
Definition level_water (i : input) (c : R) (k : nat) (st : mstate) : Prop :=
  forall e, (e < in_n i)%nat -> resting (in_p i) c (ms_q st e k) /\ ms_wet st e = true.

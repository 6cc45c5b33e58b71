(** What one stage of the solver is to compute, element by element. *)
From Coq Require Import Reals QArith Qreals List Bool Arith.
From Verif Require Import Num ModelSWE Outcome ModelShape ModelBasis ModelJac ModelStepper ModelWetDry ModelSlope ModelStep SpecSWE SpecShape SpecBasis SpecJac SpecStepper SpecSlope SpecStep.
Import ListNotations.
Open Scope R_scope.

(** ** The weak form *)
(** Position on face [b] of the master triangle: from its vertex b+1 to b+2. *)
Definition corner (v : nat) : point := match v with 0%nat => (-1, -1) | 1%nat => (1, -1) | _ => (-1, 1) end.
Definition at_face (b : nat) (s : R) : point :=
  let u := corner ((b + 1) mod 3) in let w := corner ((b + 2) mod 3) in
  ((1 - s) / 2 * fst u + (1 + s) / 2 * fst w, (1 - s) / 2 * snd u + (1 + s) / 2 * snd w).
(** Value at a master point of the function with the given coefficients. *)
Definition value (m : mesh) (q : coeffs) (z : point) : vec3 R :=
  let row v := rsum (dubiner_ndof (m_p m)) (fun i => q v i * GetPhi i z) in V3 (row 0%nat) (row 1%nat) (row 2%nat).
(** Gradient in x and y from derivatives along the master coordinates. *)
Definition grad_x (n : nodes) (d : point) : R :=
  2 * ((snd (n 2%nat) - snd (n 0%nat)) * fst d - (snd (n 1%nat) - snd (n 0%nat)) * snd d) / orient (n 0%nat) (n 1%nat) (n 2%nat).
Definition grad_y (n : nodes) (d : point) : R :=
  2 * ((fst (n 1%nat) - fst (n 0%nat)) * snd d - (fst (n 2%nat) - fst (n 0%nat)) * fst d) / orient (n 0%nat) (n 1%nat) (n 2%nat).
Definition row (v : nat) (x : vec3 R) : R := match v with 0%nat => ze x | 1%nat => qx x | _ => qy x end.

Section WeakForm.
  Context (m : mesh) (c : config) (t : R) (k : nat) (st : mstate).
  Let ngp := length (m_rule1 m).

  (** Interior integrals: flux against the gradient of the test function, source
      against the test function. *)
  Definition flux_x (q : vec3 R) (b s : R) : vec3 R :=
    V3 (s * qx q) (s * (qx q * qx q / (ze q + b) + pressure (c_g c) (ze q) b)) (s * (qx q * qy q / (ze q + b))).
  Definition flux_y (q : vec3 R) (b : R) : vec3 R :=
    V3 (qy q) (qx q * qy q / (ze q + b)) (qy q * qy q / (ze q + b) + pressure (c_g c) (ze q) b).
  Definition friction (e : nat) (h : R) (q : vec3 R) : R :=
    if s_bottom_friction (m_src m e) then friction_coef (m_src m e) h * (sqrt (qx q / h * (qx q / h) + qy q / h * (qy q / h)) / h) else 0.
  Definition source (e gp : nat) (q : vec3 R) (b : R) (db : vec2 R) : vec3 R :=
    let f := match m_fs m with Some f => f t e gp | None => V3 0 0 0 end in
    let r := friction e (ze q + b) q in
    V3 (ze f) (c_g c * nx db * ze q + qx f - r * qx q) (c_g c * ny db * ze q + qy f - r * qy q).
  Definition interior (e v i : nat) : R :=
    tri_area (m_nodes m e) / 2 * rsum (length (m_rule2 m)) (fun gp =>
      let '(w, z) := nth gp (m_rule2 m) (0, (0, 0)) in
      let q := value m (ms_q st e k) z in
      let a := m_aux m e gp in
      w * (row v (flux_x q (bath a) (sp a)) * grad_x (m_nodes m e) (GetDPhi i z) +
           row v (flux_y q (bath a)) * grad_y (m_nodes m e) (GetDPhi i z) +
           row v (source e gp q (bath a) (m_db m e gp)) * GetPhi i z)).

  (** State on a face, and the integral of a flux against the face_value of test
      function [i] on face [b] of an element, the face having half length [hs]. *)
  Definition face_value (e b gp : nat) : vec3 R := value m (ms_q st e k) (at_face b (snd (nth gp (m_rule1 m) (0, 0)))).
  Definition face_integral (hs : R) (b v i : nat) (F : nat -> vec3 R) : R :=
    hs * rsum ngp (fun gp => let '(w, s) := nth gp (m_rule1 m) (0, 0) in w * row v (F gp) * GetPhi i (at_face b s)).

  (** Numerical flux at a point of an interface: from the inner side (Gauss point
      [gp] there) and from the outer side. *)
  Definition point_flux (f : intface) (gp : nat) : vec3 R * vec3 R :=
    let gx := (ngp - 1 - gp)%nat in
    let n := normal m (i_in f) (i_bin f) in
    let flux wi we := match i_kind f with
      | Internal => internal_point (c_g c) wi we
      | Levee data => let '(H, cs, cp) := data gp in levee_point (c_g c) H cs cp wi we
      end in
    flux (ms_wet st (i_in f)) (ms_wet st (i_ex f)) (face_value (i_in f) (i_bin f) gp) (face_value (i_ex f) (i_bex f) gx)
      (m_faux m (i_in f) (i_bin f) gp) (m_faux m (i_ex f) (i_bex f) gx) n (V2 (- nx n) (- ny n)).
  Definition interface_load (f : intface) (e v i : nat) : R :=
    if ms_wet st (i_in f) || ms_wet st (i_ex f) then
      let hs := half_side (m_nodes m (i_in f)) (i_bin f) in
      (if Nat.eqb e (i_in f) then face_integral hs (i_bin f) v i (fun gp => fst (point_flux f gp)) else 0) +
      (if Nat.eqb e (i_ex f) then face_integral hs (i_bex f) v i (fun gp => snd (point_flux f (ngp - 1 - gp))) else 0)
    else 0.
  Definition boundary_load (b : bound) (e v i : nat) : R :=
    if Nat.eqb e (b_elt b) && ms_wet st e then
      face_integral (half_side (m_nodes m e) (b_id b)) (b_id b) v i (fun gp =>
        let q := face_value e (b_id b) gp in
        let a := m_faux m e (b_id b) gp in
        let n := normal m e (b_id b) in
        match b_bc b with
        | Land => land_flux (c_g c) n q a
        | Exterior ex => LLF_flux (c_g c) q (ex t gp n q) a n
        end)
    else 0.

  (** Right-hand side of the semi-discrete equations for variable [v] and test
      function [i] of element [e]. *)
  Definition weak_form (e v i : nat) : R :=
    (if ms_wet st e then interior e v i else 0) -
    lsum (m_intfaces m) (fun f => interface_load f e v i) - lsum (m_bounds m) (fun b => boundary_load b e v i).
End WeakForm.

(** ** From the right-hand side to the next state *)
(** [sol] solves the mass matrix system of an element. *)
Definition solves_mass (m : mesh) (e : nat) (sol rhs : coeffs) : Prop :=
  forall v i M, (i < dubiner_ndof (m_p m))%nat ->
  (forall j, (j < dubiner_ndof (m_p m))%nat -> is_triangle_int (fun x y => GetPhi i (x, y) * GetPhi j (x, y)) (M j)) ->
  rsum (dubiner_ndof (m_p m)) (fun j => tri_area (m_nodes m e) / 2 * M j * sol v j) = rhs v i.
(** The Shu-Osher combination of the stages computed so far. *)
Definition shu_osher (c : config) (dt : R) (k : nat) (q sol : nat -> coeffs) : coeffs := fun v i =>
  rsum (S k) (fun s => Q2R (entry (c_A c) k s) * q s v i + dt * Q2R (entry (c_B c) k s) * sol s v i).

(** The element seen across face [b] of [e]: the one on the other side of an
    interface, or [e] itself at a boundary. *)
Definition seen_across (m : mesh) (e b e' : nat) : Prop :=
  (exists f, In f (m_intfaces m) /\ ((i_in f = e /\ i_bin f = b /\ i_ex f = e') \/ (i_ex f = e /\ i_bex f = b /\ i_in f = e'))) \/
  (exists f, In f (m_bounds m) /\ b_elt f = e /\ b_id f = b /\ e' = e).
(** Every face belongs to exactly one interface or boundary. *)
Definition all_sides (m : mesh) : list (nat * nat) :=
  flat_map (fun f => [(i_in f, i_bin f); (i_ex f, i_bex f)]) (m_intfaces m) ++ map (fun b => (b_elt b, b_id b)) (m_bounds m).
Definition faces_once (m : mesh) : Prop :=
  NoDup (all_sides m) /\ (forall e b, In (e, b) (all_sides m) <-> (e < m_n m)%nat /\ (b < 3)%nat).

(** Value at the centre of an element. *)
Definition centre_value (q : coeffs) : nat -> R := fun v => q v 0%nat.

(** Meshes and configurations for which a stage is described. *)
Record stage_ok (m : mesh) (c : config) : Prop := StageOk {
  so_order : (1 <= m_p m <= 298)%nat;
  so_triangles : forall e, (e < m_n m)%nat -> orient (m_nodes m e 0%nat) (m_nodes m e 1%nat) (m_nodes m e 2%nat) <> 0;
  so_faces : faces_once m;
  so_bath : forall e v, (v < 3)%nat -> m_bath_min m e <= m_bath m e v;
  so_thr : 0 <= c_thr c; so_h_o : 0 <= c_h_o c }.

(** [st'] is the state after the stage at which the stepper [stp] stands.  [wd e]
    is element [e] after wetting and drying, [nbr e b] its neighbour at face [b]. *)
Definition stage_of (m : mesh) (c : config) (nbr : nat -> nat -> nat) (stp : stepper) (st : mstate) (wd : nat -> elt_wd) (st' : mstate) : Prop :=
  let k := st_stage stp in
  let slot := ((k + 1) mod st_nstages stp)%nat in
  forall e, (e < m_n m)%nat -> exists rhs sol next,
    (forall v i, rhs v i = weak_form m c (time_at_stage stp) k st e v i) /\
    solves_mass m e sol rhs /\ ms_sol st' e = upd (ms_sol st e) k sol /\
    (forall v i, next v i = shu_osher c (st_dt stp) k (ms_q st e) (upd (ms_sol st e) k sol) v i) /\
    (let before := EltWD next (upd (ms_rhs st e) k rhs slot) (ms_wet st e) (ms_cd st e) in
     if c_wd c then wetting_drying_kernel (m_p m) (c_h_o c) (c_thr c) (m_bath m e) (m_bath_min m e) before = Ok (wd e) else wd e = before) /\
    ms_wet st' e = e_wet (wd e) /\ ms_cd st' e = e_completely_dry (wd e) /\
    (let s := m_sl m e in
     if c_sl c then
       slope_limiting_kernel (m_p m)
         (SlIn (sl_g s) (sl_M s) (sl_nu s) (sl_med s) (sl_al s) (sl_rs s) (sl_bath s) (fun b => centre_value (e_q (wd (nbr e b)))))
         (e_wet (wd e)) (map (fun b => e_wet (wd (nbr e b))) [0; 1; 2]%nat) (e_q (wd e)) = Ok (ms_q st' e slot)
     else ms_q st' e slot = e_q (wd e)) /\
    ((k + 1 < st_nstages stp)%nat -> forall s, s <> (k + 1)%nat -> ms_q st' e s = ms_q st e s).

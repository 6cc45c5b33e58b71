(** Shallow-water fluxes and boundary fluxes (pointwise and per face).

    Vectors of the three conserved variables, the auxiliary variables and the
    unit normal are records; a [HybMatrix<double,3>] with one column per Gauss
    point is a function from the Gauss point number to a record. *)
From Coq Require Import ZArith List Bool Arith.
From Verif Require Import Num.
Import ListNotations.

(** source/problem/SWE/swe_definitions.hpp, enum Variables (ze, qx, qy). *)
Record vec3 (T : Type) := V3 { ze : T; qx : T; qy : T }.
Arguments V3 {T} _ _ _.
Arguments ze {T} _.
Arguments qx {T} _.
Arguments qy {T} _.

(** source/problem/SWE/swe_definitions.hpp, enum Auxiliaries (bath, h, sp). *)
Record aux3 (T : Type) := Aux { bath : T; hh : T; sp : T }.
Arguments Aux {T} _ _ _.
Arguments bath {T} _.
Arguments hh {T} _.
Arguments sp {T} _.

(** Column of a surface-normal matrix (GlobalCoord::x, GlobalCoord::y). *)
Record vec2 (T : Type) := V2 { nx : T; ny : T }.
Arguments V2 {T} _ _.
Arguments nx {T} _.
Arguments ny {T} _.

Section Flux.
  Context {T : Type} {N : Num T}.
  Local Open Scope num_scope.

  Definition vadd (a b : vec3 T) : vec3 T := V3 (ze a + ze b) (qx a + qx b) (qy a + qy b).
  Definition vsub (a b : vec3 T) : vec3 T := V3 (ze a - ze b) (qx a - qx b) (qy a - qy b).
  Definition vneg (a : vec3 T) : vec3 T := V3 (- ze a) (- qx a) (- qy a).
  Definition vscale (s : T) (a : vec3 T) : vec3 T := V3 (s * ze a) (s * qx a) (s * qy a).
  Definition vzero : vec3 T := V3 $0 $0 $0.

  (** source/problem/SWE/problem_flux/swe_flux.hpp lines 5-25, get_F, at one
      Gauss point.  [g] is Global::g.  Divides by the depth h. *)
  Definition get_F (g : T) (q : vec3 T) (a : aux3 T) : vec3 T * vec3 T :=
    let u := qx q / hh a in
    let v := qy q / hh a in
    let uuh := u * qx q in
    let vvh := v * qy q in
    let uvh := u * qy q in
    let pe := g * (($1 / $2) * (ze q * ze q) + ze q * bath a) in
    (V3 (qx q) (uuh + pe) uvh, V3 (qy q) uvh (vvh + pe)).

  (** swe_flux.hpp lines 27-46 and 48-68, get_Fn (both overloads compute the
      same value; the second takes gravity as an argument), at one Gauss point. *)
  Definition get_Fn (g : T) (q : vec3 T) (a : aux3 T) (n : vec2 T) : vec3 T :=
    let u := qx q / hh a in
    let v := qy q / hh a in
    let uuh := u * qx q in
    let vvh := v * qy q in
    let uvh := u * qy q in
    let pe := g * (ze q * ze q / $2 + ze q * bath a) in
    V3 (qx q * nx n + qy q * ny n)
       ((uuh + pe) * nx n + uvh * ny n)
       (uvh * nx n + (vvh + pe) * ny n).

  (** source/problem/SWE/discretization_RKDG/numerical_fluxes/rkdg_swe_LLF_flux.hpp
      lines 7-60, LLF_flux.  The asymmetry in the use of [sp] (lines 45-47
      against 55-57) is the code's.  Divides by both depths. *)
  Definition LLF_flux (g : T) (q_in q_ex : vec3 T) (a : aux3 T) (n : vec2 T) : vec3 T :=
    let b := bath a in
    let s := sp a in
    let h_in := ze q_in + b in
    let u_in := qx q_in / h_in in
    let v_in := qy q_in / h_in in
    let h_ex := ze q_ex + b in
    let u_ex := qx q_ex / h_ex in
    let v_ex := qy q_ex / h_ex in
    let un_in := u_in * nx n + v_in * ny n in
    let un_ex := u_ex * nx n + v_ex * ny n in
    let sp_correction := nsq (nx n * s) + nsq (ny n) in
    let max_eigenvalue := nmax (nabs un_in + nsqrt (g * h_in * sp_correction))
                               (nabs un_ex + nsqrt (g * h_ex * sp_correction)) in
    let uuh_in := u_in * qx q_in in
    let vvh_in := v_in * qy q_in in
    let uvh_in := u_in * qy q_in in
    let pe_in := g * (nsq (ze q_in) / $2 + ze q_in * b) in
    let Fn_in := V3 (s * qx q_in * nx n + qy q_in * ny n)
                    (s * (uuh_in + pe_in) * nx n + uvh_in * ny n)
                    (s * uvh_in * nx n + (vvh_in + pe_in) * ny n) in
    let uuh_ex := u_ex * qx q_ex in
    let vvh_ex := v_ex * qy q_ex in
    let uvh_ex := u_ex * qy q_ex in
    let pe_ex := g * (nsq (ze q_ex) / $2 + ze q_ex * b) in
    let Fn_ex := V3 (qx q_ex * nx n + qy q_ex * ny n)
                    ((uuh_ex + pe_ex) * nx n + uvh_ex * ny n)
                    (uvh_ex * nx n + (vvh_ex + pe_ex) * ny n) in
    vscale ($1 / $2) (vadd (vadd Fn_in Fn_ex) (vscale max_eigenvalue (vsub q_in q_ex))).

  (** source/problem/SWE/discretization_RKDG/boundary_conditions/rkdg_swe_bc_land.hpp
      lines 88-107, Land::GetEX; the same computation is inlined in both
      ComputeFlux overloads (lines 40-66 and 68-86). *)
  Definition land_ex (n : vec2 T) (q : vec3 T) : vec3 T :=
    let t_x := - ny n in
    let t_y := nx n in
    let qn_ex := - (qx q * nx n + qy q * ny n) in
    let qt_ex := qx q * t_x + qy q * t_y in
    V3 (ze q) (qn_ex * nx n + qt_ex * t_x) (qn_ex * ny n + qt_ex * t_y).

  (** rkdg_swe_bc_land.hpp lines 40-66 and 68-86, Land::ComputeFlux at one Gauss point. *)
  Definition land_flux (g : T) (n : vec2 T) (q : vec3 T) (a : aux3 T) : vec3 T :=
    LLF_flux g q (land_ex n q) a n.

  (** source/problem/SWE/discretization_RKDG/interface_specializations/rkdg_swe_is_internal.hpp
      lines 38-90, body of the Gauss-point loop of Internal::ComputeFlux:
      the pair (F_hat on the IN side, F_hat on the EX side). *)
  Definition internal_point (g : T) (wet_in wet_ex : bool)
      (q_in q_ex : vec3 T) (a_in a_ex : aux3 T) (n_in n_ex : vec2 T) : vec3 T * vec3 T :=
    let F_in := LLF_flux g q_in q_ex a_in n_in in
    let F_ex := vneg F_in in
    if n1em12 <? ze F_in then
      if negb wet_in then (vzero, land_flux g n_ex q_ex a_ex)
      else if negb wet_ex then
        let G := LLF_flux $0 q_ex q_in a_ex n_ex in
        (F_in, V3 (- ze F_in) (qx G) (qy G))
      else (F_in, F_ex)
    else if ze F_in <? - n1em12 then
      if negb wet_ex then (land_flux g n_in q_in a_in, vzero)
      else if negb wet_in then
        let G := LLF_flux $0 q_in q_ex a_in n_in in
        (V3 (- ze F_ex) (qx G) (qy G), F_ex)
      else (F_in, F_ex)
    else (F_in, F_ex).

  (** Assignment to one column of a Gauss-point matrix. *)
  Definition upd {A : Type} (f : nat -> A) (i : nat) (v : A) : nat -> A :=
    fun j => if Nat.eqb j i then v else f j.

  (** rkdg_swe_is_internal.hpp lines 33-93: the loop over Gauss points.  The
      two F_hat matrices are updated in place; gp_ex = ngp - gp - 1. *)
  Definition internal_flux (g : T) (wet_in wet_ex : bool) (ngp : nat)
      (q_in q_ex : nat -> vec3 T) (a_in a_ex : nat -> aux3 T) (n_in n_ex : nat -> vec2 T)
      (F0 : (nat -> vec3 T) * (nat -> vec3 T)) : (nat -> vec3 T) * (nat -> vec3 T) :=
    fold_left (fun F gp =>
      let gp_ex := (ngp - gp - 1)%nat in
      let P := internal_point g wet_in wet_ex (q_in gp) (q_ex gp_ex)
                              (a_in gp) (a_ex gp_ex) (n_in gp) (n_ex gp_ex) in
      (upd (fst F) gp (fst P), upd (snd F) gp_ex (snd P)))
      (seq 0 ngp) F0.

  (** source/problem/SWE/discretization_RKDG/dist_boundary_conditions/rkdg_swe_dbc_distributed.hpp
      lines 62-94: body of the Gauss-point loop of Distributed::ComputeFlux. *)
  Definition distributed_point (g : T) (wet_in wet_ex : bool)
      (q_in q_ex : vec3 T) (a : aux3 T) (n : vec2 T) : vec3 T :=
    let F := LLF_flux g q_in q_ex a n in
    if n1em12 <? ze F then
      if negb wet_in then vzero else F
    else if ze F <? - n1em12 then
      if negb wet_ex then land_flux g n q_in a
      else if negb wet_in then
        let G := LLF_flux $0 q_in q_ex a n in
        V3 (ze F) (qx G) (qy G)
      else F
    else F.

  (** rkdg_swe_proc_dbound.hpp lines 13-27: message pushed to the send buffer,
      wet flag then the three variables Gauss point by Gauss point. *)
  Definition bound_message (wet : bool) (ngp : nat) (q : nat -> vec3 T) : list T :=
    (if wet then $1 else $0) ::
    flat_map (fun gp => [ze (q gp); qx (q gp); qy (q gp)]) (seq 0 ngp).

  (** (bool)message[0]: true iff nonzero. *)
  Definition to_bool (x : T) : bool := negb (andb (x <=? $0) ($0 <=? x)).

  (** rkdg_swe_dbc_distributed.hpp lines 40-55: decoding of the received
      message; q_ex(var, ngp-gp-1) = message[1 + 3*gp + var]. *)
  Definition decode_wet (m : list T) : bool := to_bool (nth 0 m $0).
  Definition decode_q_ex (ngp : nat) (m : list T) : nat -> vec3 T :=
    fold_left (fun q gp =>
      upd q (ngp - gp - 1)%nat
          (V3 (nth (1 + 3 * gp) m $0) (nth (1 + 3 * gp + 1) m $0) (nth (1 + 3 * gp + 2) m $0)))
      (seq 0 ngp) (fun _ => vzero).

  (** rkdg_swe_dbc_distributed.hpp lines 38-98, Distributed::ComputeFlux. *)
  Definition distributed_flux (g : T) (wet_in : bool) (ngp : nat) (m : list T)
      (q_in : nat -> vec3 T) (a : nat -> aux3 T) (n : nat -> vec2 T)
      (F0 : nat -> vec3 T) : nat -> vec3 T :=
    let wet_ex := decode_wet m in
    let q_ex := decode_q_ex ngp m in
    fold_left (fun F gp =>
      upd F gp (distributed_point g wet_in wet_ex (q_in gp) (q_ex gp) (a gp) (n gp)))
      (seq 0 ngp) F0.

  (** source/problem/SWE/discretization_RKDG/interface_specializations/rkdg_swe_is_levee.hpp
      lines 79-172: one Gauss point of Levee::ComputeFlux.  H_tolerance = 0.01. *)
  Definition levee_tol : T := $1 / $100.
  (** lines 108-116 and 137-145: weir discharge from the higher side (head
      [hi]) to the lower side (head [lo]). *)
  Definition weir (g C_sub C_super hi lo : T) : T :=
    if ($2 * hi / $3) <? lo then C_sub * lo * nsqrt ($2 * g * (hi - lo))
    else C_super * ($2 * hi / $3) * nsqrt (g * ($2 * hi / $3)).
  Definition levee_point (g H_levee C_sub C_super : T) (wet_in wet_ex : bool)
      (q_in q_ex : vec3 T) (a_in a_ex : aux3 T) (n_in n_ex : vec2 T) : vec3 T * vec3 T :=
    let h_in := ze q_in - H_levee in
    let h_ex := ze q_ex - H_levee in
    let '(q_in_ex, q_ex_ex, g_in, g_ex) :=
      if ((h_in <=? levee_tol) && (h_ex <=? levee_tol)) || (nabs (h_in - h_ex) <=? levee_tol) then
        (land_ex n_in q_in, land_ex n_ex q_ex, g, g)
      else if h_ex <? h_in then
        let qn := weir g C_sub C_super h_in h_ex in
        let qt := $0 in
        let x := qn * nx n_in + qt * - ny n_in in
        let y := qn * ny n_in + qt * nx n_in in
        (V3 (ze q_in) x y, V3 (ze q_ex) x y, g, if negb wet_ex then $0 else g)
      else (* h_in < h_ex: equality is covered by the tolerance branch *)
        let qn := weir g C_sub C_super h_ex h_in in
        let qt := $0 in
        let x := qn * nx n_ex + qt * - ny n_ex in
        let y := qn * ny n_ex + qt * nx n_ex in
        (V3 (ze q_in) x y, V3 (ze q_ex) x y, if negb wet_in then $0 else g, g)
    in
    (LLF_flux g_in q_in q_in_ex a_in n_in, LLF_flux g_ex q_ex q_ex_ex a_ex n_ex).

  (** source/problem/SWE/discretization_RKDG/dist_boundary_conditions/rkdg_swe_dbc_distributed_levee.hpp
      lines 90-158: one Gauss point of DistributedLevee::ComputeFlux. *)
  Definition dist_levee_point (g H_levee C_sub C_super : T) (wet_in : bool)
      (q_in q_ex : vec3 T) (a : aux3 T) (n : vec2 T) : vec3 T :=
    let h_in := ze q_in - H_levee in
    let h_ex := ze q_ex - H_levee in
    let '(q_x, g_x) :=
      if ((h_in <=? levee_tol) && (h_ex <=? levee_tol)) || (nabs (h_in - h_ex) <=? levee_tol) then
        (land_ex n q_in, g)
      else if h_ex <? h_in then
        let qn := weir g C_sub C_super h_in h_ex in
        let qt := $0 in
        (V3 (ze q_in) (qn * nx n + qt * - ny n) (qn * ny n + qt * nx n), g)
      else
        let qn := weir g C_sub C_super h_ex h_in in
        let qt := $0 in
        (V3 (ze q_in) (- (qn * nx n + qt * - ny n)) (- (qn * ny n + qt * nx n)),
         if negb wet_in then $0 else g)
    in
    LLF_flux g_x q_in q_x a n.

  (** rkdg_swe_bc_flow.hpp lines 89-91: exterior state for a prescribed normal discharge qn. *)
  Definition flow_ex (qn : T) (n : vec2 T) (q : vec3 T) : vec3 T :=
    V3 (ze q) (qn * nx n) (qn * ny n).
  (** rkdg_swe_bc_tide.hpp lines 74-86: exterior state for a prescribed elevation. *)
  Definition tide_ex (elev : T) (q : vec3 T) : vec3 T := V3 elev (qx q) (qy q).

  (** source/problem/SWE/problem_stabilization_parameters/swe_stab_param_LF.hpp lines 7-42,
      get_tau_LF: the scalar multiplying the identity.  Both overloads use Global::g
      ([g]); the second one's [gravity] argument is unused, here [_gravity]. *)
  Definition tau_LF (g : T) (q : vec3 T) (a : aux3 T) (n : vec2 T) : T :=
    let h := hh a in
    let u := qx q / h in
    let v := qy q / h in
    let c := nsqrt (g * h) in
    let un := u * nx n + v * ny n in
    c + nabs un.
  Definition tau_LF_gravity (g _gravity : T) (q : vec3 T) (a : aux3 T) (n : vec2 T) : T :=
    tau_LF g q a n.

  (** utilities/sign.hpp: (0 < v) - (v < 0). *)
  Definition nsign (x : T) : T := if $0 <? x then $1 else if x <? $0 then - $1 else $0.

  (** swe_stab_param_LF.hpp lines 44-100. *)
  Definition dtau_dze_LF (g : T) (q : vec3 T) (a : aux3 T) (n : vec2 T) : T :=
    let h := hh a in
    let un := (qx q / h) * nx n + (qy q / h) * ny n in
    let dc_dze := nsqrt (g / h) / $2 in
    let dun_dze := - un / h in
    dc_dze + dun_dze * nsign un.
  Definition dtau_dqx_LF (q : vec3 T) (a : aux3 T) (n : vec2 T) : T :=
    let h := hh a in
    let un := (qx q / h) * nx n + (qy q / h) * ny n in
    let dun_dqx := nx n / h in
    dun_dqx * nsign un.
  Definition dtau_dqy_LF (q : vec3 T) (a : aux3 T) (n : vec2 T) : T :=
    let h := hh a in
    let un := (qx q / h) * nx n + (qy q / h) * ny n in
    let dun_dqy := ny n / h in
    dun_dqy * nsign un.

  (** *** Explicit HDG *)

  (** source/problem/SWE/discretization_EHDG/boundary_conditions/ehdg_swe_bc_land.hpp
      lines 78-82 (and 38-45): trace state at a land boundary. *)
  Definition ehdg_land_trace (n : vec2 T) (q : vec3 T) : vec3 T :=
    let qn := qx q * nx n + qy q * ny n in
    V3 (ze q) (qx q - qn * nx n) (qy q - qn * ny n).

  (** ehdg_swe_bc_land.hpp lines 68-89, Land::ComputeFlux (aux_hat is used as
      passed, its h is not recomputed). *)
  Definition ehdg_land_point (g : T) (n : vec2 T) (q : vec3 T) (a_hat : aux3 T) : vec3 T :=
    let q_hat := ehdg_land_trace n q in
    vadd (get_Fn g q_hat a_hat n) (vscale (tau_LF_gravity g g q_hat a_hat n) (vsub q q_hat)).

  (** ehdg_swe_bc_land.hpp lines 29-66, Land::ComputeNumericalFlux at one Gauss
      point: h of the trace is recomputed from the trace elevation. *)
  Definition ehdg_land_flux (g : T) (n : vec2 T) (q : vec3 T) (a_hat : aux3 T) : vec3 T :=
    let q_hat := ehdg_land_trace n q in
    let a := Aux (bath a_hat) (ze q_hat + bath a_hat) (sp a_hat) in
    vadd (get_Fn g q_hat a n) (vscale (tau_LF g q_hat a n) (vsub q q_hat)).

  (** Trace state and auxiliaries, ehdg_swe_is_internal.hpp lines 36-46. *)
  Definition ehdg_qhat (q_in q_ex : vec3 T) : vec3 T :=
    V3 ((ze q_in + ze q_ex) / $2) ((qx q_in + qx q_ex) / $2) ((qy q_in + qy q_ex) / $2).
  Definition ehdg_ahat (q_hat : vec3 T) (a_hat : aux3 T) : aux3 T :=
    Aux (bath a_hat) (ze q_hat + bath a_hat) (sp a_hat).

  (** source/problem/SWE/discretization_EHDG/interface_specializations/ehdg_swe_is_internal.hpp
      lines 48-72: trace flux loop.  boundary_in.F_hat is first filled for all
      Gauss points (line 50); then, Gauss point by Gauss point and in place,
        F_ex[gp] = -F_in[gp_ex]; F_in[gp] += tau (q_in[gp] - q_hat[gp]);
        F_ex[gp_ex] += tau (q_ex[gp_ex] - q_hat[gp]). *)
  Definition ehdg_stab_loop (ngp : nat) (tau : nat -> T) (q_in q_ex q_hat : nat -> vec3 T)
      (F : (nat -> vec3 T) * (nat -> vec3 T)) : (nat -> vec3 T) * (nat -> vec3 T) :=
    fold_left (fun F gp =>
      let gp_ex := (ngp - gp - 1)%nat in
      let Fex1 := upd (snd F) gp (vneg (fst F gp_ex)) in
      let Fin1 := upd (fst F) gp
                    (vadd (fst F gp) (vscale (tau gp) (vsub (q_in gp) (q_hat gp)))) in
      let Fex2 := upd Fex1 gp_ex
                    (vadd (Fex1 gp_ex) (vscale (tau gp) (vsub (q_ex gp_ex) (q_hat gp)))) in
      (Fin1, Fex2))
      (seq 0 ngp) F.

  (** ehdg_swe_is_internal.hpp lines 79-146: wetting/drying correction at one
      Gauss point, given the two stabilised fluxes. *)
  Definition ehdg_wd_point (g : T) (wet_in wet_ex : bool)
      (q_in q_ex q_hat : vec3 T) (a_hat : aux3 T) (n_in n_ex : vec2 T)
      (F_in F_ex : vec3 T) : vec3 T * vec3 T :=
    if n1em12 <? ze F_in then
      if negb wet_in then (vzero, ehdg_land_point g n_ex q_ex a_hat)
      else if negb wet_ex then
        let G := vadd (get_Fn $0 q_hat a_hat n_ex)
                      (vscale (tau_LF_gravity g $0 q_hat a_hat n_ex) (vsub q_ex q_hat)) in
        (F_in, V3 (- ze F_in) (qx G) (qy G))
      else (F_in, F_ex)
    else if ze F_in <? - n1em12 then
      if negb wet_ex then (ehdg_land_point g n_in q_in a_hat, vzero)
      else if negb wet_in then
        let G := vadd (get_Fn $0 q_hat a_hat n_in)
                      (vscale (tau_LF_gravity g $0 q_hat a_hat n_in) (vsub q_in q_hat)) in
        (V3 (- ze F_ex) (qx G) (qy G), F_ex)
      else (F_in, F_ex)
    else (F_in, F_ex).

  (** ehdg_swe_is_internal.hpp lines 25-151, Internal::ComputeNumericalFlux.
      [a_hat] carries the averaged bathymetry; [F0] is the stale content of
      the two flux buffers.  When both elements are dry nothing is written. *)
  Definition ehdg_internal_flux (g : T) (wet_in wet_ex : bool) (ngp : nat)
      (q_in q_ex : nat -> vec3 T) (a_hat0 : nat -> aux3 T) (n_in n_ex : nat -> vec2 T)
      (F0 : (nat -> vec3 T) * (nat -> vec3 T)) : (nat -> vec3 T) * (nat -> vec3 T) :=
    if wet_in || wet_ex then
      let q_hat := fun gp => ehdg_qhat (q_in gp) (q_ex (ngp - gp - 1)%nat) in
      let a_hat := fun gp => ehdg_ahat (q_hat gp) (a_hat0 gp) in
      let tau := fun gp => tau_LF g (q_hat gp) (a_hat gp) (n_in gp) in
      let Fin0 := fun gp => if Nat.ltb gp ngp then get_Fn g (q_hat gp) (a_hat gp) (n_in gp)
                            else fst F0 gp in
      let F1 := ehdg_stab_loop ngp tau q_in q_ex q_hat (Fin0, snd F0) in
      fold_left (fun F gp =>
        let gp_ex := (ngp - gp - 1)%nat in
        let P := ehdg_wd_point g wet_in wet_ex (q_in gp) (q_ex gp_ex) (q_hat gp) (a_hat gp)
                               (n_in gp) (n_ex gp_ex) (fst F gp) (snd F gp_ex) in
        (upd (fst F) gp (fst P), upd (snd F) gp_ex (snd P)))
        (seq 0 ngp) F1
    else F0.

  (** source/problem/SWE/discretization_EHDG/dist_boundary_conditions/ehdg_swe_dbc_distributed.hpp
      lines 70-134, one Gauss point of Distributed::ComputeNumericalFlux. *)
  Definition ehdg_distributed_point (g : T) (wet_in wet_ex : bool)
      (q_in q_ex : vec3 T) (a_hat0 : aux3 T) (n : vec2 T) : vec3 T :=
    let q_hat := ehdg_qhat q_in q_ex in
    let a_hat := ehdg_ahat q_hat a_hat0 in
    let F := vadd (get_Fn g q_hat a_hat n) (vscale (tau_LF g q_hat a_hat n) (vsub q_in q_hat)) in
    if n1em12 <? ze F then
      if negb wet_in then vzero else F
    else if ze F <? - n1em12 then
      if negb wet_ex then ehdg_land_point g n q_in a_hat
      else if negb wet_in then
        let G := vadd (get_Fn $0 q_hat a_hat n)
                      (vscale (tau_LF_gravity g $0 q_hat a_hat n) (vsub q_in q_hat)) in
        V3 (ze F) (qx G) (qy G)
      else F
    else F.
End Flux.

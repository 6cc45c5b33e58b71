(** Troubled cell indicator, problem/SWE/problem_slope_limiter/swe_trouble_check.hpp,
    called from swe_CS_sl_serial.hpp line 20 and swe_CS_sl_ompi.hpp line 64 after
    the prepare kernels.  Its result slope_limit_state.troubled is read by the
    Green-Naghdi correction only (ehdg_gn_proc_volume.hpp line 99).  Reals for
    double; a quotient with denominator zero compares as in IEEE arithmetic.
    Elements are numbered by their ID; neighbour IDs outside the mesh (DEFAULT_ID,
    or an element of another submesh) are numbers not below m_n. *)
From Coq Require Import Reals List Bool Arith.
From Verif Require Import Num ModelSWE Outcome ModelShape ModelBasis ModelWetDry ModelStep.
Import ListNotations.
Open Scope R_scope.

(** A distributed boundary with the depths of the received message (lines 75-79;
    the sender swe_CS_slope_limiter.hpp lines 58-71 leaves zeros when it is dry). *)
Record dface := DFace { d_elt : nat; d_id : nat; d_h : nat -> R }.
(** slope_limit_state.I and .perimeter by element. *)
Definition indic : Type := nat -> R * R.

Section Trouble.
  Context (m : mesh) (neigh : nat -> list nat) (dbs : list dface) (k : nat) (st : mstate).

  (** aux_at_gp row h on a face, lines 24-27. *)
  Definition h_face (e b gp : nat) : R := ze (q_face m st k e b gp) + bath (m_faux m e b gp).
  (** Lines 29-35: rows [rx] and [ry] of q_at_gp against the normal. *)
  Definition qn (rx ry : nat) (n : vec2 R) (q : vec3 R) : R := nx n * vget q rx + ny n * vget q ry.
  (** geometry/interface.hpp lines 268 and 342, boundary.hpp: u_gp * int_fact. *)
  Definition face_integration (e_len b_len : nat) (u : nat -> R) : R :=
    vmsum (ngp1 m) (fun gp => u gp * (w1 m gp * GetSurfaceJ (m_nodes m e_len) b_len)).
  Definition add_face (I : indic) (e b : nat) (jump : R) : indic :=
    upd I e (fst (I e) + Rabs jump, snd (I e) + nth b (GetLengths (m_nodes m e)) 0).

  (** Lines 14-61. *)
  Definition trouble_intface (rx ry : nat) (I : indic) (f : intface) : indic :=
    let '(ei, bi, ex, bx) := (i_in f, i_bin f, i_ex f, i_bex f) in
    if ms_wet st ei || ms_wet st ex then
      let n := normal m ei bi in
      let I1 :=
        if Rltb (face_integration ei bi (fun gp => qn rx ry n (q_face m st k ei bi gp))) 0 then
          add_face I ei bi (face_integration ei bi (fun gp => h_face ei bi gp - h_face ex bx (ngp1 m - gp - 1)))
        else I in
      if Rltb (face_integration ei bi (fun gp => qn rx ry (opp n) (q_face m st k ex bx gp))) 0 then
        add_face I1 ex bx (face_integration ei bi (fun gp => h_face ex bx gp - h_face ei bi (ngp1 m - gp - 1)))
      else I1
    else I.
  (** Lines 63-85. *)
  Definition trouble_dbound (rx ry : nat) (I : indic) (d : dface) : indic :=
    let '(e, b) := (d_elt d, d_id d) in
    if ms_wet st e then
      if Rltb (face_integration e b (fun gp => qn rx ry (normal m e b) (q_face m st k e b gp))) 0 then
        add_face I e b (face_integration e b (fun gp => h_face e b gp - d_h d (ngp1 m - gp - 1)))
      else I
    else I.
  Definition indicator (rx ry : nat) : indic :=
    fold_left (trouble_dbound rx ry) dbs (fold_left (trouble_intface rx ry) (m_intfaces m) (fun _ => (0, 0))).

  (** Lines 93-97; q_at_vrtx is set in swe_CS_slope_limiter.hpp lines 15-17. *)
  Definition ze_vrtx (e vrtx : nat) : R :=
    match ProjectBasisToLinear (m_p m) (ms_q st e k 0%nat) with Ok l => l vrtx | _ => 0 end.
  Definition h_norm (e : nat) : R :=
    fold_left (fun h vrtx => Rmax h (ze_vrtx e vrtx + m_bath m e vrtx)) (seq 0 3) 0.
  Definition exceeds_one (num den : R) : bool := if Req_EM_T den 0 then Rltb 0 num else Rltb 1 (num / den).
  (** Lines 89-104. *)
  Definition flagged (rx ry : nat) (e : nat) : bool :=
    let I := indicator rx ry e in
    ms_wet st e && (if Req_EM_T (snd I) 0 then false else true) &&
    exceeds_one (fst I) (Rpower (GetRadius (m_nodes m e)) ((INR (m_p m) + 1) / 2) * snd I * h_norm e).

  (** Lines 106-115: troubled flags and the current area. *)
  Definition pass (a : (nat -> bool) * (nat -> bool)) : (nat -> bool) * (nat -> bool) :=
    let '(troubled, area) := a in
    fold_left (fun t e => if area e then (upd (fst t) e true, fun i => existsb (Nat.eqb i) (neigh e) || snd t i) else t)
      (seq 0 (m_n m)) (troubled, fun _ => false).
  Definition check_trouble_rows (rx ry : nat) : nat -> bool :=
    fst (Nat.iter 6 pass (fun _ => false, fun e => Nat.ltb e (m_n m) && flagged rx ry e)).
  (** GlobalCoord::x = 0 and GlobalCoord::y = 1 (general_definitions.hpp line 234). *)
  Definition check_trouble : nat -> bool := check_trouble_rows 0 1.
End Trouble.

(** What the dispersive correction is to compute. *)
From Coq Require Import Reals List Bool Arith.
From Coquelicot Require Import Hierarchy Derive.
From Verif Require Import Num ModelSWE ModelShape ModelBasis ModelStep SpecShape SpecBasis SpecStepper SpecStep SpecStage.
Import ListNotations.
Open Scope R_scope.

(** ** The mesh skeleton: edge [k] is interface [k], or boundary [k - number of
    interfaces].  A side: element, face, whether it runs against the edge. *)
Definition edge_sides (m : mesh) (k : nat) : list (nat * nat * bool) :=
  match nth_error (m_intfaces m) k with
  | Some f => [(i_in f, i_bin f, false); (i_ex f, i_bex f, true)]
  | None => match nth_error (m_bounds m) (k - length (m_intfaces m)) with Some b => [(b_elt b, b_id b, false)] | None => [] end
  end.
Definition n_edges (m : mesh) : nat := (length (m_intfaces m) + length (m_bounds m))%nat.

(** ** The source term at a point: depth [h] with slope [ha], slopes of the bed b_a, b_ac,
    b_acd, of the surface z_a, velocity u_i, u_ia, u_iac.  With
      c1 = vx uy + ux^2 + ux vy + vy^2  and  c4 = (u.grad)^2 b
    it is  grad (2/3 h^3 c1 + 1/2 h^2 c4) + (h^2 c1 + h c4) grad b + g/alpha h grad zeta. *)
Definition c1_of (u1 : nat -> nat -> R) : R :=
  u1 1%nat 0%nat * u1 0%nat 1%nat + u1 0%nat 0%nat ^ 2 + u1 0%nat 0%nat * u1 1%nat 1%nat + u1 1%nat 1%nat ^ 2.
Definition c4_of (u : nat -> R) (b2 : nat -> nat -> R) : R :=
  u 0%nat ^ 2 * b2 0%nat 0%nat + u 0%nat * u 1%nat * (b2 0%nat 1%nat + b2 1%nat 0%nat) + u 1%nat ^ 2 * b2 1%nat 1%nat.
(** Their slopes, by the product rule, from the slopes of what they are made of. *)
Definition c1_slope (u1 u2 : nat -> nat -> R) : R :=
  u2 1%nat 0%nat * u1 0%nat 1%nat + u1 1%nat 0%nat * u2 0%nat 1%nat + 2 * u1 0%nat 0%nat * u2 0%nat 0%nat +
  (u2 0%nat 0%nat * u1 1%nat 1%nat + u1 0%nat 0%nat * u2 1%nat 1%nat) + 2 * u1 1%nat 1%nat * u2 1%nat 1%nat.
Definition c4_slope (u u' : nat -> R) (b2 b2' : nat -> nat -> R) : R :=
  2 * u 0%nat * u' 0%nat * b2 0%nat 0%nat + u 0%nat ^ 2 * b2' 0%nat 0%nat +
  (u' 0%nat * u 1%nat + u 0%nat * u' 1%nat) * (b2 0%nat 1%nat + b2 1%nat 0%nat) + u 0%nat * u 1%nat * (b2' 0%nat 1%nat + b2' 1%nat 0%nat) +
  2 * u 1%nat * u' 1%nat * b2 1%nat 1%nat + u 1%nat ^ 2 * b2' 1%nat 1%nat.
Definition disp_source (g alpha h : R) (ha : nat -> R) (b : nat -> R) (b2 : nat -> nat -> R) (b3 : nat -> nat -> nat -> R) (z : nat -> R)
    (u : nat -> R) (u1 : nat -> nat -> R) (u2 : nat -> nat -> nat -> R) (a : nat) : R :=
  let c1 := c1_of u1 in let c4 := c4_of u b2 in
  (2 * h ^ 2 * ha a * c1 + 2 / 3 * h ^ 3 * c1_slope u1 (fun i c => u2 i c a)) +
  (h * ha a * c4 + 1 / 2 * h ^ 2 * c4_slope u (fun i => u1 i a) b2 (fun c d => b3 c d a)) +
  (h ^ 2 * c1 + h * c4) * b a + g / alpha * h * z a.

Section Integrals.
  Context (m : mesh).
  Let dofs := dubiner_ndof (m_p m).
  Let ngp := length (m_rule1 m).
  Definition wgt (gp : nat) : R := fst (nth gp (m_rule1 m) (0, 0)).
  Definition pos (gp : nat) : R := snd (nth gp (m_rule1 m) (0, 0)).
  (** Values and derivatives of an expansion at a master point. *)
  Definition val (c : nat -> R) (z : point) : R := rsum dofs (fun j => c j * GetPhi j z).
  Definition grad (a e : nat) (d : point) : R := match a with 0%nat => grad_x (m_nodes m e) d | _ => grad_y (m_nodes m e) d end.
  Definition dval (a e : nat) (c : nat -> R) (z : point) : R := rsum dofs (fun j => c j * grad a e (GetDPhi j z)).
  (** Integral over an element of a function of Gauss point number and master point. *)
  Definition vol_int (e : nat) (F : nat -> point -> R) : R :=
    tri_area (m_nodes m e) / 2 * rsum (length (m_rule2 m)) (fun gp =>
      let '(w, z) := nth gp (m_rule2 m) (0, (0, 0)) in w * F gp z).

  (** Half the length of edge [k], and the normal outward from a side: that of the first
      side, reversed for the other one. *)
  Definition first_side (k : nat) : nat * nat := match edge_sides m k with (e, b, _) :: _ => (e, b) | [] => (0, 0)%nat end.
  Definition half_len (k : nat) : R := half_side (m_nodes m (fst (first_side k))) (snd (first_side k)).
  Definition out_n (k : nat) (s : nat * nat * bool) (a : nat) : R :=
    let n := normal m (fst (first_side k)) (snd (first_side k)) in
    let x := match a with 0%nat => nx n | _ => ny n end in
    if snd s then - x else x.
  (** Number of the Gauss point of a side that lies at Gauss point [gp] of the edge. *)
  Definition own (s : nat * nat * bool) (gp : nat) : nat := if snd s then (ngp - gp - 1)%nat else gp.
  Definition pt (s : nat * nat * bool) (gp : nat) : point := at_face (snd (fst s)) (pos (own s gp)).
  (** Integral over edge [k] of a function of Gauss point number and point of side [s]. *)
  Definition edge_int (k : nat) (s : nat * nat * bool) (F : nat -> point -> R) : R :=
    half_len k * rsum ngp (fun gp => wgt gp * F gp (pt s gp)).
  (** Integral over the same face with the Gauss points of the side itself. *)
  Definition face_int (k : nat) (s : nat * nat * bool) (F : point -> R) : R :=
    half_len k * rsum ngp (fun gp => wgt gp * F (at_face (snd (fst s)) (pos gp))).
  Definition lam (c : nat -> R) (x : R) : R := rsum (S (m_p m)) (fun j => c j * legendre_phi j x).

  (** The side of an element at a face, seen from the edges. *)
  Definition at_sides (e : nat) (G : nat -> nat * nat * bool -> R) : R :=
    rsum (n_edges m) (fun k => lsum (edge_sides m k) (fun s => if Nat.eqb (fst (fst s)) e then G k s else 0)).

  (** Mean of both sides at a Gauss point of an edge, the value itself on a boundary. *)
  Definition mean (v : nat -> nat -> nat -> R) (k gp : nat) : R :=
    lsum (edge_sides m k) (fun s => v (fst (fst s)) (snd (fst s)) (own s gp)) / INR (length (edge_sides m k)).

  (** ** Weak derivative: coefficients [d] of the projected derivative in direction [a] of
      the values [v] (in the elements) and [vf] (on the faces). *)
  Definition weak_derivative (v : nat -> nat -> R) (vf : nat -> nat -> nat -> R) (a e i : nat) : R :=
    - vol_int e (fun gp z => v e gp * grad a e (GetDPhi i z)) +
    at_sides e (fun k s => half_len k * rsum ngp (fun gp =>
      wgt gp * (mean vf k (own s gp) * out_n k s a) * GetPhi i (at_face (snd (fst s)) (pos gp)))).
  Definition is_derivative (v : nat -> nat -> R) (vf : nat -> nat -> nat -> R) (a : nat) (d : nat -> nat -> R) : Prop :=
    forall e i M, (e < m_n m)%nat -> (i < dofs)%nat ->
    (forall j, (j < dofs)%nat -> is_triangle_int (fun x y => GetPhi i (x, y) * GetPhi j (x, y)) (M j)) ->
    rsum dofs (fun j => tri_area (m_nodes m e) / 2 * M j * d e j) = weak_derivative v vf a e i.

  (** A field given by a polynomial in each element, in master coordinates, with its
      derivatives; [v] and [vf] its values at the Gauss points.  It is single valued
      where both sides of every edge agree. *)
  Definition at2 (gp : nat) : point := snd (nth gp (m_rule2 m) (0, (0, 0))).
  Definition piecewise (d : nat) (P : nat -> point -> R) (D : nat -> point -> point) (v : nat -> nat -> R) (vf : nat -> nat -> nat -> R) : Prop :=
    forall e, (e < m_n m)%nat -> poly_deg d (fun x y => P e (x, y)) /\
      (forall x y, is_derive (fun t => P e (t, y)) x (fst (D e (x, y))) /\ is_derive (fun t => P e (x, t)) y (snd (D e (x, y)))) /\
      (forall gp, (gp < length (m_rule2 m))%nat -> v e gp = P e (at2 gp)) /\
      (forall b gp, (b < 3)%nat -> (gp < ngp)%nat -> vf e b gp = P e (at_face b (pos gp))).
  Definition one_valued (vf : nat -> nat -> nat -> R) : Prop := forall k s t gp, (k < n_edges m)%nat ->
    In s (edge_sides m k) -> In t (edge_sides m k) -> (gp < ngp)%nat ->
    vf (fst (fst s)) (snd (fst s)) (own s gp) = vf (fst (fst t)) (snd (fst t)) (own t gp).

  (** ** Slopes of bed, surface and velocity: each the projected derivative of what it is
      the slope of.  [q] the coefficients, [B] and [Bf] the depth below datum. *)
  Definition elt_val (c : nat -> nat -> R) (e gp : nat) : R := val (c e) (at2 gp).
  Definition face_val (c : nat -> nat -> R) (e b gp : nat) : R := val (c e) (at_face b (pos gp)).
  Record slopes := Slopes { r_b : nat -> nat -> nat -> R; r_bb : nat -> nat -> nat -> nat -> R; r_bbb : nat -> nat -> nat -> nat -> nat -> R;
    r_z : nat -> nat -> nat -> R; r_u : nat -> nat -> nat -> nat -> R; r_uu : nat -> nat -> nat -> nat -> nat -> R }.
  Section Fields.
    Context (q : nat -> nat -> nat -> R) (B : nat -> nat -> R) (Bf : nat -> nat -> nat -> R).
    Definition depth (e gp : nat) : R := elt_val (fun e => q e 0%nat) e gp + B e gp.
    Definition fdepth (e b gp : nat) : R := face_val (fun e => q e 0%nat) e b gp + Bf e b gp.
    Definition veloc (i e gp : nat) : R := elt_val (fun e => q e (S i)) e gp / depth e gp.
    Definition fveloc (i e b gp : nat) : R := face_val (fun e => q e (S i)) e b gp / fdepth e b gp.
    Record slopes_of (D : slopes) : Prop := SlopesOf {
      so_b : forall a, (a < 2)%nat -> is_derivative B Bf a (r_b D a);
      so_bb : forall a c, (a < 2)%nat -> (c < 2)%nat -> is_derivative (elt_val (r_b D a)) (face_val (r_b D a)) c (r_bb D a c);
      so_bbb : forall a c d, (a < 2)%nat -> (c < 2)%nat -> (d < 2)%nat -> is_derivative (elt_val (r_bb D a c)) (face_val (r_bb D a c)) d (r_bbb D a c d);
      so_z : forall a, (a < 2)%nat -> is_derivative (elt_val (fun e => q e 0%nat)) (face_val (fun e => q e 0%nat)) a (r_z D a);
      so_u : forall i a, (i < 2)%nat -> (a < 2)%nat -> is_derivative (veloc i) (fveloc i) a (r_u D i a);
      so_uu : forall i a c, (i < 2)%nat -> (a < 2)%nat -> (c < 2)%nat -> is_derivative (elt_val (r_u D i a)) (face_val (r_u D i a)) c (r_uu D i a c) }.
    (** The bed rises where the depth below datum falls. *)
    Definition bed (D : slopes) (e gp a : nat) : R := - elt_val (r_b D a) e gp.
    Definition fbed (D : slopes) (k gp a : nat) : R := - mean (face_val (r_b D a)) k gp.
    (** The source the code uses has z_a + b_a for the slope of the depth. *)
    Definition gn_source (g alpha : R) (D : slopes) (e a gp : nat) : R :=
      disp_source g alpha (depth e gp) (fun c => elt_val (r_z D c) e gp + bed D e gp c) (bed D e gp) (fun c d => - elt_val (r_bb D c d) e gp)
        (fun c d l => - elt_val (r_bbb D c d l) e gp) (fun c => elt_val (r_z D c) e gp) (fun i => veloc i e gp) (fun i c => elt_val (r_u D i c) e gp)
        (fun i c d => elt_val (r_uu D i c d) e gp) a.
    (** Rate of the momentum. *)
    Definition gn_rate (g alpha : R) (D : slopes) (w1 : nat -> nat -> nat -> R) (e a i : nat) : R :=
      vol_int e (fun gp z => GetPhi i z * (g / alpha * (elt_val (r_z D a) e gp * depth e gp) - val (w1 e a) z)).
  End Fields.

  (** ** The coupled system for w1 (two components), w2 and the trace of w1.
      [h], [b] at the Gauss points of elements, [hh], [bh] at those of edges, [K] the source.
      In the elements
        w1 + alpha b (b.w1) + alpha/2 grad(h b.w1) - alpha/3 grad w2 - alpha/2 (b/h) w2 = K,
        w2 / h^3 = div(w1 / h). *)
  Section System.
    Context (alpha tau : R) (wet : nat -> bool) (h : nat -> nat -> R) (b : nat -> nat -> nat -> R)
            (hh : nat -> nat -> R) (bh : nat -> nat -> nat -> R) (K : nat -> nat -> nat -> R).
    Context (w1 : nat -> nat -> nat -> R) (w2 : nat -> nat -> R) (wh : nat -> nat -> nat -> R).
    Definition bw (e gp : nat) (z : point) : R := b e gp 0%nat * val (w1 e 0%nat) z + b e gp 1%nat * val (w1 e 1%nat) z.
    Definition bwh (k gp : nat) : R := bh k gp 0%nat * lam (wh k 0%nat) (pos gp) + bh k gp 1%nat * lam (wh k 1%nat) (pos gp).

    Definition lhs_w1 (e i a : nat) : R :=
      vol_int e (fun gp z => GetPhi i z * (val (w1 e a) z + alpha * b e gp a * bw e gp z)) -
      alpha / 2 * vol_int e (fun gp z => grad a e (GetDPhi i z) * (h e gp * bw e gp z)) -
      alpha / 3 * vol_int e (fun gp z => GetPhi i z * dval a e (w2 e) z) -
      alpha / 2 * vol_int e (fun gp z => GetPhi i z * (b e gp a / h e gp * val (w2 e) z)) +
      at_sides e (fun k s =>
        - alpha / 3 * tau * face_int k s (fun z => GetPhi i z * val (w1 e a) z) +
        edge_int k s (fun gp z => GetPhi i z *
          (alpha / 3 * tau * lam (wh k a) (pos gp) + alpha / 2 * (hh k gp * bwh k gp) * out_n k s a))).
    Definition eq_w1 (e i a : nat) : Prop := lhs_w1 e i a = vol_int e (fun gp z => GetPhi i z * K e a gp).
    Definition eq_w2 (e i : nat) : Prop :=
      vol_int e (fun gp z => GetPhi i z * (val (w2 e) z / h e gp ^ 3)) +
      vol_int e (fun gp z => (grad 0 e (GetDPhi i z) * val (w1 e 0%nat) z + grad 1 e (GetDPhi i z) * val (w1 e 1%nat) z) / h e gp) -
      at_sides e (fun k s => edge_int k s (fun gp z => GetPhi i z *
        ((lam (wh k 0%nat) (pos gp) * out_n k s 0 + lam (wh k 1%nat) (pos gp) * out_n k s 1) / hh k gp))) = 0.

    Definition wet_side (s : nat * nat * bool) : bool := wet (fst (fst s)).
    (** Between wet elements the flux w2 n + tau (w1 - trace) is conserved; at an open
        boundary it vanishes; at a wall or a dry neighbour the trace is the tangential part. *)
    Definition eq_flow (k j a : nat) : Prop :=
      lsum (edge_sides m k) (fun s => edge_int k s (fun gp z => legendre_phi j (pos gp) *
        (val (w2 (fst (fst s))) z * out_n k s a + tau * (val (w1 (fst (fst s)) a) z - lam (wh k a) (pos gp))))) = 0.
    Definition eq_wall (k j a : nat) : Prop :=
      lsum (filter wet_side (edge_sides m k)) (fun s => edge_int k s (fun gp z => legendre_phi j (pos gp) *
        (val (w1 (fst (fst s)) a) z - out_n k s a *
           (out_n k s 0 * val (w1 (fst (fst s)) 0%nat) z + out_n k s 1 * val (w1 (fst (fst s)) 1%nat) z) - lam (wh k a) (pos gp)))) = 0.
    Definition is_wall (k : nat) : bool :=
      match nth_error (m_intfaces m) k with
      | Some f => negb (wet (i_in f) && wet (i_ex f))
      | None => match nth_error (m_bounds m) (k - length (m_intfaces m)) with
                | Some b => match b_bc b with Land => true | Exterior _ => false end
                | None => false end
      end.
    Definition wet_k (k : nat) : bool := existsb wet_side (edge_sides m k).

    Definition element_system : Prop := forall e i, (e < m_n m)%nat -> wet e = true -> (i < dofs)%nat ->
      (forall a, (a < 2)%nat -> eq_w1 e i a) /\ eq_w2 e i.
    Definition edge_system : Prop := forall k j a, (k < n_edges m)%nat -> wet_k k = true -> (j < S (m_p m))%nat -> (a < 2)%nat ->
      if is_wall k then eq_wall k j a else eq_flow k j a.
    Definition gn_system : Prop := element_system /\ edge_system.
  End System.

  (** ** When the system can be solved.  The homogeneous problems have only the zero
      solution: that of w2 alone, that of an element with vanishing traces, and the coupled one. *)
  Section Solvable.
    Context (alpha tau : R) (wet : nat -> bool) (h : nat -> nat -> R) (b : nat -> nat -> nat -> R)
            (hh : nat -> nat -> R) (bh : nat -> nat -> nat -> R).
    Let no_trace : nat -> nat -> nat -> R := fun _ _ _ => 0.
    Let no_source : nat -> nat -> nat -> R := fun _ _ _ => 0.
    Definition zero_w1 (w1 : nat -> nat -> nat -> R) (e : nat) : Prop := forall a i, (a < 2)%nat -> (i < dofs)%nat -> w1 e a i = 0.
    Definition zero_w2 (w2 : nat -> nat -> R) (e : nat) : Prop := forall i, (i < dofs)%nat -> w2 e i = 0.
    Definition w2_alone : Prop := forall e w2, (e < m_n m)%nat -> wet e = true ->
      (forall i, (i < dofs)%nat -> vol_int e (fun gp z => GetPhi i z * (val (w2 e) z / h e gp ^ 3)) = 0) -> zero_w2 w2 e.
    Definition element_alone : Prop := forall e w1 w2, (e < m_n m)%nat -> wet e = true ->
      (forall i a, (i < dofs)%nat -> (a < 2)%nat -> eq_w1 alpha tau h b hh bh no_source w1 w2 no_trace e i a) ->
      (forall i, (i < dofs)%nat -> eq_w2 h hh w1 w2 no_trace e i) -> zero_w1 w1 e.
    Definition coupled_alone : Prop := forall w1 w2 wh, gn_system alpha tau wet h b hh bh no_source w1 w2 wh ->
      (forall e, (e < m_n m)%nat -> wet e = true -> zero_w1 w1 e) /\
      (forall k a j, (k < n_edges m)%nat -> wet_k wet k = true -> (a < 2)%nat -> (j < S (m_p m))%nat -> wh k a j = 0).
    Definition solvable : Prop := w2_alone /\ element_alone /\ coupled_alone.
  End Solvable.
End Integrals.

(** ** A correction stage: from the coefficients at stage [k] to the next.  [load] is the
    right-hand side of the mass system, zero for the elevation and where the correction
    is off. *)
Definition gn_load (m : mesh) (g alpha : R) (active : nat -> bool) (q : nat -> nat -> nat -> R) (D : slopes) (w1 : nat -> nat -> nat -> R) (e : nat) : coeffs :=
  fun v i => if active e then match v with 0%nat => 0 | S a => gn_rate m q (fun e gp => bath (m_aux m e gp)) g alpha D w1 e a i end else 0.
Definition gn_advance (m : mesh) (c : config) (dt : R) (n k : nat) (load : nat -> coeffs) (st st' : mstate) : Prop :=
  ms_wet st' = ms_wet st /\ forall e, (e < m_n m)%nat ->
    solves_mass m e (ms_sol st' e k) (load e) /\
    (forall v i, ms_q st' e ((k + 1) mod n)%nat v i = shu_osher c dt k (ms_q st e) (ms_sol st' e) v i) /\
    (forall j, j <> k -> ms_sol st' e j = ms_sol st e j) /\
    ((k + 1 < n)%nat -> forall j, j <> (k + 1)%nat -> ms_q st' e j = ms_q st e j).
(** Edge weights that are not negative and the same from both ends. *)
Definition good_weights (rule : list (R * R)) : Prop := forall gp, (gp < length rule)%nat ->
  0 <= fst (nth gp rule (0, 0)) /\ fst (nth (length rule - gp - 1) rule (0, 0)) = fst (nth gp rule (0, 0)).

Definition no_wet_levee (m : mesh) (wet : nat -> bool) : Prop :=
  forall f, In f (m_intfaces m) -> i_kind f <> Internal -> wet (i_in f) = false /\ wet (i_ex f) = false.

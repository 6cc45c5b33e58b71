(** What the units of the distributed Green-Naghdi correction receive, and when they hold
    what the serial correction holds. *)
From Coq Require Import Reals List Bool Arith.
From Verif Require Import Num ModelSWE ModelShape ModelBasis ModelStep ModelIHDG ModelGN ModelIPar ModelGPar SpecComm SpecStepper SpecStep SpecIHDG SpecIPar.
Import ListNotations.
Open Scope R_scope.

Section GShares.
  Context (m : mesh) (us : list iunit) (own : nat -> bool).
  Definition wets_shared (wet : nat -> bool) (wets : nat -> nat -> bool) : Prop :=
    forall u e, (u < length us)%nat -> In e (un_elts (the_unit us u)) -> wets u e = wet e.
  (** [n] coefficients by element. *)
  Definition field_shared (n : nat) (x : nat -> nat -> R) (xs : nat -> nat -> nat -> R) : Prop :=
    forall u e i, (u < length us)%nat -> In e (un_elts (the_unit us u)) -> (i < n)%nat -> xs u e i = x e i.

  (** Each half edge has received what the unit with the other half sent. *)
  Definition mailed (boxes : nat -> mailbox) (qs : nat -> nat -> coeffs) (wets : nat -> nat -> bool) : Prop :=
    forall u d, (u < length us)%nat -> In d (un_dist (the_unit us u)) -> exists v d',
      (v < length us)%nat /\ In d' (un_dist (the_unit us v)) /\ de_edge d = de_edge d' /\ u <> v /\
      carries (in_bath (boxes u) d) (bath_message m d') (length (m_rule1 m)) /\
      carries (in_dbath (boxes u) d) (dbath_message m (the_unit us v) (boxes v) d') (2 * length (m_rule1 m)) /\
      carries (in_ddbath (boxes u) d) (ddbath_message m (the_unit us v) (boxes v) d') (4 * length (m_rule1 m)) /\
      carries (in_first (boxes u) d) (first_message m (qs v) (wets v) d') (4 * length (m_rule1 m) + 1) /\
      carries (in_du (boxes u) d) (du_message m (the_unit us v) (boxes v) (qs v) d') (4 * length (m_rule1 m)).

  (** Point of the interface, counted along its inner side, that Gauss point [gp] of a half is. *)
  Definition point_of (d : dedge) (gp : nat) : nat :=
    if (de_elt d =? i_in (nth (de_edge d) (m_intfaces m) (Intf 0 0 0 0 Internal)))%nat then gp else (length (m_rule1 m) - gp - 1)%nat.
  (** The element on the other side of a cut. *)
  Definition across (d : dedge) : nat :=
    let f := nth (de_edge d) (m_intfaces m) (Intf 0 0 0 0 Internal) in
    if (de_elt d =? i_in f)%nat then i_ex f else i_in f.

  (** Trace coefficients of the correction (two components, 2 dof + component). *)
  Definition gtraces_shared (z : nat -> nat -> R) (zs : nat -> nat -> nat -> R) : Prop :=
    (forall u k r, (u < length us)%nat -> In k (un_ints (the_unit us u) ++ un_bnds (the_unit us u)) ->
       (r < 2 * S (m_p m))%nat -> zs u k r = z k r) /\
    (forall u d r, (u < length us)%nat -> In d (un_dist (the_unit us u)) -> (r < 2 * S (m_p m))%nat ->
       zs u (de_edge d) r = flip own (de_edge d) (r / 2) * z (de_edge d) r).

  (** Levees have no kernels in the code. *)
  Definition no_wet_levee (wet : nat -> bool) : Prop :=
    forall f, In f (m_intfaces m) -> wet (i_in f) || wet (i_ex f) = true -> i_kind f = Internal.
  (** The matrices of the units against those of the serial code: equal for elements and
      edges held alone; those of a half edge with the signs of the trace basis; those of
      trace against trace are split among the wet halves. *)
  Record blocks_shared (wet : nat -> bool) (s : dcsys) (ss : nat -> dcsys) : Prop := BlocksShared {
    bs_elt : forall u e, (u < length us)%nat -> In e (un_elts (the_unit us u)) ->
      (forall r c, d_11 (ss u) e r c = d_11 s e r c) /\ (forall r c, d_12 (ss u) e r c = d_12 s e r c) /\
      (forall r c, d_21 (ss u) e r c = d_21 s e r c) /\ (forall r c, d_22 (ss u) e r c = d_22 s e r c) /\ (forall r, d_r (ss u) e r = d_r s e r);
    bs_side : forall u k e b r c, (u < length us)%nat -> In k (un_ints (the_unit us u) ++ un_bnds (the_unit us u)) -> In (e, b) (sides m k) -> wet e = true ->
      d_1h (ss u) e b r c = d_1h s e b r c /\ d_2h (ss u) e b r c = d_2h s e b r c /\
      d_h1 (ss u) e b r c = d_h1 s e b r c /\ d_h2 (ss u) e b r c = d_h2 s e b r c;
    bs_edge : forall u k r c, (u < length us)%nat -> In k (un_ints (the_unit us u) ++ un_bnds (the_unit us u)) ->
      existsb (fun eb => wet (fst eb)) (sides m k) = true -> d_hh (ss u) k r c = d_hh s k r c;
    bs_half : forall u d r c, (u < length us)%nat -> In d (un_dist (the_unit us u)) -> wet (de_elt d) = true ->
      d_1h (ss u) (de_elt d) (de_face d) r c = flip own (de_edge d) (c / 2) * d_1h s (de_elt d) (de_face d) r c /\
      d_2h (ss u) (de_elt d) (de_face d) r c = flip own (de_edge d) (c / 2) * d_2h s (de_elt d) (de_face d) r c /\
      d_h1 (ss u) (de_elt d) (de_face d) r c = flip own (de_edge d) (r / 2) * d_h1 s (de_elt d) (de_face d) r c /\
      d_h2 (ss u) (de_elt d) (de_face d) r c = flip own (de_edge d) (r / 2) * d_h2 s (de_elt d) (de_face d) r c;
    bs_cut : forall u v d d' r c, (u < length us)%nat -> (v < length us)%nat -> In d (un_dist (the_unit us u)) -> In d' (un_dist (the_unit us v)) ->
      de_edge d = de_edge d' -> u <> v -> wet (de_elt d) || wet (de_elt d') = true ->
      (if wet (de_elt d) then d_hh (ss u) (de_edge d) r c else 0) + (if wet (de_elt d') then d_hh (ss v) (de_edge d) r c else 0) =
      flip own (de_edge d) (r / 2) * flip own (de_edge d) (c / 2) * d_hh s (de_edge d) r c }.

  (** The equations of the correction before condensation: momentum and its auxiliary
      unknown by wet element, the flux balance by edge with a wet side. *)
  Section Rows.
    Context (wet : nat -> bool) (s : dcsys) (x y z : nat -> nat -> R).
    Definition face_1 (k e b r : nat) : R := rsum (2 * S (m_p m)) (fun c => d_1h s e b r c * z k c).
    Definition face_2 (k e b r : nat) : R := rsum (2 * S (m_p m)) (fun c => d_2h s e b r c * z k c).
    Definition balance_side (e b r : nat) : R :=
      rsum (2 * ndof m) (fun c => d_h1 s e b r c * x e c) + rsum (ndof m) (fun c => d_h2 s e b r c * y e c).
    Definition balance_edge (k r : nat) : R := rsum (2 * S (m_p m)) (fun c => d_hh s k r c * z k c).
    Definition inner_1 (e r : nat) : R :=
      rsum (2 * ndof m) (fun c => d_11 s e r c * x e c) + rsum (ndof m) (fun c => d_12 s e r c * y e c) - d_r s e r.
    Definition inner_2 (e r : nat) : R :=
      rsum (2 * ndof m) (fun c => d_21 s e r c * x e c) + rsum (ndof m) (fun c => d_22 s e r c * y e c).
    Definition on_sides (ks : list nat) (e : nat) (F : nat -> nat -> R) : R :=
      lsum ks (fun k => lsum (sides m k) (fun eb => if (fst eb =? e)%nat then F k (snd eb) else 0)).
    Definition wet_side (eb : nat * nat) : bool := wet (fst eb).
    Definition solves_dc : Prop :=
      (forall e r, (e < m_n m)%nat -> wet e = true -> (r < 2 * ndof m)%nat ->
        inner_1 e r + on_sides (seq 0 (length (m_intfaces m) + length (m_bounds m))) e (fun k b => face_1 k e b r) = 0) /\
      (forall e r, (e < m_n m)%nat -> wet e = true -> (r < ndof m)%nat ->
        inner_2 e r + on_sides (seq 0 (length (m_intfaces m) + length (m_bounds m))) e (fun k b => face_2 k e b r) = 0) /\
      (forall k r, (k < length (m_intfaces m) + length (m_bounds m))%nat -> existsb wet_side (sides m k) = true -> (r < 2 * S (m_p m))%nat ->
        lsum (filter wet_side (sides m k)) (fun eb => balance_side (fst eb) (snd eb) r) + balance_edge k r = 0).
  End Rows.

  (** The equations of the units together: those of each unit, with the balances of the
      halves of a cut added, dry halves giving nothing. *)
  Definition half_balance (wet : nat -> bool) (s : dcsys) (x y z : nat -> nat -> R) (d : dedge) (r : nat) : R :=
    if wet (de_elt d) then balance_side s x y (de_elt d) (de_face d) r + balance_edge s z (de_edge d) r else 0.
  Definition on_halves (un : iunit) (e : nat) (F : nat -> nat -> R) : R :=
    lsum (un_dist un) (fun d => if (de_elt d =? e)%nat then F (de_edge d) (de_face d) else 0).
  Definition solves_dc_par (wets : nat -> nat -> bool) (ss : nat -> dcsys) (xs ys zs : nat -> nat -> nat -> R) : Prop :=
    (forall u e r, (u < length us)%nat -> In e (un_elts (the_unit us u)) -> wets u e = true -> (r < 2 * ndof m)%nat ->
      inner_1 (ss u) (xs u) (ys u) e r + on_sides (un_ints (the_unit us u) ++ un_bnds (the_unit us u)) e (fun k b => face_1 (ss u) (zs u) k e b r) +
      on_halves (the_unit us u) e (fun k b => face_1 (ss u) (zs u) k e b r) = 0) /\
    (forall u e r, (u < length us)%nat -> In e (un_elts (the_unit us u)) -> wets u e = true -> (r < ndof m)%nat ->
      inner_2 (ss u) (xs u) (ys u) e r + on_sides (un_ints (the_unit us u) ++ un_bnds (the_unit us u)) e (fun k b => face_2 (ss u) (zs u) k e b r) +
      on_halves (the_unit us u) e (fun k b => face_2 (ss u) (zs u) k e b r) = 0) /\
    (forall u k r, (u < length us)%nat -> In k (un_ints (the_unit us u) ++ un_bnds (the_unit us u)) -> existsb (wet_side (wets u)) (sides m k) = true -> (r < 2 * S (m_p m))%nat ->
      lsum (filter (wet_side (wets u)) (sides m k)) (fun eb => balance_side (ss u) (xs u) (ys u) (fst eb) (snd eb) r) + balance_edge (ss u) (zs u) k r = 0) /\
    (forall u v d d' r, (u < length us)%nat -> (v < length us)%nat -> In d (un_dist (the_unit us u)) -> In d' (un_dist (the_unit us v)) ->
      de_edge d = de_edge d' -> u <> v -> (r < 2 * S (m_p m))%nat ->
      half_balance (wets u) (ss u) (xs u) (ys u) (zs u) d r + half_balance (wets v) (ss v) (xs v) (ys v) (zs v) d' r = 0).
End GShares.

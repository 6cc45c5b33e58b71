(** When the units of the distributed implicit HDG solver hold what the serial solver
    holds, and the linear system they solve together. *)
From Coq Require Import Reals List Bool Arith Permutation.
From Verif Require Import Num ModelSWE ModelShape ModelBasis ModelStep ModelIHDG ModelIPar SpecComm SpecSWE SpecStepper SpecStep SpecIHDG SpecIHDG2.
Import ListNotations.
Open Scope R_scope.

Definition the_unit (us : list iunit) (u : nat) : iunit := nth u us (IUnit [] [] [] []).
(** The two halves of interface number [ed], cut by a rank boundary.  [own]: the trace
    basis follows the inner side. *)
Definition halves (m : mesh) (own : nat -> bool) (ed : nat) : list dedge :=
  let f := nth ed (m_intfaces m) (Intf 0 0 0 0 Internal) in
  [DEdge ed (i_in f) (i_bin f) (own ed); DEdge ed (i_ex f) (i_bex f) (negb (own ed))].
(** The mesh is divided among units: every element, every interface not cut, every
    boundary and every half of a cut interface is in one unit, with its elements; the
    halves of a cut are in different units. *)
Record divides (m : mesh) (us : list iunit) (cuts : list nat) (own : nat -> bool) : Prop := Divides {
  dv_elts : Permutation (flat_map un_elts us) (seq 0 (m_n m));
  dv_ints : Permutation (flat_map un_ints us ++ cuts) (seq 0 (length (m_intfaces m)));
  dv_bnds : Permutation (flat_map un_bnds us) (seq (length (m_intfaces m)) (length (m_bounds m)));
  dv_dist : Permutation (flat_map un_dist us) (flat_map (halves m own) cuts);
  dv_own : forall un ed ef, In un us -> In ed (un_ints un ++ un_bnds un) -> In ef (sides m ed) -> In (fst ef) (un_elts un);
  dv_half : forall un d, In un us -> In d (un_dist un) -> In (de_elt d) (un_elts un);
  dv_apart : forall un ed, In un us -> In ed cuts ->
    ~ (In (i_in (nth ed (m_intfaces m) (Intf 0 0 0 0 Internal))) (un_elts un) /\
       In (i_ex (nth ed (m_intfaces m) (Intf 0 0 0 0 Internal))) (un_elts un)) }.

(** Face geometry of the cuts, and a quadrature symmetric about the middle of a face. *)
Definition fits (m : mesh) (ed : nat) : Prop :=
  let f := nth ed (m_intfaces m) (Intf 0 0 0 0 Internal) in
  opposite (normal m (i_in f) (i_bin f)) (normal m (i_ex f) (i_bex f)) /\
  half_side (m_nodes m (i_ex f)) (i_bex f) = half_side (m_nodes m (i_in f)) (i_bin f).
Definition symmetric_points (m : mesh) : Prop := forall gp, (gp < length (m_rule1 m))%nat ->
  snd (nth (length (m_rule1 m) - gp - 1) (m_rule1 m) (0, 0)) = - snd (nth gp (m_rule1 m) (0, 0)).

(** Sign of coefficient [j] of a cut edge in the units, relative to the undivided mesh:
    Legendre polynomials of odd degree change sign with the direction of the edge. *)
Definition flip (own : nat -> bool) (ed j : nat) : R := if own ed then 1 else (-1) ^ j.

Section Shares.
  Context (m : mesh) (us : list iunit) (own : nat -> bool).
  (** Element coefficients, trace coefficients and trace bathymetry of the units. *)
  Definition elts_shared (x : nat -> coeffs) (xs : nat -> nat -> coeffs) : Prop := forall u e a i,
    (u < length us)%nat -> In e (un_elts (the_unit us u)) -> (a < 3)%nat -> (i < ndof m)%nat -> xs u e a i = x e a i.
  Definition traces_shared (y : nat -> coeffs) (ys : nat -> nat -> coeffs) : Prop :=
    (forall u ed a j, (u < length us)%nat -> In ed (un_ints (the_unit us u) ++ un_bnds (the_unit us u)) ->
       (a < 3)%nat -> (j < S (m_p m))%nat -> ys u ed a j = y ed a j) /\
    (forall u d a j, (u < length us)%nat -> In d (un_dist (the_unit us u)) -> (a < 3)%nat -> (j < S (m_p m))%nat ->
       ys u (de_edge d) a j = flip own (de_edge d) j * y (de_edge d) a j).
  Definition baths_shared (eaux : nat -> nat -> aux3 R) (eauxs : nat -> nat -> nat -> aux3 R) : Prop :=
    (forall u ed gp, (u < length us)%nat -> In ed (un_ints (the_unit us u) ++ un_bnds (the_unit us u)) ->
       (gp < length (m_rule1 m))%nat -> eauxs u ed gp = eaux ed gp) /\
    (forall u d gp, (u < length us)%nat -> In d (un_dist (the_unit us u)) -> (gp < length (m_rule1 m))%nat ->
       bath (eauxs u (de_edge d) gp) = bath (eaux (de_edge d)
         (if (de_elt d =? i_in (nth (de_edge d) (m_intfaces m) (Intf 0 0 0 0 Internal)))%nat then gp else length (m_rule1 m) - gp - 1)%nat)).

  (** Data of the preprocessor.  Serial: trace bathymetry and initial trace of the
      interfaces cut later.  Units: the edges they hold alone as in the serial code; those
      of a half edge from the message of the unit with the other half. *)
  Definition started (cuts : list nat) (q : nat -> coeffs) (qs : nat -> nat -> coeffs)
      (eaux : nat -> nat -> aux3 R) (qh : nat -> coeffs) (eauxs : nat -> nat -> nat -> aux3 R) (qhs : nat -> nat -> coeffs) : Prop :=
    (forall ed, In ed cuts ->
       (forall gp, (gp < length (m_rule1 m))%nat -> eaux ed gp = int_aux m ed gp) /\
       (forall a j, (a < 3)%nat -> qh ed a j = int_trace m q ed a j)) /\
    (forall u ed, (u < length us)%nat -> In ed (un_ints (the_unit us u) ++ un_bnds (the_unit us u)) ->
       (forall gp, (gp < length (m_rule1 m))%nat -> eauxs u ed gp = eaux ed gp) /\
       (forall a j, (a < 3)%nat -> (j < S (m_p m))%nat -> qhs u ed a j = qh ed a j)) /\
    (forall u d, (u < length us)%nat -> In d (un_dist (the_unit us u)) -> exists v d' first w,
       (v < length us)%nat /\ In d' (un_dist (the_unit us v)) /\ de_edge d = de_edge d' /\ u <> v /\
       carries w (init_message m (qs v) first d') (1 + 4 * length (m_rule1 m))%nat /\
       (forall gp, (gp < length (m_rule1 m))%nat -> eauxs u (de_edge d) gp = init_aux m w d gp) /\
       (forall a j, (a < 3)%nat -> qhs u (de_edge d) a j = init_trace m (qs u) w d a j)).

  (** Part of a half edge in a unit's trace row. *)
  Definition half_row (s : newton) (dq dqh : nat -> coeffs) (d : dedge) (a i : nat) : R :=
    applied (ndof m) (nw_glob s (de_elt d) (de_face d)) (dq (de_elt d)) a i +
    applied (S (m_p m)) (nw_hglob s (de_edge d)) (dqh (de_edge d)) a i - nw_grhs s (de_edge d) a i.
  (** The increments of the units solve the distributed system: element rows and trace
      rows of each unit, and for every cut the sum of the rows of its halves. *)
  Definition solves_par (ss : nat -> newton) (dqs dqhs : nat -> nat -> coeffs) : Prop :=
    (forall u e a i, (u < length us)%nat -> In e (un_elts (the_unit us u)) -> (a < 3)%nat -> (i < ndof m)%nat ->
      applied (ndof m) (nw_delta (ss u) e) (dqs u e) a i +
      lsum (un_ints (the_unit us u) ++ un_bnds (the_unit us u)) (fun ed => lsum (sides m ed) (fun ef =>
        if (fst ef =? e)%nat then applied (S (m_p m)) (nw_hat (ss u) e (snd ef)) (dqhs u ed) a i else 0)) +
      lsum (un_dist (the_unit us u)) (fun d =>
        if (de_elt d =? e)%nat then applied (S (m_p m)) (nw_hat (ss u) e (de_face d)) (dqhs u (de_edge d)) a i else 0)
      = nw_rhs (ss u) e a i) /\
    (forall u ed a i, (u < length us)%nat -> In ed (un_ints (the_unit us u) ++ un_bnds (the_unit us u)) -> (a < 3)%nat -> (i < S (m_p m))%nat ->
      lsum (sides m ed) (fun ef => applied (ndof m) (nw_glob (ss u) (fst ef) (snd ef)) (dqs u (fst ef)) a i) +
      applied (S (m_p m)) (nw_hglob (ss u) ed) (dqhs u ed) a i = nw_grhs (ss u) ed a i) /\
    (forall u v d d' a i, (u < length us)%nat -> (v < length us)%nat -> In d (un_dist (the_unit us u)) -> In d' (un_dist (the_unit us v)) ->
      de_edge d = de_edge d' -> u <> v -> (a < 3)%nat -> (i < S (m_p m))%nat ->
      half_row (ss u) (dqs u) (dqhs u) d a i + half_row (ss v) (dqs v) (dqhs v) d' a i = 0).
  (** Both units of a cut read its increment from the same entries of the global vector. *)
  Definition same_on_cuts (dqhs : nat -> nat -> coeffs) : Prop :=
    forall u v d d' a j, (u < length us)%nat -> (v < length us)%nat -> In d (un_dist (the_unit us u)) -> In d' (un_dist (the_unit us v)) ->
      de_edge d = de_edge d' -> (a < 3)%nat -> (j < S (m_p m))%nat -> dqhs u (de_edge d) a j = dqhs v (de_edge d') a j.

  (** Passes of the distributed Newton loop. *)
  Inductive passes_par (eauxs : nat -> nat -> nat -> aux3 R) (g dt theta t : R) (qps rps q0 qh0 : nat -> nat -> coeffs) :
      nat -> (nat -> nat -> coeffs) -> (nat -> nat -> coeffs) -> Prop :=
  | passes_par_0 : passes_par eauxs g dt theta t qps rps q0 qh0 0 q0 qh0
  | passes_par_S : forall k qs qhs s0 dqs dqhs, passes_par eauxs g dt theta t qps rps q0 qh0 k qs qhs ->
      same_on_cuts dqhs ->
      solves_par (fun u => unit_system m (eauxs u) g dt theta (the_unit us u) t (qps u) (rps u) (qs u) (qhs u) (s0 u)) dqs dqhs ->
      passes_par eauxs g dt theta t qps rps q0 qh0 (S k) (fun u => SpecIHDG2.plus (qs u) (dqs u)) (fun u => SpecIHDG2.plus (qhs u) (dqhs u)).
End Shares.

(** The other gradient methods of the Green-Naghdi solver: least squares
    (D_LEASTSQUARES) and Green-Gauss (D_GREENGAUSS) slopes at the barycentres, and
    their reconstruction to linear functions by interpolation (D_RECON_INT), least
    squares (D_RECON_LS) or averaging at the nodes (D_RECON_AVG):
      problem/Green-Naghdi/problem_preprocessor/gn_pre_init_data.hpp
      problem/Green-Naghdi/problem_data_structure/gn_data_derivative.hpp
      problem/Green-Naghdi/discretization_EHDG/kernels_processor/grad_methods/
        {leastsquares,greengauss}_derivatives_serial.hpp, recon_{int,ls,avg}_derivatives.hpp,
        recon_avg_derivatives_ompi.hpp
      problem/Green-Naghdi/discretization_EHDG/kernels_preprocessor/ehdg_gn_pre_ompi.hpp
    Reals for double, straight triangles, one order for all elements.  One scalar
    row at a time: dze, du and ddu (and the bed slopes of the preprocessor) repeat
    one pattern for every row.  The depth rows the same loops refresh are left out.
    [solve_sle] of a two by two system is library code: a parameter.  A face for
    which the search at lines 49-72 finds no pair keeps what its data held before:
    nothing (None), and reading that is undefined (a is not initialised by Eigen). *)
From Coq Require Import Reals List Bool Arith.
From Verif Require Import Num Outcome ModelSWE ModelShape ModelBasis ModelJac ModelSlope ModelStepper ModelStep ModelGN.
Import ListNotations.
Open Scope R_scope.

Definition pminus (x y : point) : point := (fst x - fst y, snd x - snd y).

(** utilities/almost_equal.hpp lines 18-24, factor 100; epsilon of double is 2^-52. *)
Definition epsilon : R := / 2 ^ 52.
Definition almost_equal (a b : R) : bool :=
  if Rltb (Rmax (Rabs a) (Rabs b)) (epsilon * 100) then true
  else Rltb (Rabs (a - b)) (Rmax (Rabs a) (Rabs b) * epsilon * 100).

(** gn_data_derivative.hpp lines 72-75: the matrix T. *)
Definition T_entry (b v : nat) : R := if Nat.eqb b v then -1 else 1.
Definition mid_to_vrtx (mid : nat -> R) : nat -> R := fun v => vmsum 3 (fun b => mid b * T_entry b v).

(** ** One element, gn_pre_init_data.hpp: barycentre [c], midpoints [mid], barycentres
    across the faces [nb], distributed faces [dist]. *)
Section Element.
  Context (solve : mat2 -> point -> point) (c : point) (mid nb : nat -> point) (dist : nat -> bool).

  (** a[bound] and a_elem[2 bound], a_elem[2 bound + 1]. *)
  Definition pair_data := (R * R * nat * nat)%type.
  (** Lines 54-66. *)
  Definition clean (x : R) : R := if almost_equal x 0 then 0 else x.
  Definition try_pair (bound perm : nat) : option pair_data :=
    let element_1 := bound in
    let element_2 := ((bound + perm + 1) mod 3)%nat in
    let A := M2 (fst (pminus (nb element_1) c)) (fst (pminus (nb element_2) c))
                (snd (pminus (nb element_1) c)) (snd (pminus (nb element_2) c)) in
    let al := solve A (pminus (mid bound) c) in
    let a0 := clean (fst al) in let a1 := clean (snd al) in
    if Rleb 0 a0 && Rleb 0 a1 then Some (a0, a1, element_1, element_2) else None.
  (** Lines 49-72 for the pairs accepted by [ok], the first one that fits; else what was there. *)
  Definition search (ok : nat -> nat -> bool) (old : nat -> option pair_data) (bound : nat) : option pair_data :=
    let attempt perm := if ok bound ((bound + perm + 1) mod 3)%nat then try_pair bound perm else None in
    match attempt 0%nat with
    | Some r => Some r
    | None => match attempt 1%nat with Some r => Some r | None => old bound end
    end.
  (** Lines 45-72 (pairs without distributed faces). *)
  Definition pairs_serial : nat -> option pair_data := search (fun e1 e2 => negb (dist e1) && negb (dist e2)) (fun _ => None).
  (** Lines 104-132, after the barycentres of distributed faces have arrived. *)
  Definition pairs_received : nat -> option pair_data := search (fun e1 e2 => dist e1 || dist e2) pairs_serial.

  (** Lines 74-78 (134-138): P = inverse(D^T D) D^T, a matrix of two rows. *)
  Definition offset (b : nat) : point := pminus (nb b) c.
  Definition gram : mat2 :=
    M2 (vmsum 3 (fun b => fst (offset b) * fst (offset b))) (vmsum 3 (fun b => fst (offset b) * snd (offset b)))
       (vmsum 3 (fun b => snd (offset b) * fst (offset b))) (vmsum 3 (fun b => snd (offset b) * snd (offset b))).
  Definition P_entry (a b : nat) : R :=
    let G := inverse gram in
    match a with
    | 0%nat => a00 G * fst (offset b) + a01 G * snd (offset b)
    | _ => a10 G * fst (offset b) + a11 G * snd (offset b)
    end.
  (** Lines 28-30. *)
  Definition dX (a b : nat) : R := pcomp a (pminus (mid b) c).

  (** leastsquares_derivatives_serial.hpp lines 108-114 (140-147, 175-182): the slope
      from the value [v] of the element and [vn] across the faces. *)
  Definition ls_slope (v : R) (vn : nat -> R) (a : nat) : R := vmsum 3 (fun b => P_entry a b * (vn b - v)).

  (** recon_int_derivatives.hpp lines 40-51: values at the midpoints, then the vertices. *)
  Definition int_mid (pairs : nat -> option pair_data) (s : R) (sn : nat -> R) (b : nat) : outcome R :=
    match pairs b with
    | None => UB
    | Some (a0, a1, e1, e2) => Ok (s + (sn e1 - s) * a0 + (sn e2 - s) * a1)
    end.
  Definition recon_int (pairs : nat -> option pair_data) (s : R) (sn : nat -> R) : outcome (nat -> R) :=
    do m0 <- int_mid pairs s sn 0 ; do m1 <- int_mid pairs s sn 1 ; do m2 <- int_mid pairs s sn 2 ;
    Ok (mid_to_vrtx (fun b => match b with 0%nat => m0 | 1%nat => m1 | _ => m2 end)).
  (** recon_ls_derivatives.hpp lines 40-51. *)
  Definition recon_ls (s : R) (sn : nat -> R) : nat -> R :=
    mid_to_vrtx (fun b => vmsum 3 (fun k => (sn k - s) * vmsum 2 (fun a => P_entry a k * dX a b)) + s).
End Element.

(** ** A mesh *)
Inductive recon_kind := ReconInt | ReconLs.
Section Mesh.
  Context (m : mesh) (solve : mat2 -> point -> point).

  (** Every exchange goes over the interfaces, then the boundaries; [own] is what an
      element shows to its neighbours, [bd] what a boundary face gets, [old] what the
      slots held before. *)
  Definition set2 {A : Type} (F : nat -> nat -> A) (e b : nat) (x : A) : nat -> nat -> A := upd F e (upd (F e) b x).
  Definition exchange {A : Type} (own : nat -> A) (bd : nat -> nat -> A) (old : nat -> nat -> A) : nat -> nat -> A :=
    fold_left (fun F b => set2 F (b_elt b) (b_id b) (bd (b_elt b) (b_id b))) (m_bounds m)
      (fold_left (fun F f => set2 (set2 F (i_in f) (i_bin f) (own (i_ex f))) (i_ex f) (i_bex f) (own (i_in f))) (m_intfaces m) old).

  (** gn_pre_init_data.hpp lines 33-43. *)
  Definition centre (e : nat) : point := GetBarycentricCoordinates (m_nodes m e).
  Definition mid_of (e b : nat) : point := midpoint (m_nodes m e) b.
  Definition nb_coord : nat -> nat -> point := exchange centre mid_of (fun _ _ => (0, 0)).
  Definition pairs_of (e : nat) : nat -> option pair_data := pairs_serial solve (centre e) (mid_of e) (nb_coord e) (fun _ => false).

  (** The slope of one row by least squares, all elements: values at the barycentres
      and midpoints from the values at the vertices (leastsquares_derivatives_serial.hpp
      lines 24-26, 68-91, 108-114). *)
  Definition slope_ls (lin : nat -> nat -> R) (old : nat -> nat -> R) (e a : nat) : R :=
    ls_slope (centre e) (nb_coord e) (u_baryctr (lin e))
      (exchange (fun e => u_baryctr (lin e)) (fun e b => u_midpt (lin e) b) old e) a.
  (** The slope of one row by Green-Gauss: greengauss_derivatives_serial.hpp lines 27-104
      (106-175, 177-245); [vf] the own values at the Gauss points of the faces. *)
  Definition gg_side (vf : nat -> nat -> nat -> R) (a : nat) (ed : gedge) (D : nat -> R) (s : gside) : nat -> R :=
    upd D (s_e s) (D (s_e s) + 1 / GetArea (m_nodes m (s_e s)) *
      vmsum (ngp1 m) (fun gp => vf (s_e s) (s_b s) gp * comp (s_n s) a * (w1 m gp * len m ed))).
  Definition slope_gg (vf : nat -> nat -> nat -> R) (a : nat) : nat -> R :=
    fold_left (fun D ed => fold_left (gg_side vf a ed) (ge_sides ed) D) (gedges m) (fun _ => 0).

  (** reconstruct_dze / du / ddu for one row: the own slope at a boundary. *)
  Definition reconstruct (k : recon_kind) (s : nat -> R) (old : nat -> nat -> R) (e : nat) : outcome (nat -> R) :=
    let sn := exchange s (fun e _ => s e) old e in
    match k with
    | ReconInt => recon_int (pairs_of e) (s e) sn
    | ReconLs => Ok (recon_ls (centre e) (mid_of e) (nb_coord e) (s e) sn)
    end.

  (** compute_derivatives_serial, leastsquares_derivatives_serial.hpp lines 12-54: a row
      of the velocity (or surface) by its coefficients, its slope, and the slope of that
      slope; results as values at the vertices.  [jn] is what the slots held before. *)
  Definition lin_of (u : nat -> nat -> R) (e : nat) : outcome (nat -> R) := ProjectBasisToLinear (m_p m) (u e).
  Definition all_elements (f : nat -> outcome (nat -> R)) : outcome (nat -> nat -> R) :=
    ofold (fun F e => do x <- f e ; Ok (upd F e x)) (seq 0 (m_n m)) (fun _ _ => 0).
  Definition derive_ls (k : recon_kind) (jn : nat -> nat -> R) (u : nat -> nat -> R) (a : nat) : outcome (nat -> nat -> R) :=
    do lin <- all_elements (lin_of u) ; all_elements (reconstruct k (fun e => slope_ls lin jn e a) jn).
  Definition derive2_ls (k : recon_kind) (jn : nat -> nat -> R) (u : nat -> nat -> R) (a c : nat) : outcome (nat -> nat -> R) :=
    do du <- derive_ls k jn u a ; all_elements (reconstruct k (fun e => slope_ls du jn e c) jn).
  (** Green-Gauss takes the second slope from the coefficients of the first (line 177 on). *)
  Definition derive_gg (k : recon_kind) (jn : nat -> nat -> R) (vf : nat -> nat -> nat -> R) (a : nat) : outcome (nat -> nat -> R) :=
    do lin <- all_elements (reconstruct k (slope_gg vf a) jn) ;
    all_elements (fun e => ProjectLinearToBasis (m_p m) (lin e)).
  Definition derive2_gg (k : recon_kind) (jn : nat -> nat -> R) (vf : nat -> nat -> nat -> R) (a c : nat) : outcome (nat -> nat -> R) :=
    do du <- derive_gg k jn vf a ; derive_gg k jn (at_fgp m du) c.

  (** L2Projection (geometry/element.hpp lines 299-304) of values at the Gauss points. *)
  Definition l2 (v : nat -> nat -> R) : nat -> nat -> R := fun e dof =>
    vmsum (ndof m) (fun d => s_phi m e (v e) d * element_minv (m_nodes m e) (GetMinv d dof)).
End Mesh.

(** ** Averaging at the nodes.  [ids e v] is the node number of vertex v. *)
Section Average.
  Context (ids : nat -> nat -> nat).

  (** A std::set of numbers: its elements in ascending order. *)
  Fixpoint set_insert (x : nat) (l : list nat) : list nat :=
    match l with
    | [] => [x]
    | y :: t => if (x <? y)%nat then x :: l else if (x =? y)%nat then l else y :: set_insert x t
    end.
  (** ehdg_gn_pre_ompi.hpp lines 145-155: the nodes of a rank (the elements of all its
      units), and the place of each. *)
  Definition corners : list nat := seq 0 3.
  Definition node_list (els : list nat) : list nat :=
    fold_left (fun s e => fold_left (fun s v => set_insert (ids e v) s) corners s) els [].
  Fixpoint place (x : nat) (l : list nat) : nat :=
    match l with [] => 0%nat | y :: t => if (x =? y)%nat then 0%nat else S (place x t) end.

  (** Lines 201-211, and recon_avg_derivatives_ompi.hpp lines 11-26: one number per place
      of the list, added up over the corners of the elements of the rank. *)
  Definition gather (s : nat -> R) (els : list nat) : nat -> R :=
    fold_left (fun D e => fold_left (fun D v =>
      let l := place (ids e v) (node_list els) in upd D l (D l + s e)) corners D) els (fun _ => 0).
  (** VecSet 0 and VecSetValues ADD_VALUES by the ranks (lines 214-221; 28-35 there). *)
  Definition add_rank (s : nat -> R) (G : nat -> R) (els : list nat) : nat -> R :=
    let L := node_list els in
    fold_left (fun G i => let g := nth i L 0%nat in upd G g (G g + gather s els i)) (seq 0 (length L)) G.
  Definition assembled (s : nat -> R) (ranks : list (list nat)) : nat -> R := fold_left (add_rank s) ranks (fun _ => 0).
  (** Scatter back to the places of a rank, and division (lines 223-246; 37-66 there). *)
  Definition scattered (G : nat -> R) (els : list nat) (i : nat) : R := G (nth i (node_list els) 0%nat).
  Definition average (s : nat -> R) (ranks : list (list nat)) (els : list nat) (e v : nat) : R :=
    let l := place (ids e v) (node_list els) in
    scattered (assembled s ranks) els l / scattered (assembled (fun _ => 1) ranks) els l.

  (** The serial version, recon_avg_derivatives.hpp: local_nodeID as sized by the
      constructor of Derivative (line 23: zeros) and derivatives_at_node as long as the
      global data left it; a subvector outside of it is undefined.  One block of [w]
      numbers per node, [x] the block of an element. *)
  Definition avg_add (w size : nat) (local : nat -> nat -> nat) (x : nat -> nat -> R) (D : nat -> R) (e v : nat) : outcome (nat -> R) :=
    let o := (local e v * w)%nat in
    if (o + w <=? size)%nat
    then Ok (fun k => if (o <=? k)%nat && (k <? o + w)%nat then D k + x e (k - o)%nat else D k)
    else UB.
  Definition avg_serial (n w size : nat) (local : nat -> nat -> nat) (x : nat -> nat -> R) : outcome (nat -> R) :=
    ofold (fun D e => ofold (fun D v => avg_add w size local x D e v) corners D) (seq 0 n) (fun _ => 0).
  (** preprocessor_serial sets neither (ehdg_gn_pre_serial.hpp lines 9-33). *)
  Definition serial_local : nat -> nat -> nat := fun _ _ => 0%nat.
  Definition serial_size : nat := 0%nat.
End Average.

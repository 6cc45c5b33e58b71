(** Properties of the modal bases: C25, C26, C27, C44. *)
From Coq Require Import ZArith Reals Lra Lia Arith List Bool.
From Coquelicot Require Import Coquelicot.
From Verif Require Import Num ModelRun Outcome ModelShape ModelBasis SpecBasis LemmasBasis4.
Import ListNotations.
Open Scope R_scope.

(** * C25: numbering *)
(** The ceiling formula gives the degree whose block contains the number. *)
Theorem C25_degree : forall dof d,
  tri_num_indx dof = d <-> (d * (d + 1) <= 2 * dof /\ 2 * dof < (d + 1) * (d + 2))%nat.
Proof. exact degree_spec. Qed.
Print Assumptions C25_degree.

(** The unsigned subtractions do not wrap. *)
Theorem C25_no_underflow : forall dof,
  (lower_tri_num dof <= dof /\ dubiner_p dof <= tri_num_indx dof /\ dubiner_p dof + dubiner_q dof = tri_num_indx dof)%nat.
Proof. exact no_underflow. Qed.
Print Assumptions C25_no_underflow.

Theorem C25_number_of_pair : forall dof,
  dof = ((dubiner_p dof + dubiner_q dof) * (dubiner_p dof + dubiner_q dof + 1) / 2 + dubiner_p dof)%nat.
Proof. exact numbering. Qed.
Print Assumptions C25_number_of_pair.

Theorem C25_pair_of_number : forall p q,
  dubiner_p ((p + q) * (p + q + 1) / 2 + p) = p /\ dubiner_q ((p + q) * (p + q + 1) / 2 + p) = q.
Proof. exact numbering_inv. Qed.
Print Assumptions C25_pair_of_number.

Theorem C25_prefix : forall dof P,
  (dof < (P + 1) * (P + 2) / 2 <-> dubiner_p dof + dubiner_q dof <= P)%nat.
Proof. exact numbering_range. Qed.
Print Assumptions C25_prefix.

(** Robustness: any computed value this close to the exact one, and equal to it
    where it is an integer, has the same ceiling. *)
Theorem C25_rounding : forall dof d v, (d * (d + 1) <= 2 * dof /\ 2 * dof < (d + 1) * (d + 2))%nat ->
  ((2 * dof + 2 = (d + 1) * (d + 2))%nat -> v = INR d) ->
  Rabs (v - (-3 + sqrt (1 + 8 * INR (dof + 1))) / 2) < 1 / (2 * INR d + 3) ->
  ceilR v = Z.of_nat d.
Proof. exact rounding. Qed.
Print Assumptions C25_rounding.

Example numbering_first : map (fun d => (tri_num_indx d, dubiner_p d, dubiner_q d)) (seq 0 6) =
  [(0, 0, 0); (1, 0, 1); (1, 1, 0); (2, 0, 2); (2, 1, 1); (2, 2, 0)]%nat.
Proof.
  assert (T : forall dof d, (d * (d + 1) <= 2 * dof /\ 2 * dof < (d + 1) * (d + 2))%nat -> tri_num_indx dof = d).
  { intros dof d H. apply degree_spec. exact H. }
  unfold dubiner_q, dubiner_p, lower_tri_num. cbn [map seq].
  rewrite (T 0%nat 0%nat), (T 1%nat 1%nat), (T 2%nat 1%nat), (T 3%nat 2%nat), (T 4%nat 2%nat), (T 5%nat 2%nat) by lia.
  reflexivity.
Qed.

(** * C26: modal and vertex values *)
Theorem C26_vertex_to_modal_and_back : forall p w, (1 <= p)%nat -> exists u w',
  ProjectLinearToBasis p w = Ok u /\ ProjectBasisToLinear p u = Ok w' /\ forall v, (v < 3)%nat -> w' v = w v.
Proof. exact linear_roundtrip. Qed.
Print Assumptions C26_vertex_to_modal_and_back.

(** The other way round keeps the linear part and drops the rest. *)
Theorem C26_modal_to_vertex_and_back : forall p u, (1 <= p)%nat -> exists w u',
  ProjectBasisToLinear p u = Ok w /\ ProjectLinearToBasis p w = Ok u' /\
  (forall i, (i < 3)%nat -> u' i = u i) /\ (forall i, (3 <= i)%nat -> u' i = 0).
Proof. exact modal_roundtrip. Qed.
Print Assumptions C26_modal_to_vertex_and_back.

Theorem C26_vertex_values : forall p u, (1 <= p)%nat -> (forall i, (3 <= i < dubiner_ndof p)%nat -> u i = 0) ->
  exists w, ProjectBasisToLinear p u = Ok w /\
  w 0%nat = vmsum (dubiner_ndof p) (fun i => u i * GetPhi i (-1, -1)) /\
  w 1%nat = vmsum (dubiner_ndof p) (fun i => u i * GetPhi i (1, -1)) /\
  w 2%nat = vmsum (dubiner_ndof p) (fun i => u i * GetPhi i (-1, 1)).
Proof. exact vertex_values. Qed.
Print Assumptions C26_vertex_values.

(** The two representations are the same function on the triangle. *)
Theorem C26_same_function : forall p u z, (1 <= p)%nat -> snd z <> 1 \/ z = (-1, 1) -> exists w,
  ProjectBasisToLinear p u = Ok w /\
  w 0%nat * GetPsi z 0 + w 1%nat * GetPsi z 1 + w 2%nat * GetPsi z 2 =
  u 0%nat * GetPhi 0 z + u 1%nat * GetPhi 1 z + u 2%nat * GetPhi 2 z.
Proof. exact same_function. Qed.
Print Assumptions C26_same_function.

(** Order 0: the tables have fewer than three modal entries, but three are written. *)
Theorem C26_order_zero_refuted : exists p u, ProjectBasisToLinear p u = UB /\ ProjectLinearToBasis p u = UB.
Proof. exists 0%nat, (fun _ => 0). exact (order0 (fun _ => 0)). Qed.
Print Assumptions C26_order_zero_refuted.

Example vertex_example : exists w, ProjectBasisToLinear 2 (fun i => INR (i + 1)) = Ok w /\
  w 0%nat = -4 /\ w 1%nat = 2 /\ w 2%nat = 5.
Proof.
  eexists. split; [reflexivity|]. unfold vmul. cbn. repeat split; ring.
Qed.

(** * C27: the Dubiner basis *)
(** The three-term recurrence evaluates the classical Jacobi polynomial. *)
Theorem C27_jacobi : forall n a b x, (b <= a)%nat -> (n + a + b <= 600)%nat ->
  jacobi_polynomial n (Z.of_nat a) (Z.of_nat b) x = jacobi_classical n a b x.
Proof. exact jacobi_classical_ok. Qed.
Print Assumptions C27_jacobi.

Theorem C27_orthogonality : forall i j, (i < dubiner_ndof 298)%nat -> (j < dubiner_ndof 298)%nat ->
  is_triangle_int (fun z1 z2 => GetPhi i (z1, z2) * GetPhi j (z1, z2)) (if Nat.eqb i j then / GetMinv i i else 0) /\
  (i <> j -> GetMinv i j = 0) /\ 0 < GetMinv i i.
Proof. exact orthogonality. Qed.
Print Assumptions C27_orthogonality.

(** Each function is a polynomial of its degree, evaluated and differentiated
    correctly at every point below the top vertex and at that vertex. *)
Theorem C27_polynomial : forall dof, (dof < dubiner_ndof 298)%nat ->
  exists f : R -> R -> R,
    poly_deg (tri_num_indx dof) f /\
    (forall z1 z2, z2 <> 1 \/ (z1 = -1 /\ z2 = 1) ->
       GetPhi dof (z1, z2) = f z1 z2 /\
       is_derive (fun t => f t z2) z1 (fst (GetDPhi dof (z1, z2))) /\
       is_derive (fun t => f z1 t) z2 (snd (GetDPhi dof (z1, z2)))).
Proof. exact polynomial. Qed.
Print Assumptions C27_polynomial.

Theorem C27_lowest : forall z, snd z <> 1 \/ z = (-1, 1) ->
  GetPhi 0 z = 1 /\ GetPhi 1 z = (1 + 3 * snd z) / 2 /\ GetPhi 2 z = fst z + (1 + snd z) / 2.
Proof. exact first_three. Qed.
Print Assumptions C27_lowest.

(** The mean of an expansion over the triangle (area 2) is its first coefficient. *)
Theorem C27_cell_mean : forall n u, (1 <= n <= dubiner_ndof 298)%nat ->
  is_triangle_int (fun z1 z2 => vmsum n (fun i => u i * GetPhi i (z1, z2))) (2 * u 0%nat).
Proof. exact cell_mean_int. Qed.
Print Assumptions C27_cell_mean.

Example dubiner_example : GetPhi 1 (-1, 1) = 2 /\ GetPhi 2 (1, -1) = 1 /\ GetPhi 1 (-1 / 3, -1 / 3) = 0 /\ GetMinv 2 2 = 3.
Proof.
  destruct (first_three (-1, 1)) as [_ [-> _]]; [right; reflexivity|].
  destruct (first_three (1, -1)) as [_ [_ ->]]; [left; cbn; lra|].
  destruct (first_three (-1 / 3, -1 / 3)) as [_ [-> _]]; [left; cbn; lra|]. cbn [fst snd].
  assert (P : (dubiner_p 2, dubiner_q 2) = (1, 0)%nat) by (apply pq_values).
  assert (P2 := f_equal fst P). assert (Q2 := f_equal snd P). cbn [fst snd] in P2, Q2.
  unfold GetMinv. rewrite P2, Q2. cbn -[IZR]. unfold uint. cbn -[IZR]. repeat split; field.
Qed.

(** * C44: the boundary (Legendre) basis *)
Theorem C44_legendre_orthogonality : forall i j, (i <= 500)%nat -> (j <= 500)%nat ->
  is_RInt (fun x => legendre_phi i x * legendre_phi j x) (-1) 1 (if Nat.eqb i j then / legendre_minv i i else 0) /\
  (i <> j -> legendre_minv i j = 0) /\ 0 < legendre_minv i i.
Proof. exact legendre_orthogonality. Qed.
Print Assumptions C44_legendre_orthogonality.

Theorem C44_legendre_derivative : forall i x, (i <= 500)%nat -> is_derive (legendre_phi i) x (legendre_dphi i x).
Proof. exact legendre_derivative. Qed.
Print Assumptions C44_legendre_derivative.

Example legendre_example : forall x, legendre_phi 1 x = x /\ legendre_phi 2 x = (3 * x * x - 1) / 2 /\ legendre_minv 1 1 = 3 / 2.
Proof.
  intros x. unfold legendre_phi, jacobi_polynomial, jacobi_rows, jacobi_next, jacobi_first, legendre_minv, uint. cbn -[IZR].
  unfold ModelSWE.upd. cbn -[IZR]. repeat split; field.
Qed.

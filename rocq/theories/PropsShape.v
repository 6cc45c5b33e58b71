(** Properties of straight triangles and of interfaces between them:
    C28, C41, C43. *)
From Coq Require Import Reals Lra Lia Arith List Bool.
From Verif Require Import Num ModelShape SpecShape LemmasShape.
Import ListNotations.
Open Scope R_scope.

(** The constructor leaves a counter-clockwise triangle on the same three points. *)
Theorem C28_constructor : forall n, nondegenerate n ->
  0 < orient (StraightTriangle n 0%nat) (StraightTriangle n 1%nat) (StraightTriangle n 2%nat) /\
  exists s : nat -> nat, (s = (fun i => i) \/ s = swap02 (fun i => i)) /\ forall i, StraightTriangle n i = n (s i).
Proof. exact (fun n H => conj (ctor_positive n H) (ctor_nodes n)). Qed.
Print Assumptions C28_constructor.

Theorem C28_normals : forall n, nondegenerate n -> forall k, (k < 3)%nat ->
  outward_normal (GetSurfaceNormal n k) (n ((k + 1) mod 3)%nat) (n ((k + 2) mod 3)%nat) (n k) /\
  (forall x, in_triangle (n 0%nat) (n 1%nat) (n 2%nat) x -> vdot (GetSurfaceNormal n k) (vsub x (n ((k + 1) mod 3)%nat)) <= 0).
Proof. exact normals_all. Qed.
Print Assumptions C28_normals.

Theorem C28_closed_boundary : forall n, nondegenerate n ->
  let len k := dist (n ((k + 1) mod 3)%nat) (n ((k + 2) mod 3)%nat) in
  let m := GetSurfaceNormal n in
  len 0%nat * fst (m 0%nat) + len 1%nat * fst (m 1%nat) + len 2%nat * fst (m 2%nat) = 0 /\
  len 0%nat * snd (m 0%nat) + len 1%nat * snd (m 1%nat) + len 2%nat * snd (m 2%nat) = 0.
Proof. exact closed_boundary. Qed.
Print Assumptions C28_closed_boundary.

(** The master triangle has area 2, so the determinant is area over master area. *)
Theorem C28_jacobian : forall n,
  GetJdet n = GetArea n / 2 /\ GetArea n = orient (n 0%nat) (n 1%nat) (n 2%nat) / 2.
Proof. exact jacobian_area. Qed.
Print Assumptions C28_jacobian.
(** Weights of an element: the rule's weight times area over master area, whatever the
    orientation of the nodes; the inverse mass matrix is scaled the other way. *)
Theorem C28_element_weight : forall n w m, let area := Rabs (orient (n 0%nat) (n 1%nat) (n 2%nat)) / 2 in
  element_weight n w = w * area / 2 /\ (nondegenerate n -> element_minv n m * area / 2 = m).
Proof. exact element_weights. Qed.
Print Assumptions C28_element_weight.

Theorem C28_measures : forall n, 0 < orient (n 0%nat) (n 1%nat) (n 2%nat) ->
  0 < GetArea n /\ circumradius (n 0%nat) (n 1%nat) (n 2%nat) (GetRadius n) /\
  GetPerimeter n = dist (n 0%nat) (n 1%nat) + dist (n 1%nat) (n 2%nat) + dist (n 2%nat) (n 0%nat) /\
  (forall k, (k < 3)%nat ->
     nth_error (GetLengths n) k = Some (dist (n ((k + 1) mod 3)%nat) (n ((k + 2) mod 3)%nat)) /\
     GetSurfaceJ n k = dist (n ((k + 1) mod 3)%nat) (n ((k + 2) mod 3)%nat) / 2 /\
     nth_error (GetMidpointCoordinates n) k = Some (on_segment (n ((k + 1) mod 3)%nat) (n ((k + 2) mod 3)%nat) 0)) /\
  GetBarycentricCoordinates n = comb (n 0%nat) (n 1%nat) (n 2%nat) (1/3) (1/3) (1/3).
Proof. exact measures. Qed.
Print Assumptions C28_measures.

Theorem C28_master_map : forall n,
  (forall z, LocalToGlobalCoordinates n z =
     comb (n 0%nat) (n 1%nat) (n 2%nat) (- (fst z + snd z) / 2) ((1 + fst z) / 2) ((1 + snd z) / 2)) /\
  (LocalToGlobalCoordinates n (-1, -1) = n 0%nat /\ LocalToGlobalCoordinates n (1, -1) = n 1%nat /\
   LocalToGlobalCoordinates n (-1, 1) = n 2%nat) /\
  (forall k z, (k < 3)%nat -> boundary_point n k z = on_segment (n ((k + 1) mod 3)%nat) (n ((k + 2) mod 3)%nat) z) /\
  (nondegenerate n -> forall x, LocalToGlobalCoordinates n (GlobalToLocalCoordinates n x) = x) /\
  (nondegenerate n -> forall z, GlobalToLocalCoordinates n (LocalToGlobalCoordinates n z) = z) /\
  (nondegenerate n -> forall x, ContainsPoint n x = true <-> in_triangle (n 0%nat) (n 1%nat) (n 2%nat) x).
Proof. exact master_map. Qed.
Print Assumptions C28_master_map.

(** Derivative factors: the barycentric coordinates are affine functions of the
    position with exactly these gradients; GetJinv inverts the deformation. *)
Theorem C28_gradients : forall n k x d, (k < 3)%nat -> nondegenerate n ->
  let lam x := GetPsi (GlobalToLocalCoordinates n x) k in
  lam (fst x + fst d, snd x + snd d) - lam x = vdot (GetDPsi n k) d /\ dchi n k = GetDPsi n k.
Proof. exact gradients. Qed.
Print Assumptions C28_gradients.

Theorem C28_inverse_jacobian : forall n, nondegenerate n -> forall z dz,
  let J := GetJinv n in
  let dx := vsub (LocalToGlobalCoordinates n (fst z + fst dz, snd z + snd dz)) (LocalToGlobalCoordinates n z) in
  a00 J * fst dx + a01 J * snd dx = fst dz /\ a10 J * fst dx + a11 J * snd dx = snd dz.
Proof. exact jinv_deformation. Qed.
Print Assumptions C28_inverse_jacobian.

(** The linear basis of the master element: tabulated values at the barycentre
    and midpoints, and 0/1 values at the vertices. *)
Theorem C28_linear_basis : forall k m, (k < 3)%nat -> (m < 3)%nat ->
  chi_baryctr k = chi_gp (-1/3, -1/3) k /\ chi_midpts k m = chi_gp (BoundaryToMasterCoordinates m 0) k /\
  chi_gp (nth m [(-1, -1); (1, -1); (-1, 1)] (0, 0)) k = if Nat.eqb k m then 1 else 0.
Proof. exact linear_values. Qed.
Print Assumptions C28_linear_basis.

(** The 3-4-5 triangle. *)
Definition t345 : nodes := fun i => match i with 0%nat => (0, 0) | 1%nat => (4, 0) | _ => (0, 3) end.
Example t345_ok : nondegenerate t345 /\ GetArea t345 = 6 /\ GetJdet t345 = 3 /\ ContainsPoint t345 (1, 1) = true /\
  ContainsPoint t345 (3, 3) = false /\ GetRadius t345 = 5 / 2.
Proof.
  assert (Z : forall a b, 0 <= b -> a = b * b -> sqrt a = b) by (intros; apply sqrt_of_sq; assumption).
  split; [unfold nondegenerate, orient, t345; cbn; lra|].
  split; [unfold GetArea, t345; cbn; field|]. split; [unfold GetJdet, determinant, deformation, t345; cbn; field|].
  split; [|split].
  - apply (proj2 (contains_point t345 (1, 1) ltac:(unfold orient, t345; cbn; lra))).
    exists (5/12), (1/4), (1/3). repeat split; try lra. unfold comb, t345; cbn. apply pair_eq; field.
  - destruct (ContainsPoint t345 (3, 3)) eqn:E; [|reflexivity]. exfalso.
    apply (proj1 (contains_point t345 (3, 3) ltac:(unfold orient, t345; cbn; lra))) in E.
    destruct E as [u [v [w [H1 [H2 [H3 [H4 H5]]]]]]]. unfold comb, t345 in H5; cbn in H5. inversion H5. lra.
  - unfold GetRadius, side_length, hypot, GetArea, t345; cbn.
    rewrite (Z _ 4), (Z _ 5), (Z _ 3) by lra. field.
Qed.
Example t345_normal : GetSurfaceNormal t345 0 = (3 / 5, 4 / 5).
Proof.
  unfold GetSurfaceNormal, hypot, determinant, deformation, t345; cbn.
  replace (sqrt ((0 - 4) * (0 - 4) + (3 - 0) * (3 - 0))) with 5 by (symmetry; apply sqrt_of_sq; lra).
  rewrite Rabs_pos_eq by lra. apply pair_eq; field.
Qed.

(** Interfaces.  Two counter-clockwise triangles sharing an edge (in opposite
    directions) and a symmetric rule: Gauss point gp of one side is Gauss point
    ngp - gp - 1 of the other, weights agree, the stored normals are the two
    outward normals. *)
Theorem C43_interface_points : forall nin nex k l (zs : list R),
  (k < 3)%nat -> (l < 3)%nat -> nondegenerate nin -> nondegenerate nex ->
  0 < orient (nin 0%nat) (nin 1%nat) (nin 2%nat) -> 0 < orient (nex 0%nat) (nex 1%nat) (nex 2%nat) ->
  nin ((k + 1) mod 3)%nat = nex ((l + 2) mod 3)%nat -> nin ((k + 2) mod 3)%nat = nex ((l + 1) mod 3)%nat ->
  (forall gp, (gp < length zs)%nat -> nth (length zs - gp - 1) zs 0 = - nth gp zs 0) ->
  forall gp, (gp < length zs)%nat ->
    boundary_point nin k (nth gp zs 0) = boundary_point nex l (nth (length zs - gp - 1) zs 0) /\
    (forall w, boundary_weight nin k w = boundary_weight nex l w) /\
    normal_in nin k gp = GetSurfaceNormal nin k /\ normal_ex nin k (length zs) gp = GetSurfaceNormal nex l.
Proof. exact interface_points. Qed.
Print Assumptions C43_interface_points.

(** The neighbour of the 3-4-5 triangle across its hypotenuse. *)
Definition t345' : nodes := fun i => match i with 0%nat => (4, 3) | 1%nat => (0, 3) | _ => (4, 0) end.
Example interface_345 : forall gp, (gp < 2)%nat ->
  boundary_point t345 0 (nth gp [-1/2; 1/2] 0) = boundary_point t345' 0 (nth (2 - gp - 1) [-1/2; 1/2] 0).
Proof.
  intros gp H. refine (proj1 (C43_interface_points t345 t345' 0 0 [-1/2; 1/2] _ _ _ _ _ _ eq_refl eq_refl _ gp H));
    try (unfold nondegenerate, orient, t345, t345'; cbn; lra); try lia.
  intros g Hg. destruct g as [|[|g]]; cbn; try lra. exfalso. cbn in Hg. lia.
Qed.

(** Faces and node ids.  Counter-clockwise input: face k has the ids and the
    coordinates of nodes k+1 and k+2. *)
Theorem C41_counter_clockwise : forall (A : Type) (ids : nat -> A) n k, (k < 3)%nat -> 0 <= orient (n 0%nat) (n 1%nat) (n 2%nat) ->
  raw_boundary ids (StraightTriangle n) k =
  ((ids ((k + 1) mod 3)%nat, ids ((k + 2) mod 3)%nat), (n ((k + 1) mod 3)%nat, n ((k + 2) mod 3)%nat)).
Proof. exact ccw_faces. Qed.
Print Assumptions C41_counter_clockwise.

(** Clockwise input: face 1 is described by its own nodes in reverse order, but
    faces 0 and 2 carry the ids of one edge and the geometry of the other. *)
Theorem C41_clockwise : forall (A : Type) (ids : nat -> A) n, orient (n 0%nat) (n 1%nat) (n 2%nat) < 0 ->
  raw_boundary ids (StraightTriangle n) 0 = ((ids 1%nat, ids 2%nat), (n 1%nat, n 0%nat)) /\
  raw_boundary ids (StraightTriangle n) 1 = ((ids 2%nat, ids 0%nat), (n 0%nat, n 2%nat)) /\
  raw_boundary ids (StraightTriangle n) 2 = ((ids 0%nat, ids 1%nat), (n 2%nat, n 1%nat)).
Proof. exact cw_faces. Qed.
Print Assumptions C41_clockwise.

Definition cw_points : nodes := fun i => match i with 0%nat => (0, 0) | 1%nat => (0, 3) | _ => (4, 0) end.
(** A mesh point per id, ids of the element listed clockwise: the coordinates of
    the face are not those of the ids it carries, in any order. *)
Theorem C41_clockwise_refuted : exists (where_is : nat -> point) (ids : nat -> nat),
  let f := raw_boundary ids (StraightTriangle (fun i => where_is (ids i))) 0 in
  snd f <> (where_is (fst (fst f)), where_is (snd (fst f))) /\
  snd f <> (where_is (snd (fst f)), where_is (fst (fst f))).
Proof.
  exists cw_points, (fun i => i).
  pose proof (cw_faces nat (fun i => i) cw_points ltac:(unfold orient, cw_points; cbn; lra)) as [H _].
  change (fun i => cw_points i) with cw_points. cbv zeta beta. rewrite H.
  unfold cw_points; cbn. split; intros E; inversion E; lra.
Qed.
Print Assumptions C41_clockwise_refuted.

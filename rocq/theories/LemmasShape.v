(** Proofs about the straight triangle model. *)
From Coq Require Import Reals Lra Lia Arith List Bool.
From Verif Require Import Num ModelShape SpecShape.
Import ListNotations.
Open Scope R_scope.

Ltac three k := destruct k as [|[|[|k]]]; [| | | exfalso; lia].
Ltac geo := cbv [StraightTriangle swap02 GetBoundaryNodeID GetArea GetBarycentricCoordinates GetMidpointCoordinates
    GetPsi GetDPsi GetBoundaryPsi LocalToGlobalCoordinates barycentric GlobalToLocalCoordinates
    BoundaryToMasterCoordinates chi_baryctr chi_midpts chi_gp master_dchi physical_derivative dchi
    boundary_point GetJdet GetJinv inverse determinant deformation
    vsub vdot orient comb on_segment fst snd a00 a01 a10 a11 Nat.eqb] in *.

Lemma pair_eq : forall (a b c d : R), a = c -> b = d -> (a, b) = (c, d).
Proof. intros; subst; reflexivity. Qed.

Lemma jdet_orient : forall n, GetJdet n = orient (n 0%nat) (n 1%nat) (n 2%nat) / 4.
Proof. intros n. geo. field. Qed.

Lemma area_orient : forall n, GetArea n = orient (n 0%nat) (n 1%nat) (n 2%nat) / 2.
Proof. intros n. geo. field. Qed.

Lemma ctor_ccw : forall n, 0 <= orient (n 0%nat) (n 1%nat) (n 2%nat) -> StraightTriangle n = n.
Proof.
  intros n H. unfold StraightTriangle. rewrite Rltb_false; [reflexivity|].
  rewrite jdet_orient. lra.
Qed.

Lemma ctor_cw : forall n, orient (n 0%nat) (n 1%nat) (n 2%nat) < 0 -> StraightTriangle n = swap02 n.
Proof.
  intros n H. unfold StraightTriangle. rewrite Rltb_true; [reflexivity|].
  rewrite jdet_orient. lra.
Qed.

Lemma ctor_orient : forall n,
  orient (StraightTriangle n 0%nat) (StraightTriangle n 1%nat) (StraightTriangle n 2%nat)
  = Rabs (orient (n 0%nat) (n 1%nat) (n 2%nat)).
Proof.
  intros n. destruct (Rlt_le_dec (orient (n 0%nat) (n 1%nat) (n 2%nat)) 0) as [H|H].
  - rewrite (ctor_cw n H), (Rabs_left _ H). cbn [swap02]. unfold orient. ring.
  - rewrite (ctor_ccw n H), (Rabs_pos_eq _ H). reflexivity.
Qed.

Lemma ctor_nodes : forall n, exists s : nat -> nat,
  (s = (fun i => i) \/ s = swap02 (fun i => i)) /\ forall i, StraightTriangle n i = n (s i).
Proof.
  intros n. unfold StraightTriangle. destruct (Rltb (GetJdet n) 0).
  - exists (swap02 (fun i => i)). split; [right; reflexivity|].
    intros [|[|[|i]]]; reflexivity.
  - exists (fun i => i). split; [left; reflexivity|]. reflexivity.
Qed.

(** Cyclic invariance of the orientation. *)
Lemma orient_cyc : forall (n : nodes) k, (k < 3)%nat ->
  orient (n k) (n ((k + 1) mod 3)%nat) (n ((k + 2) mod 3)%nat) = orient (n 0%nat) (n 1%nat) (n 2%nat).
Proof. intros n k H. three k; cbn; unfold orient; ring. Qed.

Lemma hypot_dist : forall x y : pt, hypot (fst x - fst y) (snd x - snd y) = dist x y.
Proof. intros x y. reflexivity. Qed.

Lemma dist_sym : forall x y : pt, dist x y = dist y x.
Proof. intros x y. unfold dist. f_equal. unfold vdot, vsub; cbn. ring. Qed.

Lemma dist_sq : forall x y : pt, dist x y * dist x y = vdot (vsub x y) (vsub x y).
Proof.
  intros x y. unfold dist. apply sqrt_sqrt. unfold vdot. apply Rplus_le_le_0_compat; apply Rle_0_sqr.
Qed.

Lemma dist_pos : forall x y : pt, 0 <= dist x y.
Proof. intros x y. apply sqrt_pos. Qed.

Lemma dist_pos_orient : forall a b c : pt, orient a b c <> 0 -> 0 < dist a b.
Proof.
  intros a b c H. destruct (dist_pos a b) as [L|E]; [exact L|]. exfalso. apply H.
  pose proof (dist_sq a b) as D. rewrite <- E in D. unfold vdot, vsub in D; cbn in D.
  destruct (Rplus_sqr_eq_0 (fst a - fst b) (snd a - snd b)) as [X Y]; [unfold Rsqr; lra|].
  unfold orient. replace (fst b) with (fst a) by lra. replace (snd b) with (snd a) by lra. ring.
Qed.

Lemma cw_sign : forall d, d <> 0 -> (d / Rabs d) * (d / Rabs d) = 1 /\ 0 < d / Rabs d * d.
Proof.
  intros d H. assert (A : 0 < Rabs d) by (apply Rabs_pos_lt; exact H).
  destruct (Rcase_abs d) as [L|L].
  - rewrite Rabs_left by exact L. split; [field; lra|]. replace (d / - d * d) with (- d) by (field; lra). lra.
  - rewrite Rabs_pos_eq by lra. split; [field; lra|]. replace (d / d * d) with d by (field; lra). lra.
Qed.

Lemma normal_outward : forall n k, (k < 3)%nat -> orient (n 0%nat) (n 1%nat) (n 2%nat) <> 0 ->
  outward_normal (GetSurfaceNormal n k) (n ((k + 1) mod 3)%nat) (n ((k + 2) mod 3)%nat) (n k).
Proof.
  intros n k Hk H.
  set (p := n ((k + 1) mod 3)%nat) in *. set (q := n ((k + 2) mod 3)%nat) in *. set (r := n k) in *.
  assert (Ho : orient r p q = orient (n 0%nat) (n 1%nat) (n 2%nat)) by (apply orient_cyc; exact Hk).
  assert (Hd : determinant (deformation n) = orient r p q / 4)
    by (rewrite Ho; exact (jdet_orient n)).
  assert (Hpq : orient p q r <> 0) by (replace (orient p q r) with (orient r p q) by (unfold orient; ring); lra).
  pose proof (dist_pos_orient p q r Hpq) as L. pose proof (dist_sq q p) as L2.
  rewrite dist_sym in L.
  assert (Hn : GetSurfaceNormal n k =
    ((orient r p q / 4) / Rabs (orient r p q / 4) * (snd q - snd p) / dist q p,
     - ((orient r p q / 4) / Rabs (orient r p q / 4)) * (fst q - fst p) / dist q p)).
  { unfold GetSurfaceNormal. rewrite Hd. reflexivity. }
  rewrite Hn. set (d := orient r p q / 4) in *.
  assert (Hd0 : d <> 0) by (unfold d; rewrite Ho; lra).
  destruct (cw_sign d Hd0) as [C1 C2]. set (c := d / Rabs d) in *. set (l := dist q p) in *.
  unfold vdot, vsub in L2; cbn in L2.
  unfold outward_normal. repeat split; unfold vdot, vsub; cbn.
  - replace (c * (snd q - snd p) / l * (c * (snd q - snd p) / l) + - c * (fst q - fst p) / l * (- c * (fst q - fst p) / l))
      with ((c * c) * (((fst q - fst p) * (fst q - fst p) + (snd q - snd p) * (snd q - snd p)) / (l * l))) by (field; lra).
    rewrite C1, <- L2. field. lra.
  - field. lra.
  - replace (c * (snd q - snd p) / l * (fst r - fst p) + - c * (fst q - fst p) / l * (snd r - snd p))
      with (- (c * d) * 4 / l).
    + apply Ropp_lt_cancel. rewrite Ropp_0. unfold Rdiv. replace (- (- (c * d) * 4 * / l)) with (c * d * 4 * / l) by ring.
      apply Rmult_lt_0_compat; [lra|apply Rinv_0_lt_compat; exact L].
    + unfold d, orient. field. lra.
Qed.

(** The whole triangle lies on the inner side of every edge. *)
Lemma outward_all : forall m p q r x, outward_normal m p q r -> in_triangle p q r x -> vdot m (vsub x p) <= 0.
Proof.
  intros m p q r x [N1 [N2 N3]] [u [v [w [Hu [Hv [Hw [E Ex]]]]]]]. subst x.
  unfold vdot, vsub, comb in *; cbn in *.
  replace (fst m * (u * fst p + v * fst q + w * fst r - fst p) + snd m * (u * snd p + v * snd q + w * snd r - snd p))
    with (v * (fst m * (fst q - fst p) + snd m * (snd q - snd p)) + w * (fst m * (fst r - fst p) + snd m * (snd r - snd p))
          + (u + v + w - 1) * (fst m * fst p + snd m * snd p)) by ring.
  rewrite N2, E. nra.
Qed.

Lemma surface_j : forall n k, GetSurfaceJ n k = dist (n ((k + 1) mod 3)%nat) (n ((k + 2) mod 3)%nat) / 2.
Proof.
  intros n k. unfold GetSurfaceJ. rewrite dist_sym. unfold dist, vdot, vsub; cbn.
  do 2 f_equal. ring.
Qed.

Lemma closed_boundary : forall n, orient (n 0%nat) (n 1%nat) (n 2%nat) <> 0 ->
  let len k := dist (n ((k + 1) mod 3)%nat) (n ((k + 2) mod 3)%nat) in
  let m := GetSurfaceNormal n in
  len 0%nat * fst (m 0%nat) + len 1%nat * fst (m 1%nat) + len 2%nat * fst (m 2%nat) = 0 /\
  len 0%nat * snd (m 0%nat) + len 1%nat * snd (m 1%nat) + len 2%nat * snd (m 2%nat) = 0.
Proof.
  intros n H. cbn [Nat.modulo Nat.divmod fst snd Nat.add Nat.sub].
  assert (A0 : 0 < dist (n 1%nat) (n 2%nat)).
  { apply dist_pos_orient with (c := n 0%nat). intro E. apply H. rewrite <- E. unfold orient; ring. }
  assert (A1 : 0 < dist (n 2%nat) (n 0%nat)).
  { apply dist_pos_orient with (c := n 1%nat). intro E. apply H. rewrite <- E. unfold orient; ring. }
  assert (A2 : 0 < dist (n 0%nat) (n 1%nat)).
  { apply dist_pos_orient with (c := n 2%nat). exact H. }
  unfold GetSurfaceNormal. cbn [Nat.modulo Nat.divmod fst snd Nat.add Nat.sub].
  rewrite !hypot_dist, (dist_sym (n 2%nat) (n 1%nat)), (dist_sym (n 0%nat) (n 2%nat)), (dist_sym (n 1%nat) (n 0%nat)).
  set (c := determinant (deformation n) / Rabs (determinant (deformation n))).
  split; field; repeat split; lra.
Qed.

Lemma vertices : forall n,
  LocalToGlobalCoordinates n (-1, -1) = n 0%nat /\
  LocalToGlobalCoordinates n (1, -1) = n 1%nat /\
  LocalToGlobalCoordinates n (-1, 1) = n 2%nat.
Proof.
  intros n. repeat split; unfold LocalToGlobalCoordinates, GetPsi; cbn;
    [destruct (n 0%nat)|destruct (n 1%nat)|destruct (n 2%nat)]; cbn; apply pair_eq; field.
Qed.

Lemma affine : forall n z, LocalToGlobalCoordinates n z =
  comb (n 0%nat) (n 1%nat) (n 2%nat) (- (fst z + snd z) / 2) ((1 + fst z) / 2) ((1 + snd z) / 2).
Proof. intros n z. unfold LocalToGlobalCoordinates, comb, GetPsi. apply pair_eq; ring. Qed.

Lemma edge_point : forall n k z, (k < 3)%nat ->
  boundary_point n k z = on_segment (n ((k + 1) mod 3)%nat) (n ((k + 2) mod 3)%nat) z.
Proof.
  intros n k z H. three k; cbn -[LocalToGlobalCoordinates]; unfold boundary_point, on_segment, LocalToGlobalCoordinates; cbn;
    apply pair_eq; field.
Qed.

Lemma boundary_psi : forall n k z, (k < 3)%nat ->
  boundary_point n k z =
  (fst (n ((k + 1) mod 3)%nat) * GetBoundaryPsi z 0 + fst (n ((k + 2) mod 3)%nat) * GetBoundaryPsi z 1,
   snd (n ((k + 1) mod 3)%nat) * GetBoundaryPsi z 0 + snd (n ((k + 2) mod 3)%nat) * GetBoundaryPsi z 1).
Proof. intros n k z H. rewrite edge_point by exact H. unfold on_segment. cbn [GetBoundaryPsi]. apply pair_eq; ring. Qed.

Lemma to_local_to_global : forall n x, orient (n 0%nat) (n 1%nat) (n 2%nat) <> 0 ->
  LocalToGlobalCoordinates n (GlobalToLocalCoordinates n x) = x.
Proof.
  intros n [x y] H. unfold orient in H.
  unfold LocalToGlobalCoordinates, GlobalToLocalCoordinates, barycentric, inverse, determinant, GetPsi; cbn.
  apply pair_eq; field; lra.
Qed.

Lemma to_global_to_local : forall n z, orient (n 0%nat) (n 1%nat) (n 2%nat) <> 0 ->
  GlobalToLocalCoordinates n (LocalToGlobalCoordinates n z) = z.
Proof.
  intros n [x y] H. unfold orient in H.
  unfold LocalToGlobalCoordinates, GlobalToLocalCoordinates, barycentric, inverse, determinant, GetPsi; cbn.
  apply pair_eq; field; lra.
Qed.

Lemma barycentric_spec : forall n x, orient (n 0%nat) (n 1%nat) (n 2%nat) <> 0 ->
  forall u v w, u + v + w = 1 ->
  (x = comb (n 0%nat) (n 1%nat) (n 2%nat) u v w <-> barycentric n x = (v, w)).
Proof.
  intros n [x y] H u v w E.
  assert (Eu : u = 1 - v - w) by lra. subst u. split; intros G.
  - inversion G as [[G1 G2]]. unfold orient in H. unfold barycentric, inverse, determinant, comb; cbn.
    apply pair_eq; field; lra.
  - pose proof (to_local_to_global n (x, y) H) as I. rewrite <- I. rewrite affine.
    unfold GlobalToLocalCoordinates. rewrite G. cbn [fst snd]. unfold comb. apply pair_eq; field.
Qed.

Lemma contains_point : forall n x, orient (n 0%nat) (n 1%nat) (n 2%nat) <> 0 ->
  (ContainsPoint n x = true <-> in_triangle (n 0%nat) (n 1%nat) (n 2%nat) x).
Proof.
  intros n x H. unfold ContainsPoint. split.
  - intros C. rewrite !andb_true_iff in C. destruct C as [[C1 C2] C3].
    destruct (Rleb_spec 0 (fst (barycentric n x))); [|discriminate].
    destruct (Rleb_spec 0 (snd (barycentric n x))); [|discriminate].
    destruct (Rleb_spec (fst (barycentric n x) + snd (barycentric n x)) 1); [|discriminate].
    exists (1 - fst (barycentric n x) - snd (barycentric n x)), (fst (barycentric n x)), (snd (barycentric n x)).
    repeat split; try lra.
    apply (proj2 (barycentric_spec n x H (1 - fst (barycentric n x) - snd (barycentric n x))
                    (fst (barycentric n x)) (snd (barycentric n x)) ltac:(lra))).
    destruct (barycentric n x); reflexivity.
  - intros [u [v [w [Hu [Hv [Hw [E Ex]]]]]]].
    rewrite (proj1 (barycentric_spec n x H u v w E) Ex). cbn [fst snd].
    rewrite !Rleb_true by lra. reflexivity.
Qed.

Lemma jinv_deformation : forall n, orient (n 0%nat) (n 1%nat) (n 2%nat) <> 0 -> forall z dz,
  let J := GetJinv n in
  let dx := vsub (LocalToGlobalCoordinates n (fst z + fst dz, snd z + snd dz)) (LocalToGlobalCoordinates n z) in
  a00 J * fst dx + a01 J * snd dx = fst dz /\ a10 J * fst dx + a11 J * snd dx = snd dz.
Proof.
  intros n H [z1 z2] [d1 d2]. unfold orient in H. cbn.
  split; unfold GetJinv, inverse, determinant, deformation, vsub, LocalToGlobalCoordinates, GetPsi; cbn; field; lra.
Qed.

Lemma dpsi_gradient : forall n k x d, (k < 3)%nat -> orient (n 0%nat) (n 1%nat) (n 2%nat) <> 0 ->
  GetPsi (GlobalToLocalCoordinates n (fst x + fst d, snd x + snd d)) k - GetPsi (GlobalToLocalCoordinates n x) k
  = vdot (GetDPsi n k) d.
Proof.
  intros n k [x y] [d1 d2] Hk H. unfold orient in H.
  three k; unfold GetDPsi, GetPsi, GlobalToLocalCoordinates, barycentric, GetJinv, inverse, determinant, deformation, vdot; cbn;
    field; lra.
Qed.

Lemma dchi_gradient : forall n k, (k < 3)%nat -> dchi n k = GetDPsi n k.
Proof.
  intros n k Hk. unfold dchi, physical_derivative, GetDPsi. destruct (GetJinv n).
  three k; cbn; apply pair_eq; field.
Qed.

Lemma chi_psi : forall z k, chi_gp z k = GetPsi z k.
Proof. reflexivity. Qed.

Lemma baryctr_point : forall n, GetBarycentricCoordinates n = LocalToGlobalCoordinates n (-1/3, -1/3).
Proof. intros n. unfold GetBarycentricCoordinates, LocalToGlobalCoordinates, GetPsi; cbn. apply pair_eq; field. Qed.

Lemma baryctr_chi : forall k, (k < 3)%nat -> chi_baryctr k = GetPsi (-1/3, -1/3) k.
Proof. intros k H. three k; unfold chi_baryctr, GetPsi; cbn; field. Qed.

Lemma midpoint_points : forall n k, (k < 3)%nat ->
  nth_error (GetMidpointCoordinates n) k = Some (boundary_point n k 0).
Proof.
  intros n k H. three k; cbn; f_equal; unfold boundary_point, LocalToGlobalCoordinates, GetPsi; cbn; apply pair_eq; field.
Qed.

Lemma midpoint_chi : forall k m, (k < 3)%nat -> (m < 3)%nat ->
  chi_midpts k m = GetPsi (BoundaryToMasterCoordinates m 0) k.
Proof. intros k m H L. three k; three m; unfold chi_midpts, GetPsi; cbn; field. Qed.

Lemma lengths : forall n k, (k < 3)%nat ->
  nth_error (GetLengths n) k = Some (dist (n ((k + 1) mod 3)%nat) (n ((k + 2) mod 3)%nat)).
Proof. intros n k H. three k; reflexivity. Qed.

Lemma perimeter : forall n, GetPerimeter n = dist (n 0%nat) (n 1%nat) + dist (n 1%nat) (n 2%nat) + dist (n 2%nat) (n 0%nat).
Proof. intros n. unfold GetPerimeter. cbn -[dist hypot]. unfold side_length. rewrite !hypot_dist. cbn -[dist]. ring. Qed.

Lemma sqrt_of_sq : forall x y, 0 <= y -> x = y * y -> sqrt x = y.
Proof. intros x y H E. subst x. apply sqrt_square. exact H. Qed.

Lemma circum : forall n, 0 < orient (n 0%nat) (n 1%nat) (n 2%nat) ->
  circumradius (n 0%nat) (n 1%nat) (n 2%nat) (GetRadius n).
Proof.
  intros n H.
  assert (Hr : GetRadius n = dist (n 0%nat) (n 1%nat) * dist (n 1%nat) (n 2%nat) * dist (n 2%nat) (n 0%nat)
                             / (2 * orient (n 0%nat) (n 1%nat) (n 2%nat))).
  { unfold GetRadius. rewrite area_orient. cbn -[dist hypot orient]. unfold side_length. rewrite !hypot_dist. cbn -[dist orient].
    field. lra. }
  assert (R0 : 0 <= GetRadius n).
  { rewrite Hr. apply Rmult_le_pos; [|apply Rlt_le, Rinv_0_lt_compat; lra].
    apply Rmult_le_pos; [apply Rmult_le_pos|]; apply dist_pos. }
  assert (R2 : GetRadius n * GetRadius n =
    vdot (vsub (n 0%nat) (n 1%nat)) (vsub (n 0%nat) (n 1%nat)) * vdot (vsub (n 1%nat) (n 2%nat)) (vsub (n 1%nat) (n 2%nat))
    * vdot (vsub (n 2%nat) (n 0%nat)) (vsub (n 2%nat) (n 0%nat))
    / (4 * (orient (n 0%nat) (n 1%nat) (n 2%nat) * orient (n 0%nat) (n 1%nat) (n 2%nat)))).
  { rewrite Hr, <- !dist_sq. field. lra. }
  clear Hr. set (rad := GetRadius n) in *.
  destruct (n 0%nat) as [xa ya], (n 1%nat) as [xb yb], (n 2%nat) as [xc yc].
  unfold orient, vdot, vsub in *; cbn [fst snd] in *.
  set (D := 2 * ((xb - xa) * (yc - ya) - (yb - ya) * (xc - xa))) in *.
  set (B2 := (xb - xa) * (xb - xa) + (yb - ya) * (yb - ya)).
  set (C2 := (xc - xa) * (xc - xa) + (yc - ya) * (yc - ya)).
  exists (xa + ((yc - ya) * B2 - (yb - ya) * C2) / D, ya + ((xb - xa) * C2 - (xc - xa) * B2) / D).
  unfold dist, vdot, vsub; cbn [fst snd].
  repeat split; (apply sqrt_of_sq; [exact R0|]; rewrite R2; unfold B2, C2, D; field; lra).
Qed.

(** Two triangles sharing the edge in opposite directions. *)
Lemma shared_edge_points : forall nin nex k l z, (k < 3)%nat -> (l < 3)%nat ->
  nin ((k + 1) mod 3)%nat = nex ((l + 2) mod 3)%nat -> nin ((k + 2) mod 3)%nat = nex ((l + 1) mod 3)%nat ->
  boundary_point nin k z = boundary_point nex l (- z).
Proof.
  intros nin nex k l z Hk Hl E1 E2. rewrite !edge_point by assumption. rewrite E1, E2. unfold on_segment.
  apply pair_eq; field.
Qed.

Lemma shared_edge_length : forall nin nex k l,
  nin ((k + 1) mod 3)%nat = nex ((l + 2) mod 3)%nat -> nin ((k + 2) mod 3)%nat = nex ((l + 1) mod 3)%nat ->
  GetSurfaceJ nin k = GetSurfaceJ nex l.
Proof. intros nin nex k l E1 E2. rewrite !surface_j, E1, E2, dist_sym. reflexivity. Qed.

Lemma outward_unique : forall (c l : R) (p q : pt) (n : nodes) k, (k < 3)%nat ->
  0 < orient (n 0%nat) (n 1%nat) (n 2%nat) ->
  GetSurfaceNormal n k =
  ((snd (n ((k + 2) mod 3)%nat) - snd (n ((k + 1) mod 3)%nat)) / dist (n ((k + 2) mod 3)%nat) (n ((k + 1) mod 3)%nat),
   - ((fst (n ((k + 2) mod 3)%nat) - fst (n ((k + 1) mod 3)%nat)) / dist (n ((k + 2) mod 3)%nat) (n ((k + 1) mod 3)%nat))).
Proof.
  intros c l p q n k Hk H. unfold GetSurfaceNormal.
  assert (D : 0 < determinant (deformation n)).
  { change (0 < GetJdet n). rewrite jdet_orient. lra. }
  rewrite (Rabs_pos_eq (determinant (deformation n))) by lra.
  replace (determinant (deformation n) / determinant (deformation n)) with 1 by (field; lra).
  rewrite hypot_dist.
  apply pair_eq; unfold Rdiv; ring.
Qed.

Lemma shared_edge_normal : forall nin nex k l gp ngp, (k < 3)%nat -> (l < 3)%nat ->
  0 < orient (nin 0%nat) (nin 1%nat) (nin 2%nat) -> 0 < orient (nex 0%nat) (nex 1%nat) (nex 2%nat) ->
  nin ((k + 1) mod 3)%nat = nex ((l + 2) mod 3)%nat -> nin ((k + 2) mod 3)%nat = nex ((l + 1) mod 3)%nat ->
  normal_ex nin k ngp gp = GetSurfaceNormal nex l.
Proof.
  intros nin nex k l gp ngp Hk Hl O1 O2 E1 E2. unfold normal_ex.
  rewrite (outward_unique 0 0 (0, 0) (0, 0) nin k Hk O1), (outward_unique 0 0 (0, 0) (0, 0) nex l Hl O2).
  rewrite E1, E2. cbn [fst snd].
  rewrite (dist_sym (nex ((l + 1) mod 3)%nat) (nex ((l + 2) mod 3)%nat)).
  apply pair_eq; unfold Rdiv; ring.
Qed.

(** Node ids and geometry of a face. *)
Lemma edge_ends : forall n k, (k < 3)%nat ->
  boundary_point n k (-1) = n ((k + 1) mod 3)%nat /\ boundary_point n k 1 = n ((k + 2) mod 3)%nat.
Proof.
  intros n k H. rewrite !edge_point by exact H. unfold on_segment.
  destruct (n ((k + 1) mod 3)%nat), (n ((k + 2) mod 3)%nat); cbn. split; apply pair_eq; field.
Qed.

(** Statements gathered for the property file. *)
Definition nondegenerate (n : nodes) : Prop := orient (n 0%nat) (n 1%nat) (n 2%nat) <> 0.

Lemma ctor_positive : forall n, nondegenerate n ->
  0 < orient (StraightTriangle n 0%nat) (StraightTriangle n 1%nat) (StraightTriangle n 2%nat).
Proof. intros n H. rewrite ctor_orient. apply Rabs_pos_lt. exact H. Qed.

Lemma normals_all : forall n, nondegenerate n ->
  (forall k, (k < 3)%nat ->
     outward_normal (GetSurfaceNormal n k) (n ((k + 1) mod 3)%nat) (n ((k + 2) mod 3)%nat) (n k) /\
     (forall x, in_triangle (n 0%nat) (n 1%nat) (n 2%nat) x -> vdot (GetSurfaceNormal n k) (vsub x (n ((k + 1) mod 3)%nat)) <= 0)).
Proof.
  intros n H k Hk. split; [apply normal_outward; assumption|].
  intros x Hx. apply outward_all with (q := n ((k + 2) mod 3)%nat) (r := n k); [apply normal_outward; assumption|].
  destruct Hx as [u [v [w [Hu [Hv [Hw [E Ex]]]]]]]. unfold in_triangle.
  three k; cbn; [exists v, w, u | exists w, u, v | exists u, v, w];
    (repeat split; [assumption|assumption|assumption|lra|]); rewrite Ex; unfold comb; apply pair_eq; ring.
Qed.

Lemma jacobian_area : forall n,
  GetJdet n = GetArea n / 2 /\ GetArea n = orient (n 0%nat) (n 1%nat) (n 2%nat) / 2.
Proof. intros n. rewrite jdet_orient, area_orient. split; field. Qed.

Lemma measures : forall n, 0 < orient (n 0%nat) (n 1%nat) (n 2%nat) ->
  0 < GetArea n /\ circumradius (n 0%nat) (n 1%nat) (n 2%nat) (GetRadius n) /\
  GetPerimeter n = dist (n 0%nat) (n 1%nat) + dist (n 1%nat) (n 2%nat) + dist (n 2%nat) (n 0%nat) /\
  (forall k, (k < 3)%nat ->
     nth_error (GetLengths n) k = Some (dist (n ((k + 1) mod 3)%nat) (n ((k + 2) mod 3)%nat)) /\
     GetSurfaceJ n k = dist (n ((k + 1) mod 3)%nat) (n ((k + 2) mod 3)%nat) / 2 /\
     nth_error (GetMidpointCoordinates n) k = Some (on_segment (n ((k + 1) mod 3)%nat) (n ((k + 2) mod 3)%nat) 0)) /\
  GetBarycentricCoordinates n = comb (n 0%nat) (n 1%nat) (n 2%nat) (1/3) (1/3) (1/3).
Proof.
  intros n H. repeat split.
  - rewrite area_orient. lra.
  - apply circum. exact H.
  - apply perimeter.
  - apply lengths. assumption.
  - apply surface_j.
  - rewrite midpoint_points by assumption. rewrite edge_point by assumption. reflexivity.
  - unfold GetBarycentricCoordinates, comb. apply pair_eq; field.
Qed.

Lemma master_map : forall n,
  (forall z, LocalToGlobalCoordinates n z =
     comb (n 0%nat) (n 1%nat) (n 2%nat) (- (fst z + snd z) / 2) ((1 + fst z) / 2) ((1 + snd z) / 2)) /\
  (LocalToGlobalCoordinates n (-1, -1) = n 0%nat /\ LocalToGlobalCoordinates n (1, -1) = n 1%nat /\
   LocalToGlobalCoordinates n (-1, 1) = n 2%nat) /\
  (forall k z, (k < 3)%nat -> boundary_point n k z = on_segment (n ((k + 1) mod 3)%nat) (n ((k + 2) mod 3)%nat) z) /\
  (nondegenerate n -> forall x, LocalToGlobalCoordinates n (GlobalToLocalCoordinates n x) = x) /\
  (nondegenerate n -> forall z, GlobalToLocalCoordinates n (LocalToGlobalCoordinates n z) = z) /\
  (nondegenerate n -> forall x, ContainsPoint n x = true <-> in_triangle (n 0%nat) (n 1%nat) (n 2%nat) x).
Proof.
  intros n. split; [intros z; apply affine|]. split; [apply vertices|].
  split; [intros; apply edge_point; assumption|].
  split; [intros H x; apply to_local_to_global; exact H|].
  split; [intros H z; apply to_global_to_local; exact H|].
  intros H x; apply contains_point; exact H.
Qed.

Lemma gradients : forall n k x d, (k < 3)%nat -> nondegenerate n ->
  let lam x := GetPsi (GlobalToLocalCoordinates n x) k in
  lam (fst x + fst d, snd x + snd d) - lam x = vdot (GetDPsi n k) d /\ dchi n k = GetDPsi n k.
Proof. intros n k x d Hk H. split; [apply dpsi_gradient; assumption|apply dchi_gradient; assumption]. Qed.

Lemma linear_values : forall k m, (k < 3)%nat -> (m < 3)%nat ->
  chi_baryctr k = chi_gp (-1/3, -1/3) k /\ chi_midpts k m = chi_gp (BoundaryToMasterCoordinates m 0) k /\
  chi_gp (nth m [(-1, -1); (1, -1); (-1, 1)] (0, 0)) k = if Nat.eqb k m then 1 else 0.
Proof.
  intros k m Hk Hm. repeat split.
  - apply baryctr_chi; assumption.
  - apply midpoint_chi; assumption.
  - three k; three m; cbn; field.
Qed.

(** Interface: both sides see the same Gauss points, in opposite order. *)
Lemma interface_points : forall nin nex k l (zs : list R),
  (k < 3)%nat -> (l < 3)%nat -> nondegenerate nin -> nondegenerate nex ->
  0 < orient (nin 0%nat) (nin 1%nat) (nin 2%nat) -> 0 < orient (nex 0%nat) (nex 1%nat) (nex 2%nat) ->
  nin ((k + 1) mod 3)%nat = nex ((l + 2) mod 3)%nat -> nin ((k + 2) mod 3)%nat = nex ((l + 1) mod 3)%nat ->
  (forall gp, (gp < length zs)%nat -> nth (length zs - gp - 1) zs 0 = - nth gp zs 0) ->
  forall gp, (gp < length zs)%nat ->
    boundary_point nin k (nth gp zs 0) = boundary_point nex l (nth (length zs - gp - 1) zs 0) /\
    (forall w, boundary_weight nin k w = boundary_weight nex l w) /\
    normal_in nin k gp = GetSurfaceNormal nin k /\ normal_ex nin k (length zs) gp = GetSurfaceNormal nex l.
Proof.
  intros nin nex k l zs Hk Hl N1 N2 O1 O2 E1 E2 Sy gp Hg. repeat split.
  - rewrite Sy by exact Hg. apply shared_edge_points; assumption.
  - intros w. unfold boundary_weight. rewrite (shared_edge_length nin nex k l E1 E2). reflexivity.
  - apply shared_edge_normal; assumption.
Qed.

(** Faces of clockwise elements. *)
Lemma ccw_faces : forall (A : Type) (ids : nat -> A) n k, (k < 3)%nat -> 0 <= orient (n 0%nat) (n 1%nat) (n 2%nat) ->
  raw_boundary ids (StraightTriangle n) k =
  ((ids ((k + 1) mod 3)%nat, ids ((k + 2) mod 3)%nat), (n ((k + 1) mod 3)%nat, n ((k + 2) mod 3)%nat)).
Proof.
  intros A ids n k Hk H. rewrite ctor_ccw by exact H. unfold raw_boundary.
  destruct (edge_ends n k Hk) as [-> ->]. reflexivity.
Qed.

Lemma cw_faces : forall (A : Type) (ids : nat -> A) n, orient (n 0%nat) (n 1%nat) (n 2%nat) < 0 ->
  raw_boundary ids (StraightTriangle n) 0 = ((ids 1%nat, ids 2%nat), (n 1%nat, n 0%nat)) /\
  raw_boundary ids (StraightTriangle n) 1 = ((ids 2%nat, ids 0%nat), (n 0%nat, n 2%nat)) /\
  raw_boundary ids (StraightTriangle n) 2 = ((ids 0%nat, ids 1%nat), (n 2%nat, n 1%nat)).
Proof.
  intros A ids n H. rewrite ctor_cw by exact H. unfold raw_boundary.
  destruct (edge_ends (swap02 n) 0%nat ltac:(lia)) as [-> ->].
  destruct (edge_ends (swap02 n) 1%nat ltac:(lia)) as [-> ->].
  destruct (edge_ends (swap02 n) 2%nat ltac:(lia)) as [-> ->].
  repeat split; reflexivity.
Qed.

Lemma element_weights : forall n w m, let area := Rabs (orient (n 0%nat) (n 1%nat) (n 2%nat)) / 2 in
  element_weight n w = w * area / 2 /\ (nondegenerate n -> element_minv n m * area / 2 = m).
Proof.
  intros n w m area.
  assert (E : Rabs (GetJdet n) = area / 2).
  { rewrite jdet_orient. unfold area, Rdiv. rewrite Rabs_mult, (Rabs_right (/ 4)) by lra. field. }
  unfold element_weight, element_minv. rewrite E. split; [field|]. intros N. unfold nondegenerate in N. apply Rabs_no_R0 in N. unfold area. field. exact N.
Qed.

(** Property theorems about slope limiting: C08. *)
From Coq Require Import Reals Lra Lia Arith List Bool.
From Verif Require Import Num Outcome ModelShape SpecShape ModelBasis ModelJac ModelWetDry SpecWetDry ModelSlope SpecSlope LemmasBasis4 LemmasWetDry LemmasSlope.
Import ListNotations.
Open Scope R_scope.

(** Cell means never change, and each row is kept or made linear. *)
Theorem C08_mean : forall p s wet wn q, (1 <= p)%nat ->
  exists q', slope_limiting_kernel p s wet wn q = Ok q' /\
  (forall var, cell_mean (q' var) = cell_mean (q var)) /\
  (forall var, (3 <= var)%nat -> q' var = q var) /\
  (forall var, q' var = q var \/ forall dof, (3 <= dof)%nat -> q' var dof = 0).
Proof. exact kernel_mean. Qed.
Print Assumptions C08_mean.

(** Dry elements and elements with a dry neighbour are left alone. *)
Theorem C08_skip : forall p s wet wn q, wet = false \/ In false wn -> slope_limiting_kernel p s wet wn q = Ok q.
Proof. exact kernel_skip. Qed.
Print Assumptions C08_skip.

(** If minmod keeps every characteristic slope, the state is untouched, higher
    modes included. *)
Theorem C08_unlimited : forall p s wet wn q, (1 <= p)%nat -> 0 < sl_g s -> 0 < depth_c s q -> unit_medians s ->
  (forall b i, (b < 3)%nat -> (i < 3)%nat ->
     minmod (sl_M s) (sl_nu s) (sl_rs s b) (to_char s q b (slope_vec q b) i) (to_char s q b (neigh_vec s q b) i) = to_char s q b (slope_vec q b) i) ->
  exists q', slope_limiting_kernel p s wet wn q = Ok q' /\ forall var, q' var = q var.
Proof. exact kernel_unlimited. Qed.
Print Assumptions C08_unlimited.

(** Exact result: the slopes are the minmod-limited ones with the larger of the
    positive and negative parts scaled down; a row within 1e-12 of that is kept. *)
Theorem C08_result : forall p s wn q, (1 <= p)%nat -> forallb (fun b => b) wn = true ->
  exists q', slope_limiting_kernel p s true wn q = Ok q' /\
  forall var, (var < 3)%nat -> exists d', balanced (limited_slope s q var) d' /\
    ((q' var = q var /\ length3 (fun x => (cell_mean (q var) - 2 * d' x) - vertex_value (q var) x) <= 1 / 10 ^ 12 * length3 (vertex_value (q var))) \/
     ((forall i, (3 <= i)%nat -> q' var i = 0) /\ forall b, (b < 3)%nat -> midpoint_slope (vertex_value (q' var)) b = d' b)).
Proof. exact limited_result. Qed.
Print Assumptions C08_result.

(** The modified minmod function. *)
Theorem C08_minmod : forall M nu r w d,
  damped (minmod M nu r w d) w /\ Rabs (minmod M nu r w d) <= Rmax (M * r) (Rabs (nu * d)) /\
  (Rabs w <= M * r -> minmod M nu r w d = w) /\
  (M * r < Rabs w -> (w < 0 < d \/ d < 0 < w) -> minmod M nu r w d = 0) /\
  (1 <= nu -> minmod M nu r w w = w).
Proof.
  exact (fun M nu r w d => conj (minmod_damped M nu r w d) (conj (minmod_bound M nu r w d)
    (conj (minmod_small M nu r w d) (conj (minmod_opposite M nu r w d) (minmod_same M nu r w))))).
Qed.
Print Assumptions C08_minmod.

(** The coefficients alpha express a midpoint by the neighbour barycentres. *)
Theorem C08_alpha : forall n nb b, determinant (alpha_matrix n nb b) <> 0 ->
  fst (sl_alpha n nb b) * (fst (nb b) - fst (GetBarycentricCoordinates n)) +
  snd (sl_alpha n nb b) * (fst (nb ((b + 1) mod 3)%nat) - fst (GetBarycentricCoordinates n)) = fst (to_mid n b) /\
  fst (sl_alpha n nb b) * (snd (nb b) - snd (GetBarycentricCoordinates n)) +
  snd (sl_alpha n nb b) * (snd (nb ((b + 1) mod 3)%nat) - snd (GetBarycentricCoordinates n)) = snd (to_mid n b).
Proof. exact alpha_ok. Qed.
Print Assumptions C08_alpha.
(** The limiter's geometry: squared distance from the centroid to the midpoint of
    the face, unit vector along it, and the mirror image used beyond a boundary. *)
Theorem C08_geometry : forall n b, (b < 3)%nat ->
  let x := ((fst (n 0%nat) + fst (n 1%nat) + fst (n 2%nat)) / 3, (snd (n 0%nat) + snd (n 1%nat) + snd (n 2%nat)) / 3) in
  let u := n ((b + 1) mod 3)%nat in
  let v := n ((b + 2) mod 3)%nat in
  let y := ((fst u + fst v) / 2, (snd u + snd v) / 2) in
  sl_r_sq n b = dist x y * dist x y /\
  (fst x + fst (mirror_baryctr n b)) / 2 = fst y /\ (snd x + snd (mirror_baryctr n b)) / 2 = snd y /\
  (dist x y <> 0 -> fst (sl_median n b) * dist x y = fst y - fst x /\ snd (sl_median n b) * dist x y = snd y - snd x).
Proof. exact limiter_geometry. Qed.
Print Assumptions C08_geometry.

(** Globally linear elevation and discharge pass the limiter unchanged. *)
Theorem C08_linear_exact : forall p n nb g M nu bath c wet wn q,
  (1 <= p)%nat -> 0 < g -> 1 <= nu -> orient (n 0%nat) (n 1%nat) (n 2%nat) <> 0 ->
  (forall b, (b < 3)%nat -> determinant (alpha_matrix n nb b) <> 0) ->
  (forall var x, (var < 3)%nat -> (x < 3)%nat -> vertex_value (q var) x = plane (c var) (n x)) ->
  0 < plane (c 0%nat) (GetBarycentricCoordinates n) + bath ->
  exists q', slope_limiting_kernel p (SlIn g M nu (sl_median n) (sl_alpha n nb) (sl_r_sq n) bath (fun b var => plane (c var) (nb b))) wet wn q = Ok q' /\
  forall var, q' var = q var.
Proof. exact kernel_linear_exact. Qed.
Print Assumptions C08_linear_exact.

(** The limiter sees current neighbour data: each (element, face) pair has the wet
    flag of the element across and, if both are wet, its centre values. *)
Theorem C08_neighbours : forall wet centre fs m f e b, NoDup (flat_map face_sides fs) -> In f fs -> In (e, b) (face_sides f) ->
  n_wet (prepare_faces wet centre m fs) e b = wet (across f e b) /\
  (wet e = true -> wet (across f e b) = true -> n_q (prepare_faces wet centre m fs) e b = centre (across f e b)).
Proof. exact prepare_ok. Qed.
Print Assumptions C08_neighbours.

(** One triangle (0,0), (1,0), (0,1) whose faces are all boundaries, elevation
    1.1 (1 - x - y), bathymetry -1, 1, 1 at the vertices. *)
Definition one_tri : nodes := fun v => match v with 0%nat => (0, 0) | 1%nat => (1, 0) | _ => (0, 1) end.
Definition one_q : nat -> nat -> R := fun var dof =>
  match var, dof with 0%nat, 0%nat => 11 / 30 | 0%nat, 1%nat => - (11 / 60) | 0%nat, 2%nat => - (11 / 20) | _, _ => 0 end.
Definition one_bath (v : nat) : R := match v with 0%nat => -1 | _ => 1 end.
Definition one_in : sl_in :=
  SlIn 1 0 1 (sl_median one_tri) (sl_alpha one_tri (mirror_baryctr one_tri)) (sl_r_sq one_tri) (1 / 3) (fun _ var => one_q var 0%nat).

Lemma one_values : forall x, (x < 3)%nat -> vertex_value (one_q 0%nat) x = plane (11 / 10, - (11 / 10), - (11 / 10)) (one_tri x).
Proof. intros x Hx. rewrite vv by exact Hx. destruct x as [|[|[|x]]]; [| | |lia]; cbn; field. Qed.
Lemma one_flat : exists q', slope_limiting_kernel 1 one_in true [true; true; true] one_q = Ok q' /\
  forall x, (x < 3)%nat -> vertex_value (q' 0%nat) x = 11 / 30.
Proof.
  destruct (flat_neighbours 1 one_in [true; true; true] one_q) as [q' [E F]]; [lia|reflexivity|reflexivity|reflexivity|].
  exists q'. split; [exact E|]. destruct (F 0%nat ltac:(lia)) as [B|B]; [exfalso|exact B].
  unfold length3, sum3 in B. rewrite !one_values in B by lia. cbn in B.
  match type of B with sqrt ?a <= _ * sqrt ?b =>
    assert (A1 : 1 / 2 <= sqrt a) by (rewrite <- (sqrt_square (1 / 2)) by lra; apply sqrt_le_1; lra);
    assert (A2 : sqrt b = 11 / 10) by (transitivity (sqrt (11 / 10 * (11 / 10))); [f_equal; field|apply sqrt_square; lra]) end.
  rewrite A2 in B. lra.
Qed.

(** Linear data are limited next to a boundary: the value given for the mirrored
    neighbour is the element's own mean. *)
Theorem C08_linear_at_boundary_refuted : exists n c q q', orient (n 0%nat) (n 1%nat) (n 2%nat) <> 0 /\
  (forall x, (x < 3)%nat -> vertex_value (q 0%nat) x = plane c (n x)) /\
  slope_limiting_kernel 1 (SlIn 1 0 1 (sl_median n) (sl_alpha n (mirror_baryctr n)) (sl_r_sq n) (1 / 3) (fun _ var => q var 0%nat))
    true [true; true; true] q = Ok q' /\
  vertex_value (q' 0%nat) 0 <> vertex_value (q 0%nat) 0.
Proof.
  destruct one_flat as [q' [E V]]. exists one_tri, (11 / 10, - (11 / 10), - (11 / 10)), one_q, q'.
  split; [unfold orient; cbn; lra|]. split; [exact one_values|]. split; [exact E|].
  rewrite V, one_values by lia. cbn. lra.
Qed.
Print Assumptions C08_linear_at_boundary_refuted.

(** The limiter looks at the elevation only: it can make a vertex depth negative
    that was positive. *)
Theorem C08_positive_depth_refuted : exists s bath q q', sl_bath s = (bath 0%nat + bath 1%nat + bath 2%nat) / 3 /\
  (forall x, (x < 3)%nat -> 0 < vertex_value (q 0%nat) x + bath x) /\
  slope_limiting_kernel 1 s true [true; true; true] q = Ok q' /\
  vertex_value (q' 0%nat) 0 + bath 0%nat < 0.
Proof.
  destruct one_flat as [q' [E V]]. exists one_in, one_bath, one_q, q'.
  split; [cbn; field|]. split; [|split; [exact E|rewrite V by lia; cbn; lra]].
  intros x Hx. rewrite one_values by exact Hx. destruct x as [|[|[|x]]]; [| | |lia]; cbn; lra.
Qed.
Print Assumptions C08_positive_depth_refuted.

(** Limited slopes 3, -1, 1 become 3/4, -1, 1/4. *)
Example balance_example : let d := balance (fun b => match b with 0%nat => 3 | 1%nat => -1 | _ => 1 end) in
  d 0%nat = 3 / 4 /\ d 1%nat = -1 /\ d 2%nat = 1 / 4.
Proof.
  cbv zeta. unfold balance. destruct (Req_EM_T _ 0) as [E|N]; [exfalso; cbn in E; lra|]. cbn [vmsum]. cbv beta iota.
  assert (A1 : Rmax 0 3 = 3) by (apply Rmax_right; lra). assert (A2 : Rmax 0 1 = 1) by (apply Rmax_right; lra).
  assert (A3 : Rmax 0 (-1) = 0) by (apply Rmax_left; lra). assert (A4 : Rmax 0 (- (3)) = 0) by (apply Rmax_left; lra).
  assert (A5 : Rmax 0 (- (1)) = 0) by (apply Rmax_left; lra). assert (A6 : Rmax 0 (- (-1)) = 1) by (unfold Rmax; destruct (Rle_dec _ _); lra).
  rewrite !A1, !A2, !A3, !A4, !A5, !A6. unfold theta.
  destruct (Req_EM_T (0 + 3 + 0 + 1) 0); [lra|]. destruct (Req_EM_T (0 + 0 + 1 + 0) 0); [lra|].
  rewrite Rmin_right, Rmin_left by lra. repeat split; field.
Qed.

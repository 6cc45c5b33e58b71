(** Statement-shaped lemmas for the bases. *)
From Coq Require Import ZArith Reals Lra Lia Arith List Bool.
From Coquelicot Require Import Coquelicot.
From Verif Require Import Num ModelSWE ModelRun Outcome ModelShape ModelBasis SpecBasis LemmasSWE LemmasRun
  LemmasBasis LemmasBasis2 LemmasBasis3.
Import ListNotations.
Open Scope R_scope.

Lemma tri_num_range : forall dof, (tri (tri_num_indx dof) <= dof < tri (S (tri_num_indx dof)))%nat.
Proof.
  intros dof. destruct (tri_exists dof) as [d H]. rewrite (tri_num_ok dof d H). exact H.
Qed.

Lemma degree_spec : forall dof d,
  tri_num_indx dof = d <-> (d * (d + 1) <= 2 * dof /\ 2 * dof < (d + 1) * (d + 2))%nat.
Proof.
  intros dof d. split.
  - intros <-. pose proof (tri_num_range dof) as H. set (e := tri_num_indx dof) in *.
    pose proof (tri_2 e) as T1. pose proof (tri_2 (S e)) as T2. lia.
  - intros H. apply tri_num_ok. pose proof (tri_2 d) as T1. pose proof (tri_2 (S d)) as T2. lia.
Qed.

Lemma no_underflow : forall dof,
  (lower_tri_num dof <= dof /\ dubiner_p dof <= tri_num_indx dof /\ dubiner_p dof + dubiner_q dof = tri_num_indx dof)%nat.
Proof.
  intros dof. pose proof (tri_num_range dof) as H. destruct (dof_decompose dof _ H) as [E1 E2].
  rewrite E1, E2. unfold lower_tri_num. rewrite (Nat.mul_comm (tri_num_indx dof + 1)).
  change (tri_num_indx dof * (tri_num_indx dof + 1) / 2)%nat with (tri (tri_num_indx dof)).
  rewrite tri_S in H. lia.
Qed.

Lemma numbering : forall dof,
  dof = ((dubiner_p dof + dubiner_q dof) * (dubiner_p dof + dubiner_q dof + 1) / 2 + dubiner_p dof)%nat.
Proof. exact dof_of_pq. Qed.
Lemma numbering_inv : forall p q,
  dubiner_p ((p + q) * (p + q + 1) / 2 + p) = p /\ dubiner_q ((p + q) * (p + q + 1) / 2 + p) = q.
Proof. exact pq_of_dof. Qed.
Lemma numbering_range : forall dof P, (dof < (P + 1) * (P + 2) / 2 <-> dubiner_p dof + dubiner_q dof <= P)%nat.
Proof. exact dof_range. Qed.

Lemma rounding : forall dof d v, (d * (d + 1) <= 2 * dof /\ 2 * dof < (d + 1) * (d + 2))%nat ->
  ((2 * dof + 2 = (d + 1) * (d + 2))%nat -> v = INR d) ->
  Rabs (v - (-3 + sqrt (1 + 8 * INR (dof + 1))) / 2) < 1 / (2 * INR d + 3) ->
  ceilR v = Z.of_nat d.
Proof.
  intros dof d v [H1 H2] Ex Er. apply ceilR_unique. rewrite <- INR_IZR_INZ.
  destruct (Nat.eq_dec (2 * dof + 2) ((d + 1) * (d + 2))) as [E|N]; [rewrite (Ex E); lra|].
  assert (P : (2 * dof + 4 <= (d + 1) * (d + 2))%nat).
  { assert (E : exists k, ((d + 1) * (d + 2) = 2 * k)%nat) by (exists (tri (S d)); rewrite tri_2; lia).
    destruct E as [k E]. lia. }
  apply le_INR in H1, P. rewrite !mult_INR, !plus_INR in H1. rewrite !plus_INR, !mult_INR, !plus_INR in P.
  rewrite plus_INR in Er.
  change (INR 1) with 1 in *. change (INR 2) with 2 in *. replace (INR 4) with 4 in P by (cbn; ring).
  pose proof (pos_INR d) as Pd. set (x := INR d) in *. set (y := INR dof) in *.
  assert (D : 0 < 2 * x + 3) by lra.
  set (e := 1 / (2 * x + 3)) in *.
  assert (He : e * (2 * x + 3) = 1) by (unfold e; field; lra).
  assert (Pe : 0 < e) by (unfold e; apply Rdiv_lt_0_compat; lra).
  assert (Le : e <= 1 / 3) by nra.
  assert (S1 : sqrt (1 + 8 * (y + 1)) <= 2 * x + 3 - 4 * e).
  { rewrite <- (sqrt_Rsqr (2 * x + 3 - 4 * e)) by nra. apply sqrt_le_1; unfold Rsqr; try nra. }
  assert (S2 : 2 * x + 1 + 2 * e <= sqrt (1 + 8 * (y + 1))).
  { rewrite <- (sqrt_Rsqr (2 * x + 1 + 2 * e)) by nra. apply sqrt_le_1; unfold Rsqr; try nra. }
  apply Rabs_def2 in Er. lra.
Qed.

(** Size bound under which no unsigned product wraps. *)
Lemma dof_bound : forall dof, (dof < dubiner_ndof 298)%nat ->
  (dubiner_q dof + 2 * dubiner_p dof + 3 <= 600)%nat.
Proof. intros dof H. apply dof_range in H. lia. Qed.

Lemma GetPhi_phi : forall dof z1 z2, GetPhi dof (z1, z2) = phi (dubiner_p dof) (dubiner_q dof) z1 z2.
Proof. reflexivity. Qed.

Lemma minv_value : forall dof, (dof < dubiner_ndof 298)%nat ->
  GetMinv dof dof = / norm2 (dubiner_p dof) (dubiner_q dof).
Proof.
  intros dof H. pose proof (proj1 (dof_range dof 298) H) as B. unfold GetMinv, norm2. rewrite Nat.eqb_refl.
  set (p := dubiner_p dof) in *. set (q := dubiner_q dof) in *.
  rewrite uint_small by (split; [apply Z.mul_nonneg_nonneg; lia|];
    apply Z.le_lt_trans with (597 * 299)%Z; [apply Z.mul_le_mono_nonneg; lia|reflexivity]).
  rewrite mult_IZR, !plus_IZR, mult_IZR, <- !INR_IZR_INZ.
  pose proof (pos_INR p). pose proof (pos_INR q). field. split; lra.
Qed.

Lemma dof_inj : forall i j, dubiner_p i = dubiner_p j -> dubiner_q i = dubiner_q j -> i = j.
Proof. intros i j E1 E2. rewrite (dof_of_pq i), (dof_of_pq j), E1, E2. reflexivity. Qed.

Lemma orthogonality : forall i j, (i < dubiner_ndof 298)%nat -> (j < dubiner_ndof 298)%nat ->
  is_triangle_int (fun z1 z2 => GetPhi i (z1, z2) * GetPhi j (z1, z2)) (if Nat.eqb i j then / GetMinv i i else 0) /\
  (i <> j -> GetMinv i j = 0) /\ 0 < GetMinv i i.
Proof.
  intros i j Hi Hj. pose proof (dof_bound i Hi). pose proof (dof_bound j Hj). split; [|split].
  - pose proof (triangle_orthogonal (dubiner_p i) (dubiner_q i) (dubiner_p j) (dubiner_q j) ltac:(lia) ltac:(lia)) as T.
    destruct (Nat.eqb_spec i j) as [<-|N].
    + rewrite !Nat.eqb_refl in T. rewrite minv_value by exact Hi. rewrite Rinv_inv. exact T.
    + replace (Nat.eqb (dubiner_p i) (dubiner_p j) && Nat.eqb (dubiner_q i) (dubiner_q j))%bool with false in T; [exact T|].
      symmetry. apply andb_false_iff.
      destruct (Nat.eqb_spec (dubiner_p i) (dubiner_p j)) as [E1|]; [|left; reflexivity].
      destruct (Nat.eqb_spec (dubiner_q i) (dubiner_q j)) as [E2|]; [|right; reflexivity].
      exfalso. apply N. apply dof_inj; assumption.
  - intros N. unfold GetMinv. destruct (Nat.eqb_spec i j); [contradiction|reflexivity].
  - rewrite minv_value by exact Hi. unfold norm2. pose proof (pos_INR (dubiner_p i)). pose proof (pos_INR (dubiner_q i)).
    apply Rinv_0_lt_compat, Rdiv_lt_0_compat; [lra|]. apply Rmult_lt_0_compat; lra.
Qed.

Lemma polynomial : forall dof, (dof < dubiner_ndof 298)%nat ->
  exists f : R -> R -> R,
    poly_deg (tri_num_indx dof) f /\
    (forall z1 z2, z2 <> 1 \/ (z1 = -1 /\ z2 = 1) ->
       GetPhi dof (z1, z2) = f z1 z2 /\
       is_derive (fun t => f t z2) z1 (fst (GetDPhi dof (z1, z2))) /\
       is_derive (fun t => f z1 t) z2 (snd (GetDPhi dof (z1, z2)))).
Proof.
  intros dof H. pose proof (dof_bound dof H) as B. exists (Phi (dubiner_p dof) (dubiner_q dof)). split.
  - destruct (no_underflow dof) as [_ [_ <-]]. apply Phi_degree.
  - intros z1 z2 [N|[-> ->]]; rewrite GetPhi_phi; (split; [|split]).
    + apply Phi_in; [exact N|lia].
    + apply dz1_in; [exact N|lia].
    + apply dz2_in; [exact N|lia].
    + apply Phi_top.
    + apply dz1_top.
    + apply dz2_top.
Qed.

Lemma legendre_orthogonality : forall i j, (i <= 500)%nat -> (j <= 500)%nat ->
  is_RInt (fun x => legendre_phi i x * legendre_phi j x) (-1) 1 (if Nat.eqb i j then / legendre_minv i i else 0) /\
  (i <> j -> legendre_minv i j = 0) /\ 0 < legendre_minv i i.
Proof.
  intros i j Hi Hj.
  assert (M : legendre_minv i i = (2 * INR i + 1) / 2).
  { unfold legendre_minv. rewrite Nat.eqb_refl, uint_small by lia. rewrite plus_IZR, mult_IZR, <- INR_IZR_INZ. reflexivity. }
  pose proof (pos_INR i). split; [|split].
  - rewrite M. apply is_RInt_eq with (1 := legendre_int i j).
    + intros x. unfold legendre_phi. rewrite !(jacobi_ok _ 0 0) by lia. reflexivity.
    + unfold pair_val. destruct (Nat.eqb_spec i j) as [E|N]; [field; lra|reflexivity].
  - intros N. unfold legendre_minv. destruct (Nat.eqb_spec i j); [contradiction|reflexivity].
  - rewrite M. lra.
Qed.
Lemma legendre_derivative : forall i x, (i <= 500)%nat -> is_derive (legendre_phi i) x (legendre_dphi i x).
Proof. intros i x H. apply (jacobi_derivative_ok i 0 0 x); lia. Qed.

Lemma jacobi_classical_ok : forall n a b x, (b <= a)%nat -> (n + a + b <= 600)%nat ->
  jacobi_polynomial n (Z.of_nat a) (Z.of_nat b) x = jacobi_classical n a b x.
Proof. exact jacobi_ok. Qed.

(** ** Conversion between modal and vertex values *)
Lemma vmsum_ext : forall n f g, (forall i, (i < n)%nat -> f i = g i) -> vmsum n f = vmsum n g.
Proof. induction n as [|n IH]; intros f g H; cbn; [reflexivity|]. rewrite H by lia. rewrite (IH f g); [reflexivity|]. intros; apply H; lia. Qed.
Lemma vmsum_3 : forall n f, (3 <= n)%nat -> (forall i, (3 <= i < n)%nat -> f i = 0) -> vmsum n f = f 0%nat + f 1%nat + f 2%nat.
Proof.
  intros n f H. induction H as [|n H IH]; intros Z.
  - cbn. ring.
  - cbn [vmsum]. rewrite IH by (intros; apply Z; lia). rewrite (Z n) by lia. ring.
Qed.
Lemma ndof_ge3 : forall p, (1 <= p)%nat -> (3 <= dubiner_ndof p)%nat.
Proof. intros p H. rewrite ndof_tri. pose proof (tri_mono 2 (S p) ltac:(lia)) as M. exact M. Qed.

Definition TB (v : nat) (u : nat -> R) : R :=
  match v with 0%nat => u 0%nat - u 1%nat - u 2%nat | 1%nat => u 0%nat - u 1%nat + u 2%nat | 2%nat => u 0%nat + 2 * u 1%nat | _ => 0 end.

Lemma b2l : forall p u, (1 <= p)%nat -> exists w, ProjectBasisToLinear p u = Ok w /\ forall v, w v = TB v u.
Proof.
  intros p u H. pose proof (ndof_ge3 p H) as N. unfold ProjectBasisToLinear, GetBasisLinearT.
  destruct (Nat.leb_spec 3 (dubiner_ndof p)) as [_|F]; [|lia]. cbn [bind]. eexists. split; [reflexivity|].
  intros v. unfold vmul. rewrite vmsum_3; [|exact N|].
  - destruct v as [|[|[|v]]]; cbn; ring.
  - intros i Hi. destruct i as [|[|[|i]]]; try lia. destruct v as [|[|[|v]]]; cbn; ring.
Qed.
Lemma l2b : forall p w, (1 <= p)%nat -> exists u, ProjectLinearToBasis p w = Ok u /\
  u 0%nat = (w 0%nat + w 1%nat + w 2%nat) / 3 /\ u 1%nat = (2 * w 2%nat - w 0%nat - w 1%nat) / 6 /\
  u 2%nat = (w 1%nat - w 0%nat) / 2 /\ (forall i, (3 <= i)%nat -> u i = 0).
Proof.
  intros p w H. pose proof (ndof_ge3 p H) as N. unfold ProjectLinearToBasis, GetLinearBasisT.
  destruct (Nat.leb_spec 3 (dubiner_ndof p)) as [_|F]; [|lia]. cbn [bind]. eexists. split; [reflexivity|].
  unfold vmul. cbn [vmsum]. split; [field|split; [field|split; [field|]]].
  intros i Hi. destruct i as [|[|[|i]]]; try lia. cbn. ring.
Qed.

Lemma linear_roundtrip : forall p w, (1 <= p)%nat -> exists u w',
  ProjectLinearToBasis p w = Ok u /\ ProjectBasisToLinear p u = Ok w' /\ forall v, (v < 3)%nat -> w' v = w v.
Proof.
  intros p w H. destruct (l2b p w H) as [u [E [U0 [U1 [U2 _]]]]]. destruct (b2l p u H) as [w' [E' W]].
  exists u, w'. split; [exact E|split; [exact E'|]]. intros v Hv. rewrite W.
  destruct v as [|[|[|v]]]; [| | |lia]; cbn [TB]; rewrite ?U0, ?U1, ?U2; field.
Qed.
Lemma modal_roundtrip : forall p u, (1 <= p)%nat -> exists w u',
  ProjectBasisToLinear p u = Ok w /\ ProjectLinearToBasis p w = Ok u' /\
  (forall i, (i < 3)%nat -> u' i = u i) /\ (forall i, (3 <= i)%nat -> u' i = 0).
Proof.
  intros p u H. destruct (b2l p u H) as [w [E W]]. destruct (l2b p w H) as [u' [E' [U0 [U1 [U2 Z]]]]].
  exists w, u'. split; [exact E|split; [exact E'|split; [|exact Z]]].
  intros i Hi. destruct i as [|[|[|i]]]; [| | |lia]; rewrite ?U0, ?U1, ?U2, !W; cbn [TB]; field.
Qed.

Lemma tri_values : tri_num_indx 0 = 0%nat /\ tri_num_indx 1 = 1%nat /\ tri_num_indx 2 = 1%nat.
Proof. repeat split; apply degree_spec; lia. Qed.

Lemma pq_values : (dubiner_p 0, dubiner_q 0) = (0, 0)%nat /\ (dubiner_p 1, dubiner_q 1) = (0, 1)%nat /\ (dubiner_p 2, dubiner_q 2) = (1, 0)%nat.
Proof.
  destruct (pq_of_dof 0 0) as [A B]. destruct (pq_of_dof 0 1) as [A1 B1]. destruct (pq_of_dof 1 0) as [A2 B2].
  change (tri (0 + 0) + 0)%nat with 0%nat in *. change (tri (0 + 1) + 0)%nat with 1%nat in *. change (tri (1 + 0) + 1)%nat with 2%nat in *.
  rewrite A, B, A1, B1, A2, B2. repeat split.
Qed.

Definition ok_point (z : point) : Prop := snd z <> 1 \/ z = (-1, 1).

Lemma first_three : forall z, ok_point z ->
  GetPhi 0 z = 1 /\ GetPhi 1 z = (1 + 3 * snd z) / 2 /\ GetPhi 2 z = fst z + (1 + snd z) / 2.
Proof.
  destruct pq_values as [E0 [E1 E2]].
  assert (P0 := f_equal fst E0). assert (Q0 := f_equal snd E0). assert (P1 := f_equal fst E1). assert (Q1 := f_equal snd E1).
  assert (P2 := f_equal fst E2). assert (Q2 := f_equal snd E2). cbn [fst snd] in P0, Q0, P1, Q1, P2, Q2.
  intros [z1 z2] Hz; unfold ok_point in Hz; destruct Hz as [H|H]; cbn [fst snd] in *; rewrite !GetPhi_phi, P0, Q0, P1, Q1, P2, Q2.
  - rewrite !phi_in by (assumption || lia). rewrite !classical_0. change (2 * 0 + 1)%nat with 1%nat.
    rewrite !classical_1. unfold nn. cbn. repeat split; field; lra.
  - injection H; intros -> ->. rewrite !Phi_top. unfold Phi. rewrite !lp0, lp_right, !classical_0.
    change (2 * 0 + 1)%nat with 1%nat. rewrite classical_1. cbn. repeat split; field.
Qed.

Lemma vertex_values : forall p u, (1 <= p)%nat -> (forall i, (3 <= i < dubiner_ndof p)%nat -> u i = 0) ->
  exists w, ProjectBasisToLinear p u = Ok w /\
  w 0%nat = vmsum (dubiner_ndof p) (fun i => u i * GetPhi i (-1, -1)) /\
  w 1%nat = vmsum (dubiner_ndof p) (fun i => u i * GetPhi i (1, -1)) /\
  w 2%nat = vmsum (dubiner_ndof p) (fun i => u i * GetPhi i (-1, 1)).
Proof.
  intros p u H Z. destruct (b2l p u H) as [w [E W]]. exists w. split; [exact E|].
  pose proof (ndof_ge3 p H) as N.
  rewrite !vmsum_3 by (exact N || (intros i Hi; rewrite Z by exact Hi; ring)).
  destruct (first_three (-1, -1)) as [A0 [A1 A2]]; [left; cbn; lra|].
  destruct (first_three (1, -1)) as [B0 [B1 B2]]; [left; cbn; lra|].
  destruct (first_three (-1, 1)) as [C0 [C1 C2]]; [right; reflexivity|].
  cbn [fst snd] in *. rewrite A0, A1, A2, B0, B1, B2, C0, C1, C2, !W. cbn [TB]. repeat split; field.
Qed.

Lemma same_function : forall p u z, (1 <= p)%nat -> ok_point z -> exists w,
  ProjectBasisToLinear p u = Ok w /\
  w 0%nat * GetPsi z 0 + w 1%nat * GetPsi z 1 + w 2%nat * GetPsi z 2 =
  u 0%nat * GetPhi 0 z + u 1%nat * GetPhi 1 z + u 2%nat * GetPhi 2 z.
Proof.
  intros p u z H Hz. destruct (b2l p u H) as [w [E W]]. exists w. split; [exact E|].
  destruct (first_three z Hz) as [-> [-> ->]]. rewrite !W. cbn [TB GetPsi]. field.
Qed.

Lemma order0 : forall u, ProjectBasisToLinear 0 u = UB /\ ProjectLinearToBasis 0 u = UB.
Proof. intros u. split; reflexivity. Qed.

(** ** Mean of an expansion *)
Lemma tint_plus : forall f g u v, is_triangle_int f u -> is_triangle_int g v ->
  is_triangle_int (fun x y => f x y + g x y) (u + v).
Proof.
  intros f g u v [F [F1 F2]] [G [G1 G2]]. exists (fun z => F z + G z). split.
  - intros z Hz. apply is_RInt_pl; [apply F1|apply G1]; exact Hz.
  - apply is_RInt_pl; assumption.
Qed.
Lemma tint_scal : forall f u c, is_triangle_int f u -> is_triangle_int (fun x y => c * f x y) (c * u).
Proof.
  intros f u c [F [F1 F2]]. exists (fun z => c * F z). split.
  - intros z Hz. apply is_RInt_sc. apply F1. exact Hz.
  - apply is_RInt_sc. exact F2.
Qed.
Lemma GetPhi_0 : forall z1 z2, GetPhi 0 (z1, z2) = 1 \/ (z2 = 1 /\ z1 <> -1).
Proof.
  intros z1 z2. destruct (Req_dec z2 1) as [->|N].
  - destruct (Req_dec z1 (-1)) as [->|N]; [left; apply first_three; right; reflexivity|right; split; [reflexivity|exact N]].
  - left. apply first_three. left. exact N.
Qed.
Lemma phi0_int : forall i, (i < dubiner_ndof 298)%nat ->
  is_triangle_int (fun z1 z2 => GetPhi i (z1, z2)) (if Nat.eqb i 0 then 2 else 0).
Proof.
  intros i H. assert (H0 : (0 < dubiner_ndof 298)%nat) by lia.
  destruct (orthogonality i 0 H H0) as [[F [F1 F2]] _].
  exists F. split.
  - intros z2 Hz. destruct (Req_dec z2 1) as [->|N].
    + specialize (F1 1 ltac:(lra)). pose proof (is_RInt_point (V := R_NormedModule) (fun z1 => GetPhi i (z1, 1) * GetPhi 0 (z1, 1)) (-1)) as P.
      pose proof (is_RInt_unique _ _ _ _ F1) as U1. pose proof (is_RInt_unique _ _ _ _ P) as U2.
      replace (- (1)) with (-1) in * by ring. rewrite U1 in U2. rewrite U2. exact (is_RInt_point _ (-1)).
    + apply is_RInt_eq with (1 := F1 z2 Hz); [|reflexivity].
      intros x. destruct (GetPhi_0 x z2) as [->|[E _]]; [ring|contradiction].
  - replace (if Nat.eqb i 0 then 2 else 0) with (if Nat.eqb i 0 then / GetMinv i i else 0); [exact F2|].
    destruct (Nat.eqb_spec i 0) as [->|]; [|reflexivity]. rewrite minv_value by exact H0.
    destruct pq_values as [E0 _]. assert (P0 := f_equal fst E0). assert (Q0 := f_equal snd E0). cbn [fst snd] in P0, Q0.
    rewrite P0, Q0. unfold norm2. cbn. field.
Qed.
Lemma vmsum_int : forall n (f : nat -> R -> R -> R) (v : nat -> R), (forall i, (i < n)%nat -> is_triangle_int (f i) (v i)) ->
  is_triangle_int (fun x y => vmsum n (fun i => f i x y)) (vmsum n v).
Proof.
  induction n as [|n IH]; intros f v H; cbn [vmsum].
  - exists (fun _ => 0). split; [intros z _|].
    + apply (is_RInt_bsum 0 (fun _ _ => 0) (fun _ => 0)). intros; lia.
    + apply (is_RInt_bsum 0 (fun _ _ => 0) (fun _ => 0)). intros; lia.
  - apply tint_plus; [apply IH; intros; apply H; lia|apply H; lia].
Qed.
Lemma cell_mean_int : forall n u, (1 <= n <= dubiner_ndof 298)%nat ->
  is_triangle_int (fun z1 z2 => vmsum n (fun i => u i * GetPhi i (z1, z2))) (2 * u 0%nat).
Proof.
  intros n u [L1 L2].
  replace (2 * u 0%nat) with (vmsum n (fun i => u i * (if Nat.eqb i 0 then 2 else 0))).
  - apply (vmsum_int n (fun i z1 z2 => u i * GetPhi i (z1, z2))). intros i Hi. apply tint_scal, phi0_int. lia.
  - clear L2. induction L1 as [|m L IH].
    + cbn. ring.
    + cbn [vmsum]. rewrite IH. destruct m; [lia|]. cbn [Nat.eqb]. ring.
Qed.

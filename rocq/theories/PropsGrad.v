(** C62: the least squares and Green-Gauss gradient methods and their reconstructions. *)
From Coq Require Import Reals List Bool Arith Lra Lia Permutation.
From Verif Require Import Num Outcome ModelSWE ModelShape ModelBasis ModelJac ModelSlope ModelStep ModelGN ModelInit SpecStepper SpecStep SpecStage SpecGN SpecRest SpecShape LemmasRest6 ModelGrad SpecGrad
  LemmasGrad1 LemmasGrad2 LemmasGrad3 LemmasGrad4 LemmasGrad5 LemmasGrad6 LemmasGrad7 LemmasGrad8 LemmasGrad9.
Import ListNotations.
Open Scope R_scope.

(** ** Least squares *)
(** On every triangulation the system of every element is solvable: the points the
    differences go to are never all in one direction. *)
Theorem C62_solvable : forall m e, triangulation m -> (e < m_n m)%nat ->
  spread (centre m e) (nb_coord m e) /\ determinant (gram (centre m e) (nb_coord m e)) <> 0.
Proof. intros m e T He. pose proof (mesh_spread m T e He) as S. split; [exact S|exact (proj1 (spread_det _ _) S)]. Qed.
Print Assumptions C62_solvable.

(** The slope is the one and only best fit to the differences to what lies across the faces. *)
Theorem C62_least_squares : forall m lin old e (o : nat -> option nat), triangulation m -> (e < m_n m)%nat ->
  (forall b, (b < 3)%nat -> beyond m e b (o b)) ->
  best (bary (m_nodes m e)) (fun b => site m e b (o b)) (fun b => across lin e b (o b) - mean3 (lin e))
    (slope_ls m lin old e 0, slope_ls m lin old e 1).
Proof. exact (fun m lin old e o T => slope_best m T lin old e o). Qed.
Print Assumptions C62_least_squares.

Theorem C62_affine_slope : forall m k g lin old e a, triangulation m -> affine_at m k g lin -> (e < m_n m)%nat -> (a < 2)%nat ->
  slope_ls m lin old e a = pcomp a g.
Proof. exact (fun m k g lin old e a T => slope_exact m T k g lin old e a). Qed.
Print Assumptions C62_affine_slope.

(** Three points at equal distances around, a step across the first face only. *)
Example ls_example : let x := fun b => match b with 0%nat => (1, 0) | 1%nat => (0, 1) | _ => (-1, -1) end in
  ls_slope (0, 0) x 5 (fun b => if Nat.eqb b 0 then 6 else 5) 0 = 2 / 3 /\ ls_slope (0, 0) x 5 (fun b => if Nat.eqb b 0 then 6 else 5) 1 = - 1 / 3.
Proof. cbv zeta. unfold ls_slope, P_entry, inverse, gram, determinant, offset, pminus. cbn. split; field. Qed.
Example twist_triangulates : triangulation twist /\ m_n twist = 4%nat.
Proof. split; [exact twist_ok|reflexivity]. Qed.

(** ** Green-Gauss *)
(** The slope is the mean over the element of the gradient of its own polynomial: the
    neighbours do not enter. *)
Theorem C62_green_gauss : forall i u a e, conforming i -> (e < in_n i)%nat -> (a < 2)%nat ->
  slope_gg (init_mesh i) (at_fgp (init_mesh i) u) a e = / tri_area (in_nodes i e) * vol_int (init_mesh i) e (fun _ z => dval (init_mesh i) a e (u e) z).
Proof. exact (fun i u a e C => slope_own i C u a e). Qed.
Print Assumptions C62_green_gauss.

(** So a staircase of elementwise constants on an affine field has no Green-Gauss slope
    anywhere, while least squares sees the slope wherever all faces are interior. *)
Theorem C62_staircase : forall i k g w old e a, conforming i -> triangulation (init_mesh i) -> (e < in_n i)%nat -> (a < 2)%nat ->
  (forall e, (e < in_n i)%nat -> w e = affine k g (bary (in_nodes i e))) ->
  slope_gg (init_mesh i) (fun e _ _ => w e) a e = 0 /\
  ((forall b o, (b < 3)%nat -> beyond (init_mesh i) e b o -> o <> None) -> slope_ls (init_mesh i) (fun e _ => w e) old e a = pcomp a g).
Proof.
  intros i k g w old e a C T He Ha W. split.
  - exact (slope_const i C (fun e _ _ => w e) (w e) a e He Ha (fun _ _ _ _ => eq_refl)).
  - intros I. apply (staircase_ls (init_mesh i) T k g (fun e _ => w e) old e a He); [|exact I|exact Ha]. intros e' He'. transitivity (w e'); [unfold mean3; field|exact (W e' He')].
Qed.
Print Assumptions C62_staircase.
Theorem C62_green_gauss_neighbours_refuted : exists i e, conforming i /\ triangulation (init_mesh i) /\ (e < in_n i)%nat /\
  forall k g old, let w := fun e => affine k g (bary (in_nodes i e)) in forall a, (a < 2)%nat ->
  slope_gg (init_mesh i) (fun e _ _ => w e) a e = 0 /\ slope_ls (init_mesh i) (fun e _ => w e) old e a = pcomp a g.
Proof.
  exists (star (11, 9) (-1, 60) (-30, -1)), 0%nat. split; [exact twist_conforming|]. split; [exact twist_ok|]. split; [cbn; lia|]. intros k g old w a Ha.
  destruct (C62_staircase _ k g w old 0 a twist_conforming twist_ok ltac:(cbn; lia) Ha (fun _ _ => eq_refl)) as [A B]. split; [exact A|]. apply B.
  intros b o Hb X. assert (Y := star_beyond (11, 9) (-1, 60) (-30, -1) b Hb).
  pose proof (exchange_ok twist _ (fun _ => 1%nat) (fun _ _ => 0%nat) (fun _ _ => 2%nat) 0 b _ (star_faces _ _ _) X) as E1.
  rewrite (exchange_ok twist _ (fun _ => 1%nat) (fun _ _ => 0%nat) (fun _ _ => 2%nat) 0 b _ (star_faces _ _ _) Y) in E1. destruct o; [discriminate|discriminate].
Qed.
Print Assumptions C62_green_gauss_neighbours_refuted.

(** ** Reconstruction *)
(** The matrix T gives the vertex values of the linear function with given midpoint values. *)
Theorem C62_vertices : forall mid lin, (forall b, (b < 3)%nat -> u_midpt (mid_to_vrtx mid) b = mid b) /\ (forall v, (v < 3)%nat -> mid_to_vrtx (u_midpt lin) v = lin v).
Proof. intros mid lin. split; [exact (mid_vrtx mid)|exact (vrtx_mid lin)]. Qed.
Print Assumptions C62_vertices.

(** Equal slopes come out unchanged, by either reconstruction. *)
Theorem C62_constants : forall m solve k s old x, faces_once m ->
  (k = ReconInt -> forall e b, (e < m_n m)%nat -> (b < 3)%nat -> pairs_of m solve e b <> None) ->
  (forall e, (e < m_n m)%nat -> s e = x) ->
  exists F, all_elements m (reconstruct m solve k s old) = Ok F /\ constant_at m x F.
Proof. exact (fun m solve k s old x F => recon_all_const m solve F k s old x). Qed.
Print Assumptions C62_constants.

(** Affine slopes: reproduced by least squares in elements without boundary faces. *)
Theorem C62_affine_reconstruction : forall m solve k g s old e, triangulation m -> (e < m_n m)%nat ->
  (forall e, (e < m_n m)%nat -> s e = affine k g (bary (m_nodes m e))) -> (forall b o, (b < 3)%nat -> beyond m e b o -> o <> None) ->
  exists l, reconstruct m solve ReconLs s old e = Ok l /\ forall v, (v < 3)%nat -> l v = affine k g (m_nodes m e v).
Proof. exact (fun m solve k g s old e T => recon_ls_affine m solve T k g s old e). Qed.
Print Assumptions C62_affine_reconstruction.
(** At a boundary the slope of the element itself is taken, at the middle of the face. *)
Theorem C62_boundary_refuted : exists m k g, triangulation m /\ forall solve old, exists l,
  reconstruct m solve ReconLs (fun e => affine k g (bary (m_nodes m e))) old 0 = Ok l /\ l 0%nat <> affine k g (m_nodes m 0%nat 0%nat).
Proof. exists lone, 0, (1, 0). split; [exact lone_ok|exact lone_flat]. Qed.
Print Assumptions C62_boundary_refuted.

(** ** Pairs of neighbours *)
(** A pair found has non-negative weights that reproduce the midpoint, up to the removal of tiny ones. *)
Theorem C62_pairs : forall m solve e b a0 a1 e1 e2, solves2 solve -> (b < 3)%nat -> pairs_of m solve e b = Some (a0, a1, e1, e2) ->
  e1 = b /\ (e2 < 3)%nat /\ e2 <> b /\ 0 <= a0 /\ 0 <= a1 /\
  (orient (centre m e) (nb_coord m e e1) (nb_coord m e e2) <> 0 -> exists s t, Rabs (a0 - s) < 100 / 2 ^ 52 /\ Rabs (a1 - t) < 100 / 2 ^ 52 /\
    vsub (mid_face (m_nodes m e) b) (centre m e) =
      (s * fst (vsub (nb_coord m e e1) (centre m e)) + t * fst (vsub (nb_coord m e e2) (centre m e)),
       s * snd (vsub (nb_coord m e e1) (centre m e)) + t * snd (vsub (nb_coord m e e2) (centre m e)))).
Proof.
  intros m solve e b a0 a1 e1 e2 S2 Hb P. destruct (pairs_range m solve e b a0 a1 e1 e2 Hb P) as [_ R2].
  unfold pairs_of, pairs_serial in P. destruct (search_cases _ _ _ _ _ _ _ _ P) as [(perm & Hp & E)|E]; [|discriminate].
  destruct (try_sound solve S2 _ _ _ _ _ _ _ _ _ E) as (E1 & E2 & A0 & A1 & X). rewrite mid_mid in X by exact Hb.
  replace (100 / 2 ^ 52) with (epsilon * 100) by (unfold epsilon; field; apply pow_nonzero; lra).
  repeat apply conj; try assumption. rewrite E2. destruct b as [|[|[|b]]]; [| | |lia]; destruct perm as [|[|perm]]; try lia; discriminate.
Qed.
Print Assumptions C62_pairs.
(** Where the midpoint is between the directions to a pair, a pair is found. *)
Theorem C62_pairs_found : forall m solve e b perm s t, solves2 solve -> (b < 3)%nat -> (perm < 2)%nat -> let e2 := ((b + perm + 1) mod 3)%nat in
  orient (centre m e) (nb_coord m e b) (nb_coord m e e2) <> 0 -> in_cone (centre m e) (nb_coord m e b) (nb_coord m e e2) (mid_face (m_nodes m e) b) s t ->
  pairs_of m solve e b <> None.
Proof.
  intros m solve e b perm s t S2 Hb Hp e2 N I. rewrite <- mid_mid in I by exact Hb. pose proof (try_complete solve S2 _ _ _ b perm s t N I) as E.
  unfold pairs_of, pairs_serial, search. cbn [negb andb]. destruct (try_pair _ _ _ _ b 0) as [r|] eqn:E0; [discriminate|].
  destruct perm as [|[|perm]]; [congruence| |lia]. rewrite E. discriminate.
Qed.
Print Assumptions C62_pairs_found.
(** In a split run the first search takes no face on the cut; after the exchange there is a
    pair wherever the undivided run has one, and it is one of those that fit.  Elements
    without faces on the cut keep their pairs. *)
Theorem C62_split_pairs : forall solve c mid nb dist b,
  (forall r, pairs_serial solve c mid nb dist b = Some r -> exists perm, (perm < 2)%nat /\ try_pair solve c mid nb b perm = Some r /\
    dist b = false /\ dist ((b + perm + 1) mod 3)%nat = false) /\
  (forall r, pairs_received solve c mid nb dist b = Some r -> exists perm, (perm < 2)%nat /\ try_pair solve c mid nb b perm = Some r) /\
  (forall perm r, (perm < 2)%nat -> try_pair solve c mid nb b perm = Some r -> pairs_received solve c mid nb dist b <> None) /\
  (dist b = false -> dist ((b + 1) mod 3)%nat = false -> dist ((b + 2) mod 3)%nat = false ->
    pairs_received solve c mid nb dist b = pairs_serial solve c mid nb dist b).
Proof.
  intros solve c mid nb dist b. repeat apply conj; [apply first_local|apply received_cases|apply received_found|apply received_kept].
Qed.
Print Assumptions C62_split_pairs.
(** Weights are set to zero exactly when they are below a hundred units of rounding. *)
Theorem C62_clean : forall x, (Rabs x < 100 / 2 ^ 52 -> clean x = 0) /\ (100 / 2 ^ 52 <= Rabs x -> clean x = x).
Proof. exact clean_cases. Qed.
Print Assumptions C62_clean.
(** The reconstructed linear function has the interpolated values at the midpoints of all three faces. *)
Theorem C62_midpoints : forall pairs s sn v, recon_int pairs s sn = Ok v -> forall b, (b < 3)%nat ->
  int_mid pairs s sn b = Ok ((v ((b + 1) mod 3)%nat + v ((b + 2) mod 3)%nat) / 2).
Proof. exact recon_int_mid. Qed.
Print Assumptions C62_midpoints.
(** There are triangulations with faces without a pair; interpolation then uses data that was never set. *)
Theorem C62_no_pair_refuted : exists m e b, triangulation m /\ (e < m_n m)%nat /\ (b < 3)%nat /\
  forall solve, solves2 solve -> pairs_of m solve e b = None /\ forall s old, reconstruct m solve ReconInt s old e = UB.
Proof.
  exists gap, 0%nat, 0%nat. split; [exact gap_ok|]. split; [cbn; lia|]. split; [lia|]. intros solve S2. split; [exact (no_pair solve S2)|]. intros s old. exact (no_recon solve s old S2).
Qed.
Print Assumptions C62_no_pair_refuted.
(** In a split run a pair across the cut replaces the pair of the undivided run. *)
Theorem C62_split_refuted : exists m, triangulation m /\ forall solve, solves2 solve -> exists s sn x y,
  int_mid (pairs_of m solve 0) s sn 0 = Ok x /\
  int_mid (pairs_received solve (centre m 0) (mid_of m 0) (nb_coord m 0) (fun b => Nat.eqb b 2)) s sn 0 = Ok y /\ x <> y.
Proof.
  exists twist. split; [exact twist_ok|]. intros solve S2. destruct (split_differs solve S2) as (x & y & H). exists 0, (fun b => if Nat.eqb b 1 then 1 else 0), x, y. exact H.
Qed.
Print Assumptions C62_split_refuted.
(** Interpolated midpoint values of affine slopes, in terms of the pair found. *)
Theorem C62_interpolated : forall m solve k g s old e b a0 a1 e1 e2, triangulation m -> solves2 solve -> (e < m_n m)%nat -> (b < 3)%nat ->
  (forall e, (e < m_n m)%nat -> s e = affine k g (bary (m_nodes m e))) ->
  pairs_of m solve e b = Some (a0, a1, e1, e2) -> orient (centre m e) (nb_coord m e e1) (nb_coord m e e2) <> 0 ->
  (forall o, beyond m e e1 o \/ beyond m e e2 o -> o <> None) ->
  exists x, int_mid (pairs_of m solve e) (s e) (exchange m s (fun e _ => s e) old e) b = Ok x /\
    Rabs (x - affine k g (mid_face (m_nodes m e) b)) <=
      100 / 2 ^ 52 * (Rabs (vdot g (vsub (nb_coord m e e1) (centre m e))) + Rabs (vdot g (vsub (nb_coord m e e2) (centre m e)))).
Proof. exact int_mesh. Qed.
Print Assumptions C62_interpolated.
Example pair_example : forall solve, solves2 solve -> exists a0 a1, pairs_of twist solve 0 0 = Some (a0, a1, 0%nat, 1%nat) /\ Rabs (a0 - 355 / 759) < 100 / 2 ^ 52.
Proof.
  intros solve S2. exists (clean (355 / 759)), (clean (10 / 759)). split; [exact (proj1 (two_choices solve S2))|].
  replace (100 / 2 ^ 52) with (epsilon * 100) by (unfold epsilon; field; apply pow_nonzero; lra). apply clean_near.
Qed.

(** ** Whole derivatives *)
(** First and second derivatives of affine fields are exact, by least squares and by
    Green-Gauss, with either reconstruction. *)
Theorem C62_derivatives_ls : forall m solve r jn k g u a c, triangulation m -> (1 <= m_p m)%nat -> affine_field m k g u ->
  (r = ReconInt -> forall e b, (e < m_n m)%nat -> (b < 3)%nat -> pairs_of m solve e b <> None) -> (a < 2)%nat -> (c < 2)%nat ->
  (exists du, derive_ls m solve r jn u a = Ok du /\ constant_at m (pcomp a g) du) /\
  (exists ddu, derive2_ls m solve r jn u a c = Ok ddu /\ constant_at m 0 ddu).
Proof.
  intros m solve r jn k g u a c T Hp A P Ha Hc. split; [exact (derive_ls_affine m solve T r jn k g u a Hp A P Ha)|exact (derive2_ls_affine m solve T r jn k g u a c Hp A P Ha Hc)].
Qed.
Print Assumptions C62_derivatives_ls.
Theorem C62_derivatives_gg : forall i solve r jn k g u a c, conforming i -> affine_field (init_mesh i) k g u ->
  (r = ReconInt -> forall e b, (e < in_n i)%nat -> (b < 3)%nat -> pairs_of (init_mesh i) solve e b <> None) -> (a < 2)%nat -> (c < 2)%nat ->
  (exists du, derive_gg (init_mesh i) solve r jn (at_fgp (init_mesh i) u) a = Ok du /\ affine_field (init_mesh i) (pcomp a g) (0, 0) du) /\
  (exists ddu, derive2_gg (init_mesh i) solve r jn (at_fgp (init_mesh i) u) a c = Ok ddu /\ affine_field (init_mesh i) 0 (0, 0) ddu).
Proof.
  intros i solve r jn k g u a c C A P Ha Hc. split; [exact (derive_gg_affine i C solve r jn k g u a A P Ha)|exact (derive2_gg_affine i C solve r jn k g u a c A P Ha Hc)].
Qed.
Print Assumptions C62_derivatives_gg.
(** The projection in front of them keeps what is in the space. *)
Theorem C62_projection : forall i v u e j, conforming i -> (e < in_n i)%nat -> (j < dubiner_ndof (in_p i))%nat ->
  (forall gp, (gp < length (in_rule2 i))%nat -> v e gp = val (init_mesh i) (u e) (snd (nth gp (in_rule2 i) (0, (0, 0))))) -> l2 (init_mesh i) v e j = u e j.
Proof. exact (fun i v u e j C => l2_own i C v u e j). Qed.
Print Assumptions C62_projection.
(** Order 0 has no vertex values: undefined as soon as there is an element. *)
Theorem C62_order_zero_refuted : exists m, m_p m = 0%nat /\ forall solve r jn u a, derive_ls m solve r jn u a = UB.
Proof. exists (Mesh 1 0 (m_nodes lone) [] [] (m_aux lone) (m_db lone) (m_faux lone) (m_src lone) None [] [] (m_bath lone) (m_bath_min lone) (m_sl lone)). split; reflexivity. Qed.
Print Assumptions C62_order_zero_refuted.
Example derivative_example : exists u, affine_field twist 3 (1, -2) u /\ forall solve jn, exists du,
  derive_ls twist solve ReconLs jn u 1 = Ok du /\ du 0%nat 0%nat = -2 /\ du 3%nat 2%nat = -2.
Proof.
  destruct (affine_coeffs twist 3 (1, -2) ltac:(cbn; lia)) as [u A]. exists u. split; [exact A|]. intros solve jn.
  destruct (C62_derivatives_ls twist solve ReconLs jn 3 (1, -2) u 1 0 twist_ok ltac:(cbn; lia) A ltac:(discriminate) ltac:(lia) ltac:(lia)) as [(du & E & D) _].
  exists du. split; [exact E|]. split; apply D; cbn; lia.
Qed.

(** ** Averages at the nodes *)
(** The distributed average is the mean over all elements at the node, of whatever rank. *)
Theorem C62_average : forall ids s ranks els e v, In els ranks -> In e els -> (v < 3)%nat ->
  average ids s ranks els e v = node_mean ids s (concat ranks) (ids e v).
Proof. exact (fun ids s ranks els e v _ => average_mean ids s ranks els e v). Qed.
Print Assumptions C62_average.
(** It does not depend on the partition, nor on the element or rank that asks. *)
Theorem C62_average_partition : forall ids s ranks ranks' els els' e v e' v', Permutation (concat ranks) (concat ranks') ->
  In els ranks -> In els' ranks' -> In e els -> In e' els' -> (v < 3)%nat -> (v' < 3)%nat -> ids e v = ids e' v' ->
  average ids s ranks els e v = average ids s ranks' els' e' v'.
Proof.
  intros ids s ranks ranks' els els' e v e' v' P I I' J J' Hv Hv' E. rewrite (average_mean ids s ranks els e v J Hv), (average_mean ids s ranks' els' e' v' J' Hv'), <- E. apply mean_perm. exact P.
Qed.
Print Assumptions C62_average_partition.
(** It lies between the slopes around the node. *)
Theorem C62_average_range : forall ids s ranks els e v lo hi, In els ranks -> In e els -> (v < 3)%nat ->
  (forall e', In e' (concat ranks) -> (exists v', (v' < 3)%nat /\ ids e' v' = ids e v) -> lo <= s e' <= hi) -> lo <= average ids s ranks els e v <= hi.
Proof.
  intros ids s ranks els e v lo hi I J Hv H. rewrite (average_mean ids s ranks els e v J Hv). apply mean_range; [apply in_concat; exists els; split; assumption|exact Hv|].
  intros e' Ie Ne. apply H; [exact Ie|]. unfold at_node in Ne. destruct (Nat.eqb_spec (ids e' 0%nat) (ids e v)) as [E|_]; [exists 0%nat; split; [lia|exact E]|].
  destruct (Nat.eqb_spec (ids e' 1%nat) (ids e v)) as [E|_]; [exists 1%nat; split; [lia|exact E]|]. destruct (Nat.eqb_spec (ids e' 2%nat) (ids e v)) as [E|_]; [exists 2%nat; split; [lia|exact E]|]. lra.
Qed.
Print Assumptions C62_average_range.
(** The serial version adds into a vector that was never given a size. *)
Theorem C62_average_serial_refuted : forall n w x, (1 <= n)%nat -> (1 <= w)%nat -> avg_serial n w serial_size serial_local x = UB.
Proof. exact (fun n w x => serial_undefined n w serial_local x). Qed.
Print Assumptions C62_average_serial_refuted.
Example average_example : let ids := fun e v => nth v (nth e [[4; 7; 5]; [7; 9; 5]] [])%nat 0%nat in let s := fun e => if Nat.eqb e 0 then 1 else 3 in
  average ids s [[0]; [1]]%nat [1]%nat 1 0 = 2 /\ average ids s [[0]; [1]]%nat [1]%nat 1 1 = 3 /\ average ids s [[0]; [1]]%nat [0]%nat 0 1 = 2 /\ average ids s [[0]; [1]]%nat [0]%nat 0 0 = 1.
Proof.
  cbv zeta. rewrite !average_mean by (cbn; auto; lia). unfold node_mean, at_node. cbn. repeat apply conj; field.
Qed.

(** C53: forcing of tide and flow boundaries.  C54: levee data. *)
From Coq Require Import Reals NArith ZArith List Bool Arith Lia Lra Permutation.
From Verif Require Import Num ModelPi LemmasPi Outcome ModelSWE ModelShape SpecShape ModelMesh SpecMesh ModelStepper ModelQuad LemmasQuad
  ModelBcis SpecBcis LemmasBcis LemmasBcis2 LemmasBcis3.
Import ListNotations.
Open Scope R_scope.

(** A file of complete sections is read; a face whose two nodes are in a section gets the
    table of the first such section of its kind, and the signal is the ramped sum of the
    constituents, interpolated between the two nodes.  The Newton passes of the implicit
    solver use the same numbers as radians. *)
Theorem C53_signal : forall k pre nodes cs post a b, Forall section_ok (pre ++ Harmonic k nodes cs :: post) ->
  In a nodes -> In b nodes -> (forall s, In s pre -> ~ has_face k a b s) ->
  let file := print (pre ++ Harmonic k nodes cs :: post) in
  exists d h, read_bcis (length file) file no_bcis = Some d /\ create_harmonics (tables k d) [a; b] = Ok h /\
    (forall ramp t z, signal h ramp t z = ramp * tide_table cs a b t z) /\
    (forall ramp t z, signal_implicit h ramp t z = ramp * radian_table cs a b t z).
Proof. exact file_signals. Qed.
Print Assumptions C53_signal.

Theorem C53_missing_throws : forall k secs a b, Forall section_ok secs -> (forall s, In s secs -> ~ has_face k a b s) ->
  exists d, read_bcis (length (print secs)) (print secs) no_bcis = Some d /\ create_harmonics (tables k d) [a; b] = Throw.
Proof. exact file_missing. Qed.
Print Assumptions C53_missing_throws.

(** Two constituents on three nodes, rows in different orders, after a levee section. *)
Definition m2 : con := Con (1/7) 2 30 [(4%N, (1, 0)); (5%N, (3, 60)); (9%N, (5, 90))].
Definition k1 : con := Con (1/13) 1 0 [(9%N, (1, 10)); (5%N, (1, 20)); (4%N, (1, 30))].
Definition two_cons : list section := [LeveeSection [((1%N, 2%N), (3, 1, 1))]; Harmonic TideKind [4; 5; 9]%N [m2; k1]; Harmonic FlowKind [9; 4]%N [Con 0 1 0 [(4%N, (7, 0)); (9%N, (7, 0))]]].
Lemma two_cons_ok : Forall section_ok two_cons.
Proof.
  assert (D : NoDup [4; 5; 9]%N) by (repeat constructor; cbn; intuition discriminate).
  unfold two_cons. constructor; [exact I|]. constructor; [|constructor; [|constructor]].
  - split; [exact D|]. split; [discriminate|]. intros c [<-|[<-|[]]]; cbn; [apply Permutation_refl|].
    apply (Permutation_trans (l' := [9; 4; 5]%N)); [apply perm_skip, perm_swap|].
    apply (Permutation_app_comm [9]%N [4; 5]%N).
  - split; [repeat constructor; cbn; intuition discriminate|]. split; [discriminate|]. intros c [<-|[]]. cbn. apply perm_swap.
Qed.
Example C53_example : exists d h, read_bcis (length (print two_cons)) (print two_cons) no_bcis = Some d /\ create_harmonics (bc_tide d) [5; 4]%N = Ok h /\
  signal h 1 0 0 = 4 + cos (- 25 * (code_pi / 180)).
Proof.
  destruct (C53_signal TideKind [LeveeSection [((1%N, 2%N), (3, 1, 1))]] [4; 5; 9]%N [m2; k1] [Harmonic FlowKind [9; 4]%N [Con 0 1 0 [(4%N, (7, 0)); (9%N, (7, 0))]]] 5%N 4%N) as (d & h & E1 & E2 & E3 & _).
  - exact two_cons_ok.
  - cbn; auto.
  - cbn; auto.
  - intros s [<-|[]]. cbn. tauto.
  - exists d, h. split; [exact E1|]. split; [exact E2|]. rewrite E3. unfold tide_table, wave, between, degrees. fold code_pi. cbn.
    replace (1 / 7 * 0 + (30 - ((1 - 0) / 2 * 60 + (1 + 0) / 2 * 0)) * (code_pi / 180)) with 0 by field. rewrite cos_0.
    replace (1 / 13 * 0 + (0 - ((1 - 0) / 2 * 20 + (1 + 0) / 2 * 30)) * (code_pi / 180)) with (-25 * (code_pi / 180)) by field. field.
Qed.

(** Twelve digits of pi instead of all: the signal is off by less than the amplitudes times
    2e-15 per degree. *)
Theorem C53_digits : forall cs a b t z, -1 <= z <= 1 -> Rabs (tide_table cs a b t z - true_table cs a b t z) <=
  total (map (fun c => Rabs (c_ff c) * Rmax (Rabs (fst (row_of c a))) (Rabs (fst (row_of c b))) *
    (Rabs (c_eq c - between (snd (row_of c a)) (snd (row_of c b)) z) * (2 / 1000000000000000))) cs).
Proof. exact table_digits. Qed.
Print Assumptions C53_digits.

(** The signal never exceeds the sum of the amplitudes, and reversing the face does not change it. *)
Theorem C53_bound : forall cs a b t z, -1 <= z <= 1 -> Rabs (tide_table cs a b t z) <=
  total (map (fun c => Rabs (c_ff c) * Rmax (Rabs (fst (row_of c a))) (Rabs (fst (row_of c b)))) cs).
Proof. exact table_abs. Qed.
Print Assumptions C53_bound.
Theorem C53_reversed : forall cs a b t z, tide_table cs b a t (- z) = tide_table cs a b t z.
Proof. exact table_swap. Qed.
Print Assumptions C53_reversed.
(** The nodes of the table are the end points of the face, in the same order, when the
    element lists its nodes counter-clockwise. *)
Theorem C53_position : forall (where_is : N -> point) (ids : nat -> N) k z, (k < 3)%nat ->
  0 <= orient (where_is (ids 0%nat)) (where_is (ids 1%nat)) (where_is (ids 2%nat)) ->
  boundary_point (StraightTriangle (fun i => where_is (ids i))) k z =
  on_segment (where_is (fst (GetBoundaryNodeID k ids))) (where_is (snd (GetBoundaryNodeID k ids))) z.
Proof. exact face_position. Qed.
Print Assumptions C53_position.
Theorem C53_position_clockwise_refuted : exists (where_is : N -> point) (ids : nat -> N) k z,
  let p := boundary_point (StraightTriangle (fun i => where_is (ids i))) k z in
  p <> on_segment (where_is (fst (GetBoundaryNodeID k ids))) (where_is (snd (GetBoundaryNodeID k ids))) z /\
  p <> on_segment (where_is (snd (GetBoundaryNodeID k ids))) (where_is (fst (GetBoundaryNodeID k ids))) z.
Proof.
  exists (fun n => match n with 0%N => (0, 0) | 1%N => (0, 3) | _ => (4, 0) end), N.of_nat, 0%nat, 0.
  cbv zeta. set (n := fun i : nat => _). 
  assert (E : StraightTriangle n = swap02 n).
  { unfold StraightTriangle. destruct (Rltb_spec (GetJdet n) 0) as [L|L]; [reflexivity|]. exfalso. apply L.
    unfold GetJdet, determinant, deformation, n. cbn. lra. }
  rewrite E. destruct (LemmasShape.master_map (swap02 n)) as (_ & _ & B & _). rewrite B by lia. unfold n, on_segment. cbn.
  split; intros X; inversion X; lra.
Qed.
Print Assumptions C53_position_clockwise_refuted.

(** Nothing is imposed at the start of a ramped run. *)
Theorem C53_start : forall h nstages order dt rd z, imposed h (stepper_init nstages order dt true rd) z = 0.
Proof. exact start_zero. Qed.
Print Assumptions C53_start.

(** Mass through a flow boundary: the mean of the discharge inside and the one imposed;
    through a tide boundary: the discharge inside, corrected in proportion to the
    difference of the levels. *)
Theorem C53_flow_flux : forall g h s z q a n, nx n * nx n + ny n * ny n = 1 ->
  ze (flow_flux g h s z q a n) = (sp a * qx q * nx n + qy q * ny n + imposed h s z) / 2.
Proof. exact flow_mass. Qed.
Print Assumptions C53_flow_flux.
Theorem C53_tide_flux : forall g h s z q a n, exists lambda, 0 <= lambda /\
  ze (tide_flux g h s z q a n) = ((sp a + 1) * qx q * nx n + 2 * (qy q * ny n)) / 2 + lambda / 2 * (ze q - imposed h s z).
Proof. exact tide_mass. Qed.
Print Assumptions C53_tide_flux.
Definition steady (v : R) : harmonics := Harmonics [0] [1] [0] [[v; v]] [[0; 0]].
Lemma steady_imposed : forall v n p dt rd z, imposed (steady v) (stepper_init n p dt false rd) z = v.
Proof.
  intros. unfold imposed, signal, steady, nodal_value, GetBoundaryPsi. cbn [st_ramp stepper_init h_freq h_ff h_eq h_amp h_ph length seq fold_left nth].
  replace (0 * time_at_stage (stepper_init n p dt false rd) + (0 - (0 * ((1 - z) / 2) + 0 * ((1 + z) / 2))) * code_pi / 180) with 0 by field.
  rewrite cos_0. field.
Qed.
(** The discharge asked for is not what crosses the boundary. *)
Theorem C53_flow_refuted : exists g h s z q a n, nx n * nx n + ny n * ny n = 1 /\ sp a = 1 /\ 0 < ze q + bath a /\
  ze (flow_flux g h s z q a n) <> imposed h s z.
Proof.
  exists 10, (steady (-2)), (stepper_init 1 1 1 false 1), 0, (V3 0 0 0), (Aux 4 0 1), (V2 1 0).
  split; [cbn; ring|]. split; [reflexivity|]. split; [cbn; lra|]. rewrite C53_flow_flux by (cbn; ring). rewrite steady_imposed. cbn. lra.
Qed.
Print Assumptions C53_flow_refuted.

(** Implicit solver: level and ramp of the end of the step (one-stage schemes). *)
Theorem C53_implicit_time : forall h dt rd k z, 0 < rd ->
  let s := Nat.iter k istepper_incr (istepper_init 1 dt true rd) in
  let s' := istepper_incr s in
  imposed_implicit h s z = signal_implicit h (is_ramp s') (itime_now s') z.
Proof. exact implicit_at_end. Qed.
Print Assumptions C53_implicit_time.
(** Degrees and radians agree when every angle cancels ... *)
Theorem C53_implicit_zero_angle : forall cs a b t z,
  (forall c, In c cs -> c_eq c = between (snd (row_of c a)) (snd (row_of c b)) z) -> radian_table cs a b t z = tide_table cs a b t z.
Proof. exact zero_angle. Qed.
Print Assumptions C53_implicit_zero_angle.
(** ... and not otherwise: one degree is taken for one radian. *)
Theorem C53_implicit_radians_refuted : exists cs a b t z, radian_table cs a b t z <> tide_table cs a b t z.
Proof.
  exists [Con 0 1 1 [(0%N, (1, 0)); (1%N, (1, 0))]], 0%N, 1%N, 0, 0.
  unfold radian_table, tide_table, wave, between, degrees. fold code_pi. cbn.
  replace (0 * 0 + (1 - ((1 - 0) / 2 * 0 + (1 + 0) / 2 * 0))) with 1 by field.
  replace (0 * 0 + (1 - ((1 - 0) / 2 * 0 + (1 + 0) / 2 * 0)) * (code_pi / 180)) with (code_pi / 180) by field.
  pose proof PI_4. pose proof PI2_1. pose proof PI_RGT_0. pose proof pi_below. pose proof pi_close.
  assert (cos 1 < cos (code_pi / 180)) by (apply cos_decreasing_1; lra). lra.
Qed.
Print Assumptions C53_implicit_radians_refuted.

(** A section without constituents is no data at all; a constituent that lists one node
    twice and leaves one out makes the face read past the end of a vector. *)
Theorem C53_no_constituents_refuted : exists d, read_bcis 2 [[Int 1; Int 2]; [Int 0]] no_bcis = Some d /\ create_harmonics (bc_tide d) [0; 1]%N = Throw.
Proof. eexists. split; reflexivity. Qed.
Print Assumptions C53_no_constituents_refuted.
Theorem C53_incomplete_refuted : exists f d, read_bcis (length f) f no_bcis = Some d /\ create_harmonics (bc_tide d) [0; 1]%N = UB.
Proof.
  exists (print [Harmonic TideKind [0; 1]%N [Con 0 1 0 [(0%N, (1, 0)); (1%N, (1, 0))]; Con 0 1 0 [(0%N, (1, 0)); (0%N, (1, 0))]]]).
  eexists. split; reflexivity.
Qed.
Print Assumptions C53_incomplete_refuted.

(** Every tide or flow face of a generated mesh finds its data in the generated file. *)
Theorem C53_generated : forall types params m n i k f ff eq a b, fits m n -> length types = 4%nat -> length params = 4%nat ->
  (i < 4)%nat -> nth i types 0%N = code k -> nth i params (0, 0, 0) = (f, ff, eq) ->
  neighbours (nth i (boundary_nodes m n) []) a b ->
  let file := generated_bcis types params m n in
  exists d h, read_bcis (length file) file no_bcis = Some d /\ create_harmonics (tables k d) [a; b] = Ok h /\
    forall ramp t z, signal h ramp t z = ramp * (ff * cos (f * t + degrees eq)).
Proof. exact generated_signal. Qed.
Print Assumptions C53_generated.
(** Tide on the bottom and on the left of a 2 x 1 mesh: the corner node 0 is in both lists. *)
Example C53_generated_example : exists d h1 h2, let file := generated_bcis [1; 0; 2; 1]%N [(1, 5, 0); (0, 0, 0); (0, 1, 0); (2, 7, 90)] 2 1 in
  read_bcis (length file) file no_bcis = Some d /\ length (bc_tide d) = 2%nat /\ length (bc_flow d) = 1%nat /\
  create_harmonics (bc_tide d) [0; 1]%N = Ok h1 /\ h_ff h1 = [5] /\ create_harmonics (bc_tide d) [3; 0]%N = Ok h2 /\ h_ff h2 = [7].
Proof. do 3 eexists. cbv zeta. vm_compute. auto 10. Qed.

(** Levees: when no node belongs to two pairs, an interface and the two halves of a
    distributed face get the rows of the file, whichever order the pairs were given in,
    and the same crest and coefficients at the same point. *)
Theorem C54_levee_rows : forall secs a1 a2 b1 b2 v1 v2, Forall section_ok secs -> paired (flat_map levees_of secs) ->
  levee_row (flat_map levees_of secs) a1 b2 v1 -> levee_row (flat_map levees_of secs) a2 b1 v2 ->
  exists d, read_bcis (length (print secs)) (print secs) no_bcis = Some d /\
    levee_data (bc_levee d) [a1; a2] [b1; b2] = Ok [v1; v2] /\ levee_data (bc_levee d) [b1; b2] [a1; a2] = Ok [v2; v1] /\
    dist_levee_data (bc_levee d) [a1; a2] = Ok [v1; v2] /\ dist_levee_data (bc_levee d) [b1; b2] = Ok [v2; v1].
Proof. exact file_levee_rows. Qed.
Print Assumptions C54_levee_rows.
Theorem C54_crest : forall v1 v2 z, levee_gp [v1; v2] z = Ok (between3 v1 v2 z) /\ levee_gp [v2; v1] (- z) = Ok (between3 v1 v2 z).
Proof. exact crest_both. Qed.
Print Assumptions C54_crest.
Theorem C54_missing_throws : forall secs a1 a2 b1 b2, Forall section_ok secs -> paired (flat_map levees_of secs) ->
  (forall b v, ~ levee_row (flat_map levees_of secs) a1 b v) ->
  exists d, read_bcis (length (print secs)) (print secs) no_bcis = Some d /\
    levee_data (bc_levee d) [a1; a2] [b1; b2] = Throw /\ dist_levee_data (bc_levee d) [a1; a2] = Throw.
Proof. exact file_levee_missing. Qed.
Print Assumptions C54_missing_throws.
(** Of several rows for the same pair in the same order the last one counts. *)
Theorem C54_last_row : forall secs a b, Forall section_ok secs ->
  exists d, read_bcis (length (print secs)) (print secs) no_bcis = Some d /\
    (forall v, rm_find (bc_levee d) (a, b) = Some v <-> exists r1 r2, flat_map levees_of secs = r1 ++ ((a, b), v) :: r2 /\ forall w, ~ In ((a, b), w) r2).
Proof. exact last_row. Qed.
Print Assumptions C54_last_row.
Example C54_last_row_example : let f := print [LeveeSection [((1%N, 11%N), (1, 1, 1)); ((2%N, 12%N), (2, 1, 1)); ((1%N, 11%N), (3, 1, 1))]] in
  exists d, read_bcis (length f) f no_bcis = Some d /\ levee_data (bc_levee d) [1; 2]%N [12; 11]%N = Ok [(3, 1, 1); (2, 1, 1)].
Proof. eexists. split; reflexivity. Qed.
Definition weir3 : list section := [LeveeSection [((10%N, 20%N), (2, 1, 1)); ((21%N, 11%N), (4, 1/2, 1)); ((12%N, 22%N), (3, 1, 0))]].
Example C54_example : exists d, read_bcis (length (print weir3)) (print weir3) no_bcis = Some d /\
  levee_data (bc_levee d) [10; 11]%N [21; 20]%N = Ok [(2, 1, 1); (4, 1/2, 1)] /\
  dist_levee_data (bc_levee d) [21; 20]%N = Ok [(4, 1/2, 1); (2, 1, 1)] /\
  levee_gp [(2, 1, 1); (4, 1/2, 1)] 0 = Ok (3, 3/4, 1).
Proof.
  assert (P : paired (flat_map levees_of weir3)) by (unfold paired; cbn; repeat constructor; cbn; intuition discriminate).
  destruct (C54_levee_rows weir3 10%N 11%N 21%N 20%N (2, 1, 1) (4, 1/2, 1)) as (d & E & A & _ & _ & B);
    [repeat constructor|exact P|left; cbn; auto|right; cbn; auto|].
  exists d. split; [exact E|]. split; [exact A|]. split; [exact B|].
  rewrite (proj1 (C54_crest _ _ _)). unfold between3, between. cbn. f_equal. f_equal; [f_equal|]; field.
Qed.
(** A node in two pairs: the interface is built, the distributed face gets three rows for
    two nodes. *)
Theorem C54_shared_node_refuted : exists f d l, read_bcis (length f) f no_bcis = Some d /\
  levee_data (bc_levee d) [1; 2]%N [12; 11]%N = Ok [(1, 1, 1); (2, 1, 1)] /\
  dist_levee_data (bc_levee d) [1; 2]%N = Ok l /\ forall z, levee_gp l z = UB.
Proof.
  exists (print [LeveeSection [((1%N, 11%N), (1, 1, 1)); ((2%N, 12%N), (2, 1, 1)); ((3%N, 1%N), (3, 1, 1))]]).
  do 2 eexists. split; [reflexivity|]. split; [reflexivity|]. split; [reflexivity|]. reflexivity.
Qed.
Print Assumptions C54_shared_node_refuted.
(** A pair given in both orders: the interface takes the row of its own order. *)
Theorem C54_both_orders_refuted : exists f d, read_bcis (length f) f no_bcis = Some d /\
  levee_data (bc_levee d) [1; 2]%N [12; 11]%N = Ok [(1, 1, 1); (2, 1, 1)] /\ levee_data (bc_levee d) [12; 11]%N [1; 2]%N = Ok [(2, 1, 1); (5, 1, 1)].
Proof.
  exists (print [LeveeSection [((1%N, 11%N), (1, 1, 1)); ((2%N, 12%N), (2, 1, 1)); ((11%N, 1%N), (5, 1, 1))]]).
  eexists. split; [reflexivity|]. split; reflexivity.
Qed.
Print Assumptions C54_both_orders_refuted.

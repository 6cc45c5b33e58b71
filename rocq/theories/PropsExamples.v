(** C65: the reference solutions of the examples and the equations of the solver. *)
From Coq Require Import Reals List Lra Lia.
From Coquelicot Require Import Hierarchy Derive.
From Verif Require Import Num ModelSWE ModelJac ModelShape ModelBasis ModelStep ModelInit ModelGN ModelGrad SpecStepper SpecStage SpecRest SpecGN SpecShape LemmasGrad6 SpecExamples ModelExamples LemmasExamples1 LemmasExamples2 LemmasExamples3 LemmasExamples4.
Open Scope R_scope.

(** The flux and source of the code, with any function source, are the shallow-water
    equations of the textbooks, over every bed that has a slope. *)
Theorem C65_equations : forall g B Bx By src q t x y, bed_slope B Bx By ->
  solver_equations g B Bx By src q t x y <-> shallow_water g B Bx By src q t x y.
Proof. exact (fun g B Bx By src q t x y H => forms_agree g B Bx By src q H t x y). Qed.
Print Assumptions C65_equations.

(** The manufactured solution solves them with its source for exactly one gravity and one
    constant depth: 1 and 2. *)
Lemma level : forall b, bed_slope (fun _ _ => b) (fun _ _ => 0) (fun _ _ => 0).
Proof. intros b x y. split; apply zero_x; reflexivity. Qed.
Theorem C65_manufactured : forall g b, 0 < b ->
  (forall t x y, solver_equations g (fun _ _ => b) (fun _ _ => 0) (fun _ _ => 0) man_source man_true t x y) <-> g = 1 /\ b = 2.
Proof.
  intros g b Hb. split.
  - intros A. apply (man_only g b Hb). intros t x y. exact (proj1 (forms_agree g _ _ _ man_source man_true (level b) t x y) (A t x y)).
  - intros [Hg H2] t x y. exact (proj2 (forms_agree g _ _ _ man_source man_true (level b) t x y) (man_fits g b Hb Hg H2 t x y)).
Qed.
Print Assumptions C65_manufactured.
(** Initial and boundary values are the solution; over the depth of the test script the water
    is deeper than 2 everywhere. *)
Theorem C65_manufactured_data : (forall t x y, man_ic t x y = man_true t x y) /\ (forall t x y, 2 < column script_depth man_true t x y).
Proof.
  split; [reflexivity|]. intros t x y. unfold column, script_depth. cbn [ze man_true]. pose proof (exp_pos (sin (3 * x) * sin (3 * y) - sin (3 * t))). lra.
Qed.
Print Assumptions C65_manufactured_data.
(** Over the depth of the mesh generator as it is in the repository it is no solution,
    whatever the gravity. *)
Theorem C65_generator_refuted : forall g, ~ forall t x y, solver_equations g generator_depth (fun _ _ => 0) (fun _ _ => 0) man_source man_true t x y.
Proof. intros g A. destruct (proj1 (C65_manufactured g (3 / 2) ltac:(lra)) A) as [_ E]. lra. Qed.
Print Assumptions C65_generator_refuted.
Example C65_manufactured_ex : man_true 0 0 0 = V3 1 1 0 /\ qx (man_source 0 0 0) = 1 / 3.
Proof.
  unfold man_true, man_source. cbn [qx]. replace (0 - 4 * 0) with 0 by ring. replace (0 + 4 * 0) with 0 by ring. replace (4 * 0 - 0) with 0 by ring. replace (4 * 0 + 0) with 0 by ring.
  replace (3 * 0) with 0 by ring. rewrite sin_0, cos_0. replace (0 * 0 - 0) with 0 by ring. replace (- 0 + 0 * 0) with 0 by ring. rewrite exp_0. split; [reflexivity|field].
Qed.

(** The bowl: for every gravity the initial state belongs to an oscillating solution, with
    no source but the bed, wherever there is water; it comes back after 2 pi / om. *)
Theorem C65_bowl : forall g, 0 < g -> exists om, 0 < om /\ om * om = 8 * g * bowl_alpha /\
  bed_slope bowl_depth (fun x _ => - (2) * bowl_alpha * x) (fun _ y => - (2) * bowl_alpha * y) /\
  (forall x y, thacker bowl_alpha bowl_X bowl_Y om 0 x y = bowl_ic 0 x y) /\
  (forall t x y, column bowl_depth (thacker bowl_alpha bowl_X bowl_Y om) t x y <> 0 ->
    solver_equations g bowl_depth (fun x _ => - (2) * bowl_alpha * x) (fun _ y => - (2) * bowl_alpha * y) (fun _ _ _ => vzero) (thacker bowl_alpha bowl_X bowl_Y om) t x y) /\
  (forall t x y, thacker bowl_alpha bowl_X bowl_Y om (t + 2 * PI / om) x y = thacker bowl_alpha bowl_X bowl_Y om t x y).
Proof.
  intros g Hg. assert (P : 0 < 8 * g * bowl_alpha) by (unfold bowl_alpha; lra). exists (sqrt (8 * g * bowl_alpha)).
  pose proof (sqrt_lt_R0 _ P) as S0. pose proof (sqrt_sqrt _ (Rlt_le _ _ P)) as S1. refine (conj S0 (conj S1 (conj bowl_bed (conj (bowl_start _) (conj _ _))))).
  - intros t x y N. exact (bowl_solves g _ t x y S1 N).
  - intros t x y. apply bowl_again. lra.
Qed.
Print Assumptions C65_bowl.
(** The shore at the start is the circle the comment in the code names. *)
Theorem C65_bowl_shore : forall x y, (column bowl_depth bowl_ic 0 x y = bowl_column x y) /\
  (0 < bowl_column x y <-> x * x + y * y < (bowl_X + bowl_Y) / (bowl_alpha * (bowl_X * bowl_X - bowl_Y * bowl_Y))).
Proof. intros x y. split; [unfold column, bowl_depth; cbn [ze bowl_ic]; ring|exact (bowl_shore x y)]. Qed.
Print Assumptions C65_bowl_shore.
Example C65_bowl_ex : bowl_column 0 0 = 100000 / 58116 /\ bowl_column 2000 0 = 54058 / 72645 /\ bowl_column 3000 0 = - (69239 / 145290).
Proof. unfold bowl_column, bowl_X, bowl_Y, bowl_alpha. repeat apply conj; field. Qed.

(** The solitary wave solves the dispersive equations if and only if alpha is 1. *)
Theorem C65_solitary : forall alpha, 0 < alpha -> green_naghdi gn_g alpha gn_Ho gn_true <-> alpha = 1.
Proof. exact gn_iff. Qed.
Print Assumptions C65_solitary.
Theorem C65_solitary_data : forall t x y, gn_ic t x y = gn_true t x y.
Proof. reflexivity. Qed.
Print Assumptions C65_solitary_data.
(** The solver has 1.159: the wave the example compares with is not a solution. *)
Theorem C65_solitary_refuted : ~ green_naghdi gn_g nd_alpha gn_Ho gn_true.
Proof. intros A. apply (proj1 (gn_iff nd_alpha ltac:(unfold nd_alpha; lra))) in A. unfold nd_alpha in A. lra. Qed.
Print Assumptions C65_solitary_refuted.
Example C65_solitary_ex : forall y, gn_true 0 gn_xo y = V3 (5 / 100) (gn_co * (5 / 100)) 0.
Proof. intros y. unfold gn_true. replace (gn_w * (gn_xo - gn_xo - gn_co * 0)) with 0 by ring. unfold cosh. rewrite Ropp_0, exp_0. unfold gn_ao. f_equal; field. Qed.

(** The initial coefficients from a function: the projection by the quadrature rule, of
    the values at the points of the element (time 0), for every basis function. *)
Theorem C65_initial : forall i ic e, (in_p i <= 298)%nat -> GetJdet (in_nodes i e) <> 0 ->
  solves_mass (init_mesh i) e (init_qf i ic e) (fun v d => vol_int (init_mesh i) e (fun gp z =>
    GetPhi d z * (let p := comb (in_nodes i e 0%nat) (in_nodes i e 1%nat) (in_nodes i e 2%nat) (- (fst z + snd z) / 2) ((1 + fst z) / 2) ((1 + snd z) / 2) in
                  vget (ic 0 (fst p) (snd p)) v))).
Proof. exact init_solves. Qed.
Print Assumptions C65_initial.
(** What is in the space is kept. *)
Theorem C65_initial_exact : forall i ic u e v d, conforming i -> (e < in_n i)%nat -> (d < dubiner_ndof (in_p i))%nat ->
  (forall gp, (gp < length (in_rule2 i))%nat -> vget (f_at_gp i (ic 0) e gp) v = val (init_mesh i) u (snd (nth gp (in_rule2 i) (0, (0, 0))))) ->
  init_qf i ic e v d = u d.
Proof. exact (fun i ic u e v d C He Hd H => l2_own i C (fun e gp => vget (f_at_gp i (ic 0) e gp) v) (fun _ => u) e d He Hd H). Qed.
Print Assumptions C65_initial_exact.
(** Function boundary: the exterior state is the function at the points of the face, at
    the time of the stage; function source: the value at the points of the element. *)
Theorem C65_boundary : forall i ic e b t gp n q, (b < 3)%nat ->
  match function_bc i ic e b with Exterior f => f t gp n q | Land => q end =
  let p := on_segment (in_nodes i e ((b + 1) mod 3)%nat) (in_nodes i e ((b + 2) mod 3)%nat) (snd (nth gp (in_rule1 i) (0, 0))) in ic t (fst p) (snd p).
Proof. exact face_state. Qed.
Print Assumptions C65_boundary.
Theorem C65_source : forall i src t e gp, function_source i src t e gp =
  let z := snd (nth gp (in_rule2 i) (0, (0, 0))) in
  let p := comb (in_nodes i e 0%nat) (in_nodes i e 1%nat) (in_nodes i e 2%nat) (- (fst z + snd z) / 2) ((1 + fst z) / 2) ((1 + snd z) / 2) in src t (fst p) (snd p).
Proof. exact source_point. Qed.
Print Assumptions C65_source.

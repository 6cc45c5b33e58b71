(** Initial state from a function, and the bowl in its numbers. *)
From Coq Require Import Reals List Lra Lia Psatz.
From Coquelicot Require Import Hierarchy Derive.
From Verif Require Import Num ModelSWE ModelJac ModelShape ModelBasis ModelStep ModelInit ModelGN ModelGrad SpecStepper SpecStage SpecGN LemmasRK LemmasStep LemmasGN4 LemmasStage4 SpecShape LemmasShape SpecExamples ModelExamples LemmasExamples1 LemmasExamples2.
Open Scope R_scope.

Lemma init_solves : forall i ic e, (in_p i <= 298)%nat -> GetJdet (in_nodes i e) <> 0 ->
  solves_mass (init_mesh i) e (init_qf i ic e) (fun v d => vol_int (init_mesh i) e (fun gp z =>
    GetPhi d z * (let p := comb (in_nodes i e 0%nat) (in_nodes i e 1%nat) (in_nodes i e 2%nat) (- (fst z + snd z) / 2) ((1 + fst z) / 2) ((1 + snd z) / 2) in
                  vget (ic 0 (fst p) (snd p)) v))).
Proof.
  intros i ic e Hp HJ.
  assert (E : forall rhs rhs', (forall v d, rhs v d = rhs' v d) -> solves_mass (init_mesh i) e (init_qf i ic e) rhs -> solves_mass (init_mesh i) e (init_qf i ic e) rhs').
  { intros rhs rhs' Q H v d M Hd HM. rewrite <- Q. exact (H v d M Hd HM). }
  apply (E (fun v d => s_phi (init_mesh i) e (fun gp => vget (f_at_gp i (ic 0) e gp) v) d)).
  - intros v d. unfold s_phi. rewrite vmsum_rsum, vol_int_eq. apply rsum_ext. intros gp _. unfold f_at_gp. cbv zeta. rewrite <- affine. unfold gp2, z2. cbn [init_mesh m_rule2].
    generalize (vget (ic 0 (fst (LocalToGlobalCoordinates (in_nodes i e) (snd (nth gp (in_rule2 i) (0, (0, 0)))))) (snd (LocalToGlobalCoordinates (in_nodes i e) (snd (nth gp (in_rule2 i) (0, (0, 0))))))) v).
    intros r. ring.
  - exact (mass_solve (init_mesh i) e (fun v d => s_phi (init_mesh i) e (fun gp => vget (f_at_gp i (ic 0) e gp) v) d) Hp HJ).
Qed.

Lemma face_state : forall i ic e b t gp n q, (b < 3)%nat ->
  match function_bc i ic e b with Exterior f => f t gp n q | Land => q end =
  let p := on_segment (in_nodes i e ((b + 1) mod 3)%nat) (in_nodes i e ((b + 2) mod 3)%nat) (snd (nth gp (in_rule1 i) (0, 0))) in ic t (fst p) (snd p).
Proof. intros i ic e b t gp n q Hb. unfold function_bc. cbv zeta. rewrite <- (edge_point _ b _ Hb). reflexivity. Qed.

Lemma bowl_start : forall om x y, thacker bowl_alpha bowl_X bowl_Y om 0 x y = bowl_ic 0 x y.
Proof.
  intros om x y. unfold thacker, bowl_ic, bowl_column, bowl_alpha, bowl_X, bowl_Y. rewrite Rmult_0_r, cos_0, sin_0. f_equal; field.
Qed.
Lemma bowl_open : forall s, 0 < bowl_X + bowl_Y * cos s.
Proof. intros s. pose proof (COS_bound s). unfold bowl_X, bowl_Y. lra. Qed.
Lemma bowl_column_is : forall om t x y, column bowl_depth (thacker bowl_alpha bowl_X bowl_Y om) t x y =
  1 / (bowl_X + bowl_Y * cos (om * t)) + bowl_alpha * (bowl_Y ^ 2 - bowl_X ^ 2) / (bowl_X + bowl_Y * cos (om * t)) ^ 2 * (x ^ 2 + y ^ 2).
Proof. intros. unfold column, thacker, bowl_depth. cbn [ze]. ring. Qed.
Lemma bowl_bed : bed_slope bowl_depth (fun x _ => - (2) * bowl_alpha * x) (fun _ y => - (2) * bowl_alpha * y).
Proof.
  intros x y. unfold bowl_depth. split; AutoDerive.auto_derive; try exact I; ring.
Qed.
Lemma bowl_solves : forall g om t x y, om * om = 8 * g * bowl_alpha -> column bowl_depth (thacker bowl_alpha bowl_X bowl_Y om) t x y <> 0 ->
  solver_equations g bowl_depth (fun x _ => - (2) * bowl_alpha * x) (fun _ y => - (2) * bowl_alpha * y) (fun _ _ _ => vzero) (thacker bowl_alpha bowl_X bowl_Y om) t x y.
Proof.
  intros g om t x y Hom N. apply (forms_agree g bowl_depth _ _ (fun _ _ _ => vzero) _ bowl_bed).
  apply (thacker_solves g bowl_alpha bowl_X bowl_Y om Hom t x y). split; [pose proof (bowl_open (om * t)); lra|]. rewrite bowl_column_is in N. exact N.
Qed.
Lemma bowl_again : forall om t x y, om <> 0 -> thacker bowl_alpha bowl_X bowl_Y om (t + 2 * PI / om) x y = thacker bowl_alpha bowl_X bowl_Y om t x y.
Proof.
  intros om t x y N. unfold thacker. replace (om * (t + 2 * PI / om)) with (om * t + 2 * INR 1 * PI) by (cbn [INR]; field; exact N). rewrite sin_period, cos_period. reflexivity.
Qed.
Lemma bowl_shore : forall x y, 0 < bowl_column x y <-> x * x + y * y < (bowl_X + bowl_Y) / (bowl_alpha * (bowl_X * bowl_X - bowl_Y * bowl_Y)).
Proof.
  intros x y. unfold bowl_column. cbv zeta. set (r := x * x + y * y).
  assert (E : 1 / (bowl_X + bowl_Y) + bowl_alpha * (bowl_Y * bowl_Y - bowl_X * bowl_X) / ((bowl_X + bowl_Y) * (bowl_X + bowl_Y)) * r =
    (bowl_alpha * (bowl_X * bowl_X - bowl_Y * bowl_Y)) / ((bowl_X + bowl_Y) * (bowl_X + bowl_Y)) * ((bowl_X + bowl_Y) / (bowl_alpha * (bowl_X * bowl_X - bowl_Y * bowl_Y)) - r)) by (unfold bowl_X, bowl_Y, bowl_alpha; field).
  rewrite E. set (k := bowl_alpha * (bowl_X * bowl_X - bowl_Y * bowl_Y) / ((bowl_X + bowl_Y) * (bowl_X + bowl_Y))).
  assert (P : 0 < k) by (unfold k, bowl_X, bowl_Y, bowl_alpha; apply Rdiv_lt_0_compat; lra). set (m := (bowl_X + bowl_Y) / (bowl_alpha * (bowl_X * bowl_X - bowl_Y * bowl_Y))). split; intros H; nra.
Qed.
Lemma source_point : forall i src t e gp, function_source i src t e gp =
  let z := snd (nth gp (in_rule2 i) (0, (0, 0))) in
  let p := comb (in_nodes i e 0%nat) (in_nodes i e 1%nat) (in_nodes i e 2%nat) (- (fst z + snd z) / 2) ((1 + fst z) / 2) ((1 + snd z) / 2) in src t (fst p) (snd p).
Proof. intros i src t e gp. cbv zeta. rewrite <- affine. reflexivity. Qed.

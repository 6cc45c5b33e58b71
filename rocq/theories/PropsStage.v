(** Property theorems: what a stage computes on every element (C51). *)
From Coq Require Import Reals QArith Qreals List Bool Arith Lra Lia.
From Verif Require Import Num ModelSWE Outcome ModelShape ModelBasis ModelJac ModelStepper ModelWetDry ModelSlope ModelStep
  SpecSWE SpecShape SpecBasis SpecJac SpecStepper SpecSlope SpecStep SpecStage
  LemmasSWE LemmasShape LemmasStep LemmasStage LemmasStage2 LemmasStage3 LemmasStage4 LemmasStage5 PropsStep.
Import ListNotations.
Open Scope R_scope.

(** The kernels of a stage leave in the right-hand side of every element, for
    every variable and test function, the weak form of the equations. *)
Theorem C51_weak_form : forall m c t k st e v i, (e < m_n m)%nat ->
  orient (m_nodes m e 0%nat) (m_nodes m e 1%nat) (m_nodes m e 2%nat) <> 0 ->
  (forall f, In f (m_intfaces m) -> (i_bin f < 3)%nat /\ (i_bex f < 3)%nat) -> (forall b, In b (m_bounds m) -> (b_id b < 3)%nat) ->
  ms_rhs (rhs_kernels m c t k st) e k v i = weak_form m c t k st e v i.
Proof. exact weak_form_model. Qed.
Print Assumptions C51_weak_form.

(** A stage ends without error in the state described by [stage_of]: weak form,
    mass matrix solve, Shu-Osher combination, wetting and drying, slope limiter
    with the centre values of the neighbours. *)
Theorem C51_stage : forall m c nbr st stp, stage_ok m c -> (st_stage stp < st_nstages stp)%nat ->
  (forall e b, (e < m_n m)%nat -> (b < 3)%nat -> seen_across m e b (nbr e b)) ->
  exists st' wd, stage_serial m c (st, stp) = Ok (st', stepper_incr stp) /\ stage_of m c nbr stp st wd st'.
Proof. exact stage_spec. Qed.
Print Assumptions C51_stage.

(** The solve is determined: two solutions of the mass matrix system agree on
    every degree of freedom. *)
Theorem C51_mass_unique : forall m e sol sol' rhs, (m_p m <= 298)%nat ->
  orient (m_nodes m e 0%nat) (m_nodes m e 1%nat) (m_nodes m e 2%nat) <> 0 -> solves_mass m e sol rhs -> solves_mass m e sol' rhs ->
  forall v i, (i < dubiner_ndof (m_p m))%nat -> sol v i = sol' v i.
Proof. exact mass_unique. Qed.
Print Assumptions C51_mass_unique.

(** ** The unit square again *)
Definition sq_nbr (e b : nat) : nat := if Nat.eqb b 0 then 1 - e else e.
Example square_stage_ok : forall wd, stage_ok square (euler wd) /\
  forall e b, (e < m_n square)%nat -> (b < 3)%nat -> seen_across square e b (sq_nbr e b).
Proof.
  intros wd. destruct square_ok as [[_ T _ _ _ _ B] _]. split.
  - constructor; try (cbn; lra).
    + cbn. lia.
    + exact T.
    + split.
      * cbn. repeat (constructor; [cbn; intuition congruence|]). constructor.
      * intros e b. cbn. split.
        -- intros H. repeat destruct H as [H|H]; try contradiction; injection H as <- <-; lia.
        -- intros [He Hb]. destruct e as [|[|e]]; [| |lia]; destruct b as [|[|[|b]]]; try lia; tauto.
    + intros e v _. cbn. lra.
  - intros e b He Hb. cbn in He. destruct (Nat.eq_dec b 0) as [->|N].
    + left. exists (Intf 0 0 1 0 Internal). destruct e as [|[|e]]; [| |lia]; cbn; tauto.
    + right. exists (Bnd e b Land). unfold sq_nbr. destruct (Nat.eqb_spec b 0); [contradiction|]. cbn.
      destruct e as [|[|e]]; [| |lia]; destruct b as [|[|[|b]]]; try lia; tauto.
Qed.

(** Surface raised by 1 on one half, gravity 1, depth 1: the mass flux through the
    diagonal is 1, into the other half. *)
Example bump_rhs : forall t, weak_form square (euler false) t 0 (at_rest 1 0 true) 0 0 0 = -1 /\
  weak_form square (euler false) t 0 (at_rest 1 0 true) 1 0 0 = 1.
Proof.
  intros t. set (st := at_rest 1 0 true).
  assert (T : forall e b gp, face_value square 0 st e b gp = V3 (if Nat.eqb e 0 then 1 else 0) 0 0).
  { intros e b gp. unfold face_value, value. cbn [m_p square]. change (dubiner_ndof 1) with 3%nat. cbn [rsum]. unfold st, at_rest. cbn [ms_q].
    rewrite phi0. f_equal; ring. }
  assert (Int : forall e, (e < 2)%nat -> interior square (euler false) t 0 st e 0 0 = 0).
  { intros e He. unfold interior. cbn [m_rule2 square length rsum nth]. rewrite !dphi0. unfold grad_x, grad_y, source. cbn. unfold Rdiv. ring. }
  destruct square_ok as [OK _].
  assert (Bd : forall e, (e < 2)%nat -> lsum (m_bounds square) (fun b => boundary_load square (euler false) t 0 st b e 0 0) = 0).
  { intros e He. rewrite (lsum_ext _ _ _ (fun _ => 0)); [apply lsum_zero|]. intros b Hb. unfold boundary_load. destruct (_ && _) eqn:W; [|reflexivity].
    apply andb_prop in W as [W _]. apply Nat.eqb_eq in W. subst e. unfold face_integral. cbn [m_rule1 square length rsum nth].
    assert (Hn : unit2 (normal square (b_elt b) (b_id b))).
    { apply normal_unit; [apply (ok_triangles _ OK); exact He|]. destruct Hb as [<-|[<-|[<-|[<-|[]]]]]; cbn; lia. }
    assert (L : b_bc b = Land) by (destruct Hb as [<-|[<-|[<-|[<-|[]]]]]; reflexivity). rewrite L. cbn [row].
    rewrite !(fun q gp => proj1 (land_flux_impermeable 1 _ q (m_faux square (b_elt b) (b_id b) gp) Hn eq_refl)). ring. }
  assert (F : forall gp, ze (fst (point_flux square (euler false) 0 st (Intf 0 0 1 0 Internal) gp)) = sqrt 2 / 2 /\
    ze (snd (point_flux square (euler false) 0 st (Intf 0 0 1 0 Internal) gp)) = - (sqrt 2 / 2)).
  { intros gp. unfold point_flux. cbn [i_kind i_in i_ex i_bin i_bex]. rewrite !T. cbn [Nat.eqb].
    set (n := normal square 0 0). assert (Hn : unit2 n) by (apply normal_unit; [apply (ok_triangles _ OK); cbn; lia|lia]).
    set (a := m_faux square 0 0 gp). set (q := V3 1 0 0). set (q' := V3 0 0 0).
    assert (Z : ze (LLF_flux 1 q q' a n) = sqrt 2 / 2).
    { destruct (LLF_lax_friedrichs 1 q q' a n eq_refl Hn) as [E _]. rewrite E. unfold wave_speed, physical_flux, normal_part, q, q', a. cbn [ze qx qy bath m_faux square].
      replace ((0 * nx n + 0 * ny n) / (1 + 1)) with 0 by field. replace ((0 * nx n + 0 * ny n) / (0 + 1)) with 0 by field. rewrite Rabs_R0.
      replace (1 * (1 + 1)) with 2 by ring. replace (1 * (0 + 1)) with 1 by ring.
      rewrite Rmax_left; [field|]. apply Rplus_le_compat_l, sqrt_le_1_alt. lra. }
    assert (S2 : 1 <= sqrt 2) by (rewrite <- sqrt_1 at 1; apply sqrt_le_1_alt; lra).
    assert (P : internal_point 1 true true q q' a (m_faux square 1 0 (2 - 1 - gp)) n (V2 (- nx n) (- ny n)) = (LLF_flux 1 q q' a n, vneg (LLF_flux 1 q q' a n))).
    { unfold internal_point. num_R. rewrite Z. rewrite Rltb_true; [reflexivity|]. unfold n1em12. num_R. lra. }
    change (length (m_rule1 square)) with 2%nat. change (c_g (euler false)) with 1. change (ms_wet st 0%nat) with true. change (ms_wet st 1%nat) with true.
    rewrite P. cbn [fst snd]. unfold vneg. num_R. cbn [ze]. rewrite Z. split; reflexivity. }
  assert (H : half_side (m_nodes square 0) 0 = sqrt 2 / 2).
  { unfold half_side, dist. cbn. unfold sq_nodes, vdot, SpecShape.vsub. cbn. f_equal. f_equal. ring. }
  assert (S2 : sqrt 2 * sqrt 2 = 2) by (apply sqrt_sqrt; lra).
  unfold weak_form. rewrite !Int, !Bd by lia. cbn [m_intfaces square lsum fold_right map]. unfold interface_load. cbn [i_in i_ex i_bin i_bex ms_wet st at_rest orb Nat.eqb].
  rewrite H. unfold face_integral. change (length (m_rule1 square)) with 2%nat. cbn [rsum m_rule1 square nth row]. rewrite !phi0.
  cbn [Nat.sub]. rewrite !(proj1 (F _)), !(proj2 (F _)). split; nra.
Qed.

(** Hence the code's right-hand side. *)
Example bump_code : forall t, ms_rhs (rhs_kernels square (euler false) t 0 (at_rest 1 0 true)) 1%nat 0%nat 0%nat 0%nat = 1.
Proof.
  intros t. rewrite C51_weak_form; [apply bump_rhs|..].
  - cbn. lia.
  - apply (ok_triangles _ (proj1 square_ok)). cbn. lia.
  - intros f [<-|[]]. cbn. lia.
  - intros b [<-|[<-|[<-|[<-|[]]]]]; cbn; lia.
Qed.

(** One Euler stage with wetting and drying, as described. *)
Example square_stage : exists st' wd, stage_serial square (euler true) (at_rest 1 0 true, euler_stepper) = Ok (st', stepper_incr euler_stepper) /\
  stage_of square (euler true) sq_nbr euler_stepper (at_rest 1 0 true) wd st'.
Proof. destruct (square_stage_ok true) as [A B]. apply C51_stage; [exact A|cbn; lia|exact B]. Qed.

(** Proofs: the correction stage; numbering; the undefined cases. *)
From Coq Require Import Reals List Arith Bool Lia Lra FunctionalExtensionality.
From Verif Require Import Num Outcome ModelSWE LemmasSWE ModelShape ModelBasis ModelJac ModelStepper ModelStep ModelIHDG ModelCond SpecShape SpecBasis SpecStepper SpecStep SpecStage SpecCond
  LemmasRK LemmasStep LemmasStage3 LemmasStage4 LemmasCond ModelGN SpecGN LemmasGN1 LemmasGN2 LemmasGN3 LemmasGN4 LemmasGN5 LemmasGN6 LemmasGN7 LemmasGN8 LemmasGN10 LemmasGN11.
Import ListNotations.
Open Scope R_scope.

Lemma levee_kernels : forall m wet x, no_wet_levee m wet -> In x (numbered_edges m) -> kernels_ok wet x.
Proof.
  intros m wet x H Hx We Q. apply numbered_nth in Hx. destruct (edge_cases m _ _ Hx) as [(f & Ef & E)|(b & _ & _ & E)].
  - rewrite E in We, Q. cbn [ge_kind] in Q. destruct (i_kind f) eqn:K; [discriminate|]. apply nth_error_In in Ef.
    destruct (H f Ef ltac:(rewrite K; discriminate)) as [A B]. cbn in We. rewrite A, B in We. discriminate.
  - rewrite E in Q. cbn [ge_kind] in Q. destruct (b_bc b); discriminate.
Qed.
Lemma levee_ub : forall m g q wet f, In f (m_intfaces m) -> i_kind f <> Internal -> wet (i_in f) = true \/ wet (i_ex f) = true -> dc_blocks m g q wet = UB.
Proof.
  intros m g q wet f Hf K W. destruct (In_nth_error _ _ Hf) as [k Ek].
  assert (L : (k < length (m_intfaces m))%nat) by (apply nth_error_Some; rewrite Ek; discriminate).
  destruct (nth_error (gedges m) k) as [ed|] eqn:E; [|apply nth_error_None in E; rewrite gedges_length in E; unfold n_edges in E; lia].
  apply (dc_blocks_levee m g q wet (k, ed)); [apply numbered_nth; exact E| |]; cbn [snd];
    (destruct (edge_cases m k ed E) as [(f' & Ef & ->)|(b & Ef & _)]; [rewrite Ek in Ef; injection Ef as <-|rewrite Ek in Ef; discriminate]).
  - cbn. destruct W as [-> | ->]; [reflexivity|]. destruct (wet (i_in f)); reflexivity.
  - cbn [ge_kind]. destruct (i_kind f); [exfalso; apply K; reflexivity|reflexivity].
Qed.

(** Numbers of wet edges are always in range; so are all where every element is wet. *)
Lemma num_bound : forall m wet nb x, num_ok m wet nb -> In x (numbered_edges m) -> wet_edge wet (snd x) = true -> (n_edge nb (fst x) < n_count nb)%nat.
Proof.
  intros m wet nb x [_ H] Hx We. assert (I : In (n_edge nb (fst x)) (seq 0 (n_count nb))).
  { rewrite <- H. apply (in_map (fun x => n_edge nb (fst x))). apply filter_In. auto. }
  apply in_seq in I. lia.
Qed.
Lemma all_wet_edge : forall m wet x, faces_once m -> (forall e, (e < m_n m)%nat -> wet e = true) -> In x (numbered_edges m) -> wet_edge wet (snd x) = true.
Proof.
  intros m wet x HM W Hx. unfold wet_edge. apply numbered_nth in Hx. pose proof (side_range m (snd x)) as SR. pose proof (nth_error_In _ _ Hx) as Hi.
  destruct (edge_cases m _ _ Hx) as [(f & _ & E)|(b & _ & _ & E)]; rewrite E in *; cbn [ge_sides existsb]; rewrite W; try reflexivity; apply (SR _ HM Hi); left; reflexivity.
Qed.

Section Stage.
  Context (m : mesh) (c : config) (disp : nat -> bool) (troubled : nat -> bool).
  Context (HM : faces_once m) (HT : forall e, (e < m_n m)%nat -> good m e) (HP : (m_p m <= 298)%nat).
  Context (inverse : nat -> (nat -> nat -> R) -> nat -> nat -> R) (solve_dense : nat -> (nat -> nat -> R) -> (nat -> R) -> nat -> R)
          (solve_sparse : nat -> (nat -> nat -> R) -> (nat -> R) -> nat -> R).
  Context (OI : inverse_ok inverse) (OD : solver_ok solve_dense) (OS : solver_ok solve_sparse).
  Notation B := (fun e gp => bath (m_aux m e gp)).
  Notation Bf := (fun e b gp => bath (m_faux m e b gp)).

  Definition active (wet : nat -> bool) (e : nat) : bool := wet e && disp e && negb (troubled e).
  Lemma load_eq : forall q wet w1 e, correction_rhs m c disp troubled q wet w1 e = gn_load m (c_g c) alpha (active wet) q (model_slopes m q) w1 e.
  Proof.
    intros q wet w1 e. extensionality v. extensionality i. unfold correction_rhs, gn_load, active. destruct (wet e && disp e && negb (troubled e)); [|reflexivity].
    destruct v as [|a]; [reflexivity|]. rewrite phi_int. unfold gn_rate. apply vol_int_eq2. intros gp z ->.
    rewrite at_gp_val, h_depth, sexp_val. reflexivity.
  Qed.

  Theorem gn_stage : forall st nb stp, let k := st_stage stp in let q := fun e => ms_q st e k in let wet := ms_wet st in
    let nb' := renumber m (c_wd c) wet nb in
    (k < st_nstages stp)%nat -> no_wet_levee m wet -> (c_wd c = false -> nb = first_numbering m /\ forall e, (e < m_n m)%nat -> wet e = true) ->
    (forall x, (x < n_edges m)%nat -> (n_edge nb' x < n_count nb')%nat) ->
    exists D, slopes_of m q B Bf D /\
    (solvable m alpha tau wet (depth m q B) (bed m D) (mean m (fdepth m q Bf)) (fbed m D) ->
     exists st' w1 w2 wh, correction_stage m c disp inverse solve_dense solve_sparse troubled ((st, nb), stp) = Ok ((st', nb'), stepper_incr stp) /\
       gn_system m alpha tau wet (depth m q B) (bed m D) (mean m (fdepth m q Bf)) (fbed m D) (gn_source m q B (c_g c) alpha D) w1 w2 wh /\
       gn_advance m c (st_dt stp) (st_nstages stp) k (gn_load m (c_g c) alpha (fun e => wet e && disp e && negb (troubled e)) q D w1) st st' /\
       forall w1' w2' wh', gn_system m alpha tau wet (depth m q B) (bed m D) (mean m (fdepth m q Bf)) (fbed m D) (gn_source m q B (c_g c) alpha D) w1' w2' wh' ->
       forall e a i, (e < m_n m)%nat -> wet e = true -> (a < 2)%nat -> (i < dubiner_ndof (m_p m))%nat -> w1 e a i = w1' e a i).
  Proof.
    intros st nb stp k q wet nb' Hk HL HW HS. exists (model_slopes m q). split; [exact (model_slopes_of m HM HT q HP)|]. intros SV.
    assert (HN : num_ok m wet nb').
    { apply renumber_ok; [exact HM|]. intros W. destruct (HW W) as [-> A]. split; [apply first_num_ok; exact HM|exact A]. }
    assert (KO : forall x, In x (numbered_edges m) -> kernels_ok wet x) by (intros x Hx; exact (levee_kernels m wet x HL Hx)).
    destruct (dc_blocks_ok m (c_g c) q wet HM KO) as (d & Ed & HB).
    change (fun e gp => bath (m_aux m e gp)) with (Bm m) in SV |- *. change (fun e b gp => bath (m_faux m e b gp)) with (Bfm m) in SV |- *.
    rewrite <- (f_h_eq m q), <- (f_hh_eq m HM q), <- (f_b_eq m q), <- (f_bh_eq m HM q) in SV |- *.
    assert (EK : f_K m (c_g c) q = gn_source m q (Bm m) (c_g c) alpha (model_slopes m q)) by (extensionality e; extensionality a; extensionality gp; apply f_K_eq).
    assert (HS' : forall x, In x (numbered_edges m) -> (n_edge nb' (fst x) < n_count nb')%nat).
    { intros x Hx. apply HS. apply numbered_nth in Hx. rewrite <- gedges_length. apply nth_error_Some. rewrite Hx. discriminate. }
    destruct (stage_solves m (c_g c) q wet nb' d HM HN HT HB KO inverse solve_dense solve_sparse OI OD OS SV HS') as (w1 & w2 & wh & Es & SY & UQ).
    destruct (stage_ok_form m c disp inverse solve_dense solve_sparse troubled st nb stp d w1 Ed Es) as [st' E].
    exists st', w1, w2, wh. split; [exact E|]. rewrite <- EK. split; [exact SY|]. split; [|exact UQ].
    destruct (stage_inv m c disp inverse solve_dense solve_sparse troubled st nb stp st' nb' (stepper_incr stp) Hk E) as (d2 & w2' & Ed2 & _ & Es2 & _ & W & A).
    fold k q wet in Ed2, Es2, A. change (fun e => ms_q st e k) with q in Ed2, A. rewrite Ed in Ed2. injection Ed2 as <-. rewrite Es in Es2. injection Es2 as <-.
    split; [exact W|]. intros e He. destruct (A e He) as (A1 & A2 & A3). split; [|split; [exact A2|split; [|exact A3]]].
    - rewrite A1, Nat.eqb_refl, load_eq. apply mass_solve; [exact HP|]. apply jdet_ok. exact (HT e He).
    - intros j D. rewrite A1. destruct (Nat.eqb_spec j k); [congruence|reflexivity].
  Qed.
End Stage.

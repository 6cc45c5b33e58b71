(** Property theorems: the distributed implicit HDG solver computes what the serial one
    does (C66). *)
From Coq Require Import Reals ZArith List Bool Arith Lra Lia Permutation.
From Verif Require Import Num ModelSWE Outcome ModelShape ModelBasis ModelJac ModelStep ModelIHDG SpecComm
  SpecSWE SpecShape SpecStepper SpecStep SpecIHDG SpecIHDG2
  LemmasSWE LemmasBasis LemmasBasis2 LemmasStep PropsBasis PropsStep LemmasPar6 LemmasIHDG4 LemmasIHDG6 LemmasIPar2 LemmasIPar4 LemmasIPar5 LemmasIPar6 LemmasIPar7 LemmasIPar8 LemmasIPar9
  ModelIPar SpecIPar.
Import ListNotations.
Open Scope R_scope.

(** The trace basis of one side of a cut runs with its element and that of the other
    against it; with equal identifiers the flag is read uninitialised. *)
Theorem C66_flags : forall here there ed e b e' b', here <> there -> exists o,
  create_edge_distributed here there ed e b = Ok (DEdge ed e b o) /\ create_edge_distributed there here ed e' b' = Ok (DEdge ed e' b' (negb o)).
Proof. exact flags. Qed.
Print Assumptions C66_flags.
Theorem C66_flags_lower : forall here there ed e b, (fst here < fst there \/ fst here = fst there /\ snd here < snd there)%nat ->
  create_edge_distributed here there ed e b = Ok (DEdge ed e b true) /\ create_edge_distributed there here ed e b = Ok (DEdge ed e b false).
Proof. exact flags_lower. Qed.
Print Assumptions C66_flags_lower.
Theorem C66_flags_same : forall here ed e b, create_edge_distributed here here ed e b = UB.
Proof. exact flags_same. Qed.
Print Assumptions C66_flags_same.

(** After the exchange the units hold the trace bathymetry and the initial traces of the
    serial preprocessor, with odd trace coefficients negated where the basis of the cut
    runs against the inner element. *)
Theorem C66_start : forall m us cuts own, divides m us cuts own -> conforming m -> symmetric_weights m -> symmetric_points m -> (forall ed, In ed cuts -> fits m ed) ->
  forall q qs, elts_shared m us q qs -> forall eaux qh eauxs qhs, started m us cuts q qs eaux qh eauxs qhs ->
  baths_shared m us eaux eauxs /\ traces_shared m us own qh qhs.
Proof. exact started_shared. Qed.
Print Assumptions C66_start.
(** The unit that does not number a cut gets the first number from the one that does. *)
Theorem C66_first_index : forall m q first d w, carries w (init_message m q first d) (1 + 4 * length (m_rule1 m))%nat -> de_ccw d = true -> first_received w = first.
Proof. exact w_first. Qed.
Print Assumptions C66_first_index.

(** Increments solve the serial linear system of a pass if and only if the unit's parts of
    them solve the distributed one. *)
Theorem C66_system : forall m us cuts own, divides m us cuts own -> conforming m -> symmetric_weights m -> symmetric_points m -> (forall ed, In ed cuts -> fits m ed) ->
  forall eaux eauxs, baths_shared m us eaux eauxs -> forall g dt theta t q qh qs qhs, elts_shared m us q qs -> traces_shared m us own qh qhs ->
  forall qp rp qps rps, elts_shared m us qp qps -> elts_shared m us rp rps ->
  forall s0 s0s dq dqh dqs dqhs, elts_shared m us dq dqs -> traces_shared m us own dqh dqhs ->
  solves m (newton_system m eaux g dt theta t qp rp q qh s0) dq dqh <->
  solves_par m us (fun u => unit_system m (eauxs u) g dt theta (the_unit us u) t (qps u) (rps u) (qs u) (qhs u) (s0s u)) dqs dqhs.
Proof. exact solves_same. Qed.
Print Assumptions C66_system.

(** Right-hand side of the previous time level for second order. *)
Theorem C66_rhs_prev : forall m us cuts own, divides m us cuts own -> conforming m -> symmetric_points m -> (forall ed, In ed cuts -> fits m ed) ->
  forall eaux eauxs, baths_shared m us eaux eauxs -> forall g t q qh qs qhs, elts_shared m us q qs -> traces_shared m us own qh qhs ->
  forall u, (u < length us)%nat -> forall order2 e a i, In e (un_elts (the_unit us u)) -> (a < 3)%nat -> (i < ndof m)%nat ->
  unit_rhs_prev m (eauxs u) g (the_unit us u) order2 t (qs u) (qhs u) e a i = init_rhs_prev m eaux g order2 t q qh e a i.
Proof. exact same_rhs_prev. Qed.
Print Assumptions C66_rhs_prev.

(** Any number of passes: every serial iteration has a distributed one that holds the same
    states and traces, and the other way round. *)
Theorem C66_passes_split : forall m us cuts own, divides m us cuts own -> conforming m -> symmetric_weights m -> symmetric_points m -> (forall ed, In ed cuts -> fits m ed) ->
  forall eaux eauxs, baths_shared m us eaux eauxs -> forall g dt theta t qp rp qps rps, elts_shared m us qp qps -> elts_shared m us rp rps ->
  forall q0 qh0 q0s qh0s, elts_shared m us q0 q0s -> traces_shared m us own qh0 qh0s ->
  forall k q qh, passes m eaux g dt theta t qp rp q0 qh0 k q qh ->
  exists qs qhs, passes_par m us eauxs g dt theta t qps rps q0s qh0s k qs qhs /\ elts_shared m us q qs /\ traces_shared m us own qh qhs.
Proof. exact passes_split. Qed.
Print Assumptions C66_passes_split.
Theorem C66_passes_join : forall m us cuts own, divides m us cuts own -> conforming m -> symmetric_weights m -> symmetric_points m -> (forall ed, In ed cuts -> fits m ed) ->
  forall eaux eauxs, baths_shared m us eaux eauxs -> forall g dt theta t qp rp qps rps, elts_shared m us qp qps -> elts_shared m us rp rps ->
  forall q0 qh0 q0s qh0s, elts_shared m us q0 q0s -> traces_shared m us own qh0 qh0s ->
  forall k qs qhs, passes_par m us eauxs g dt theta t qps rps q0s qh0s k qs qhs ->
  exists q qh, passes m eaux g dt theta t qp rp q0 qh0 k q qh /\ elts_shared m us q qs /\ traces_shared m us own qh qhs.
Proof. exact passes_join. Qed.
Print Assumptions C66_passes_join.

(** ** Two triangles of a square, order 1, on two units numbered either way *)
Definition two : mesh := pair_mesh sq_nodes 1 Internal.
Definition two_units (o : bool) : list iunit :=
  [IUnit [0%nat] [] [1; 2]%nat [DEdge 0 0 0 o]; IUnit [1%nat] [] [3; 4]%nat [DEdge 0 1 0 (negb o)]].
Example two_ok : forall o, divides two (two_units o) [0%nat] (fun _ => o) /\ conforming two /\ symmetric_weights two /\ symmetric_points two /\ fits two 0.
Proof.
  intros o. split; [|split; [|split; [|split]]].
  - constructor; cbn [flat_map two_units un_elts un_ints un_bnds un_dist app two pair_mesh m_n m_intfaces m_bounds length seq halves nth i_in i_ex i_bin i_bex]; try apply Permutation_refl.
    + intros un ed ef [<-|[<-|[]]]; cbn [un_ints un_bnds app un_elts]; intros [<-|[<-|[]]]; unfold sides; cbn; intros [<-|[]]; left; reflexivity.
    + intros un d [<-|[<-|[]]]; cbn [un_dist un_elts]; intros [<-|[]]; left; reflexivity.
    + intros un ed [<-|[<-|[]]] [<-|[]]; cbn; intuition congruence.
  - split; [cbn; repeat constructor; cbn; intuition congruence|]. cbn. repeat constructor. cbn. discriminate.
  - intros gp H. cbn in H. unfold w1. destruct gp as [|[|gp]]; [reflexivity|reflexivity|lia].
  - intros gp H. cbn in H. destruct gp as [|[|gp]]; cbn; try lra. lia.
  - split; [exact (sq_opposite 1 Internal)|]. unfold half_side, dist, vdot, SpecShape.vsub. cbn. f_equal. f_equal. ring.
Qed.
Lemma leg1 : forall x, legendre_phi 1 x = x.
Proof. intros x. apply legendre_example. Qed.
(** The flags make the halves agree: Gauss point 0 of element 0 is Gauss point 1 of
    element 1.  With equal flags the linear basis function has opposite values there. *)
Example C66_ex_basis : forall o, lam two (DEdge 0 0 0 o) 1 0 = lam two (DEdge 0 1 0 (negb o)) 1 1 /\ lam two (DEdge 0 0 0 o) 1 0 <> lam two (DEdge 0 1 0 o) 1 1.
Proof.
  assert (P : 0 < sqrt (1 / 3)) by (apply sqrt_lt_R0; lra).
  intros [|]; unfold lam, basis_gp; cbn [de_ccw negb]; rewrite !leg1; unfold mirror, ngp1, z1; cbn; split; lra.
Qed.
(** Water 3 high on the left and 1 high on the right: both units start from the
    trace 2, and their linear coefficients agree. *)
Definition two_q : nat -> coeffs := fun e v i => match v, i with 0%nat, 0%nat => if Nat.eqb e 0 then 3 else 1 | 1%nat, 1%nat => 1 | _, _ => 0 end.
Lemma two_trace : int_trace two two_q 0 0%nat 0%nat = 2.
Proof.
  unfold int_trace. cbv zeta. rewrite vmsum_rsum. change (nedof two) with 2%nat. cbn [rsum]. unfold legendre_minv. cbn [Nat.eqb].
  assert (U : forall e b gp, ze (u_face two two_q e b gp) = if Nat.eqb e 0 then 3 else 1).
  { intros e b gp. unfold u_face, expand. change (ndof two) with 3%nat. cbn [ze]. rewrite vmsum_rsum. cbn [rsum two_q]. rewrite phi0. ring. }
  unfold edge_lambda. rewrite !vmsum_rsum. change (ngp1 two) with 2%nat. cbn [rsum]. unfold lambda_fact, w1. cbn [vget vscale vadd ze]. rewrite !U. unfold vscale, vadd. cbn [ze vget].
  rewrite half_side_J. change (m_nodes two (i_in (the_int two 0))) with (sq_nodes 0). change (i_bin (the_int two 0)) with 0%nat. rewrite sq_half by lia.
  rewrite !LemmasIHDG9.leg_0, !uint_small by lia. cbn.
  field. apply sqrt2_neq_0.
Qed.
Example C66_ex_start : forall o w w', carries w (init_message two two_q 0 (DEdge 0 1 0 (negb o))) 9 -> carries w' (init_message two two_q 0 (DEdge 0 0 0 o)) 9 ->
  init_trace two two_q w (DEdge 0 0 0 o) 0%nat 0%nat = 2 /\ init_trace two two_q w' (DEdge 0 1 0 (negb o)) 0%nat 0%nat = 2 /\
  init_trace two two_q w (DEdge 0 0 0 o) 1%nat 1%nat = init_trace two two_q w' (DEdge 0 1 0 (negb o)) 1%nat 1%nat.
Proof.
  intros o w w' W W'. destruct (two_ok o) as (_ & _ & A & B & C).
  destruct (start_in two (fun _ => o) 0 B two_q two_q two_q (fun _ _ _ _ => eq_refl) (fun _ _ _ _ => eq_refl) w 0 W) as (_ & S).
  destruct (start_ex two (fun _ => o) 0 A B C two_q two_q two_q (fun _ _ _ _ => eq_refl) (fun _ _ _ _ => eq_refl) w' 0 W') as (_ & S').
  change (DEdge 0 0 0 o) with (DEdge 0 (i_in (the_int two 0)) (i_bin (the_int two 0)) ((fun _ : nat => o) 0%nat)). change (DEdge 0 1 0 (negb o)) with (DEdge 0 (i_ex (the_int two 0)) (i_bex (the_int two 0)) (negb ((fun _ : nat => o) 0%nat))).
  rewrite !S, !S', two_trace by lia. unfold flip. destruct o; repeat split; cbn; ring.
Qed.

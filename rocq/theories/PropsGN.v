(** Property theorems: dispersive correction of Green-Naghdi (C58). *)
From Coq Require Import QArith Reals List Bool Arith Lra Lia.
From Coquelicot Require Import Hierarchy Derive AutoDerive.
From Verif Require Import Num Outcome ModelSWE ModelShape ModelBasis ModelStepper ModelStep ModelInit ModelCond SpecShape SpecBasis SpecStepper SpecStep SpecStage SpecCond LemmasStep
  ModelGN SpecGN LemmasGN4 LemmasGN8 LemmasGN9 LemmasGN10 LemmasGN11 LemmasGN12 LemmasGN15 LemmasGN16 LemmasGN17 LemmasGN18 LemmasRest5 PropsCond SpecRest.
Import ListNotations.
Open Scope R_scope.

(** ** Derivatives by projection *)

(** The coefficients computed for the slope of a field solve the weak equation. *)
Theorem C58_project : forall m v vf a, faces_once m -> (forall e, (e < m_n m)%nat -> orient (m_nodes m e 0%nat) (m_nodes m e 1%nat) (m_nodes m e 2%nat) <> 0) -> (m_p m <= 298)%nat -> (a < 2)%nat ->
  is_derivative m v vf a (project m v vf a).
Proof. exact (fun m v vf a HM HT HP Ha => project_derivative m HM HT v vf a HP Ha). Qed.
Print Assumptions C58_project.

(** They are the exact slope of a continuous field that is a polynomial of degree p + 1
    in each element. *)
Theorem C58_project_exact : forall i P D v vf a c, conforming i -> piecewise (init_mesh i) (S (in_p i)) P D v vf -> one_valued (init_mesh i) vf -> (a < 2)%nat ->
  (forall e gp, (e < in_n i)%nat -> (gp < ngp2 (init_mesh i))%nat -> grad (init_mesh i) a e (D e (z2 (init_mesh i) gp)) = val (init_mesh i) (c e) (z2 (init_mesh i) gp)) ->
  forall e j, (e < in_n i)%nat -> (j < ndof (init_mesh i))%nat -> project (init_mesh i) v vf a e j = c e j.
Proof. exact (fun i P D v vf a c C => project_exact i C P D v vf a c). Qed.
Print Assumptions C58_project_exact.

(** The slope of x^2 over the two triangles of the unit square, degree 1. *)
Example C58_square_slope :
  let X := fun (e : nat) (z : point) => match e with 0%nat => (1 + fst z) / 2 | _ => (1 - fst z) / 2 end in
  let m := init_mesh (basin 0) in
  let v := fun e gp => X e (z2 m gp) ^ 2 in let vf := fun e b gp => X e (at_face b (pos m gp)) ^ 2 in
  project m v vf 0 0%nat 0%nat = 2 / 3 /\ project m v vf 0 0%nat 1%nat = - (1 / 3) /\ project m v vf 0 1%nat 2%nat = - 1.
Proof.
  intros X m v vf. destruct (basin_ok 0) as (C & _).
  set (c := fun e j : nat => match e, j with 0%nat, 0%nat => 2 / 3 | 0%nat, 1%nat => - (1 / 3) | 0%nat, _ => 1 | _, 0%nat => 4 / 3 | _, 1%nat => 1 / 3 | _, _ => - 1 end).
  set (D := fun (e : nat) (z : point) => match e with 0%nat => ((1 + fst z) / 2, 0) | _ => (- ((1 - fst z) / 2), 0) end).
  assert (E : forall e j, (e < 2)%nat -> (j < 3)%nat -> project m v vf 0 e j = c e j).
  { apply (C58_project_exact (basin 0) (fun e z => X e z ^ 2) D v vf 0 c C).
    - intros e He. repeat apply conj; [| |reflexivity|reflexivity].
      + assert (P1 : poly_deg 1 (fun x _ => X e (x, 0))).
        { destruct e as [|e]; cbn; unfold Rdiv, Rminus; apply (pd_mul 1 0); try apply pd_const; apply pd_add; try apply pd_x.
          - apply pd_le with (d := 0%nat); [lia|apply pd_const].
          - apply pd_le with (d := 0%nat); [lia|apply pd_const].
          - apply (pd_ext 1 (fun x _ => -1 * x)); [intros; ring|apply LemmasBasis3.pd_scal, pd_x]. }
        destruct e as [|e]; exact (LemmasBasis3.pd_pow _ P1 2).
      + intros x y. destruct e as [|e]; cbn; (split; [auto_derive; [exact I|field]|auto_derive; [exact I|ring]]).
    - intros k s t gp Hk Hs Ht Hg. unfold vf. destruct k as [|k].
      + destruct Hs as [<-|[<-|[]]], Ht as [<-|[<-|[]]]; cbn; try reflexivity; cbn in Hg; destruct gp as [|[|gp]]; try lia; cbn; field.
      + destruct k as [|[|[|[|k]]]]; [| | | |cbn in Hk; lia]; destruct Hs as [<-|[]], Ht as [<-|[]]; reflexivity.
    - lia.
    - intros e gp He Hg. assert (OK : LemmasBasis4.ok_point (z2 m gp)) by (left; destruct gp as [|[|[|gp]]]; [| | |cbn in Hg; lia]; cbn; lra).
      destruct (LemmasBasis4.first_three _ OK) as (F0 & F1 & F2). unfold val. change (dubiner_ndof (m_p (init_mesh (basin 0)))) with 3%nat. cbn [rsum].
      change (z2 (init_mesh (basin 0)) gp) with (z2 m gp). rewrite F0, F1, F2. generalize (z2 m gp). intros z. clear.
      destruct e as [|e]; cbn; unfold grad_x, orient; cbn; field. }
  repeat apply conj; rewrite E by lia; reflexivity.
Qed.

(** ** The source term *)

(** The expression the kernel evaluates is the slope of 2/3 h^3 c1 + 1/2 h^2 c4, plus
    (h^2 c1 + h c4) times the slope of the bed, plus g/alpha h times the slope of the
    surface, provided the slope of the depth enters as it is. *)
Theorem C58_source_slope : forall g al (h : R -> R) ha b (b2 : nat -> nat -> R -> R) b3 z (u : nat -> R -> R) (u1 : nat -> nat -> R -> R) u2 a s,
  is_derive h s (ha a) -> (forall i, (i < 2)%nat -> is_derive (u i) s (u1 i a s)) ->
  (forall i c, (i < 2)%nat -> (c < 2)%nat -> is_derive (u1 i c) s (u2 i c a)) -> (forall c d, (c < 2)%nat -> (d < 2)%nat -> is_derive (b2 c d) s (b3 c d a)) ->
  exists X, is_derive (fun t => 2 / 3 * h t ^ 3 * c1_of (fun i c => u1 i c t) + 1 / 2 * h t ^ 2 * c4_of (fun i => u i t) (fun c d => b2 c d t)) s X /\
  disp_source g al (h s) ha b (fun c d => b2 c d s) b3 z (fun i => u i s) (fun i c => u1 i c s) u2 a =
    X + (h s ^ 2 * c1_of (fun i c => u1 i c s) + h s * c4_of (fun i => u i s) (fun c d => b2 c d s)) * b a + g / al * h s * z a.
Proof. exact source_slope. Qed.
Print Assumptions C58_source_slope.
(** The depth is surface minus bed.  The kernel takes the sum of their slopes, and is off by
    2 h (2 h c1 + c4) times the slope of the bed. *)
Theorem C58_source : forall g h b b2 b3 z u u1 u2 a,
  source_point g h b b2 b3 z u u1 u2 a =
  disp_source g alpha h (fun c => z c - b c) b b2 b3 z u u1 u2 a + 2 * h * (2 * h * c1_of u1 + c4_of u b2) * b a.
Proof. intros. rewrite source_model. apply source_error. Qed.
Print Assumptions C58_source.
Theorem C58_source_refuted : exists g h b b2 b3 z u u1 u2,
  source_point g h b b2 b3 z u u1 u2 0%nat <> disp_source g alpha h (fun c => z c - b c) b b2 b3 z u u1 u2 0%nat.
Proof.
  exists 10, 1, (fun a => match a with 0%nat => 1 / 10 | _ => 0 end), (fun _ _ => 0), (fun _ _ _ => 0), (fun _ => 0), (fun _ => 0),
    (fun i a => match i, a with 0%nat, 0%nat => 1 | _, _ => 0 end), (fun _ _ _ => 0).
  rewrite C58_source. unfold c1_of, c4_of. lra.
Qed.
Print Assumptions C58_source_refuted.
Example C58_source_level : source_point 10 1 (fun _ => 0) (fun _ _ => 0) (fun _ _ _ => 0) (fun _ => 1) (fun _ => 0) (fun _ _ => 0) (fun _ _ _ => 0) 0%nat = 10 / alpha.
Proof. rewrite C58_source. unfold disp_source, c1_of, c4_of, c1_slope, c4_slope. field. unfold alpha. lra. Qed.

(** ** A correction stage *)

(** Where the discrete problem has one solution, a stage without wet levees whose edge numbers
    are in range finds it, and adds its rate to the momentum of the elements it is active in. *)
Theorem C58_stage : forall m c disp troubled inverse solve_dense solve_sparse st nb stp,
  faces_once m -> (forall e, (e < m_n m)%nat -> orient (m_nodes m e 0%nat) (m_nodes m e 1%nat) (m_nodes m e 2%nat) <> 0) -> (m_p m <= 298)%nat ->
  inverse_ok inverse -> solver_ok solve_dense -> solver_ok solve_sparse ->
  let k := st_stage stp in let q := fun e => ms_q st e k in let wet := ms_wet st in let nb' := renumber m (c_wd c) wet nb in
  let B := fun e gp => bath (m_aux m e gp) in let Bf := fun e b gp => bath (m_faux m e b gp) in
  (k < st_nstages stp)%nat -> no_wet_levee m wet -> (c_wd c = false -> nb = first_numbering m /\ forall e, (e < m_n m)%nat -> wet e = true) ->
  (forall x, (x < n_edges m)%nat -> (n_edge nb' x < n_count nb')%nat) ->
  exists D, slopes_of m q B Bf D /\
  (solvable m alpha tau wet (depth m q B) (bed m D) (mean m (fdepth m q Bf)) (fbed m D) ->
   exists st' w1 w2 wh, correction_stage m c disp inverse solve_dense solve_sparse troubled ((st, nb), stp) = Ok ((st', nb'), stepper_incr stp) /\
     gn_system m alpha tau wet (depth m q B) (bed m D) (mean m (fdepth m q Bf)) (fbed m D) (gn_source m q B (c_g c) alpha D) w1 w2 wh /\
     gn_advance m c (st_dt stp) (st_nstages stp) k (gn_load m (c_g c) alpha (fun e => wet e && disp e && negb (troubled e)) q D w1) st st' /\
     forall w1' w2' wh', gn_system m alpha tau wet (depth m q B) (bed m D) (mean m (fdepth m q Bf)) (fbed m D) (gn_source m q B (c_g c) alpha D) w1' w2' wh' ->
     forall e a i, (e < m_n m)%nat -> wet e = true -> (a < 2)%nat -> (i < dubiner_ndof (m_p m))%nat -> w1 e a i = w1' e a i).
Proof.
  intros m c disp troubled inverse solve_dense solve_sparse st nb stp HM HT HP OI OD OS.
  exact (gn_stage m c disp troubled HM HT HP inverse solve_dense solve_sparse OI OD OS st nb stp).
Qed.
Print Assumptions C58_stage.

(** Over a level bed with a level surface it has, whatever the flow and whatever is wet. *)
Theorem C58_level_solvable : forall i x zb q wet D, conforming i -> in_sph i = None -> (forall e v, (e < in_n i)%nat -> (v < 3)%nat -> in_z i e v = zb) ->
  0 < x + zb -> good_weights (in_rule1 i) ->
  let m := init_mesh i in let B := fun e gp => bath (m_aux m e gp) in let Bf := fun e b gp => bath (m_faux m e b gp) in
  (forall e d, (e < in_n i)%nat -> (d < ndof m)%nat -> q e 0%nat d = if Nat.eqb d 0 then x else 0) -> slopes_of m q B Bf D ->
  solvable m alpha tau wet (depth m q B) (bed m D) (mean m (fdepth m q Bf)) (fbed m D).
Proof. exact (fun i x zb q wet D C P HZ HD GW => level_water_solvable i C P x zb HZ HD GW q wet D). Qed.
Print Assumptions C58_level_solvable.
Theorem C58_level_stage : forall i x zb c disp troubled inverse solve_dense solve_sparse st nb stp,
  conforming i -> in_sph i = None -> (forall e v, (e < in_n i)%nat -> (v < 3)%nat -> in_z i e v = zb) -> 0 < x + zb -> good_weights (in_rule1 i) ->
  inverse_ok inverse -> solver_ok solve_dense -> solver_ok solve_sparse -> (forall f, In f (in_intfaces i) -> i_kind f = Internal) ->
  let m := init_mesh i in let k := st_stage stp in let q := fun e => ms_q st e k in
  let B := fun e gp => bath (m_aux m e gp) in let Bf := fun e b gp => bath (m_faux m e b gp) in
  (k < st_nstages stp)%nat -> (c_wd c = false -> nb = first_numbering m) -> (forall e, (e < in_n i)%nat -> ms_wet st e = true) ->
  (forall e d, (e < in_n i)%nat -> (d < ndof m)%nat -> q e 0%nat d = if Nat.eqb d 0 then x else 0) ->
  exists D st' nb' w1 w2 wh, slopes_of m q B Bf D /\
    correction_stage m c disp inverse solve_dense solve_sparse troubled ((st, nb), stp) = Ok ((st', nb'), stepper_incr stp) /\
    gn_system m alpha tau (ms_wet st) (depth m q B) (bed m D) (mean m (fdepth m q Bf)) (fbed m D) (gn_source m q B (c_g c) alpha D) w1 w2 wh /\
    gn_advance m c (st_dt stp) (st_nstages stp) k (gn_load m (c_g c) alpha (fun e => disp e && negb (troubled e)) q D w1) st st'.
Proof.
  intros i x zb c disp troubled inverse solve_dense solve_sparse st nb stp C P HZ HD GW OI OD OS NL.
  exact (level_stage i C P x zb HZ HD GW c disp troubled inverse solve_dense solve_sparse OI OD OS NL st nb stp).
Qed.
Print Assumptions C58_level_stage.

(** ** What it leaves alone *)

(** A whole correction changes neither elevation nor wetness, nor anything in an element that
    is dry, troubled or excluded. *)
Theorem C58_kept : forall m c disp inverse solve_dense solve_sparse troubled n st nb stp st' nb' stp', (0 < n)%nat ->
  (forall k, (k < n)%nat -> rsum (S k) (fun s => Q2R (ModelStepper.entry (c_A c) k s)) = 1) -> st_nstages stp = n -> st_stage stp = 0%nat ->
  correction m c disp inverse solve_dense solve_sparse troubled ((st, nb), stp) = Ok ((st', nb'), stp') ->
  ms_wet st' = ms_wet st /\ st_stage stp' = 0%nat /\
  forall e v i, (e < m_n m)%nat -> v = 0%nat \/ ms_wet st e && disp e && negb (troubled e) = false -> ms_q st' e 0%nat v i = ms_q st e 0%nat v i.
Proof. exact (fun m c disp inverse solve_dense solve_sparse troubled n st nb stp st' nb' stp' Hn Row => correction_kept m c disp inverse solve_dense solve_sparse troubled n Hn Row st nb stp st' nb' stp'). Qed.
Print Assumptions C58_kept.

(** A lake at rest over any bed stays at rest through any number of split steps, where the
    discrete problem of the lake has one solution. *)
Theorem C58_run : forall i cfg disp troubled inverse solve_dense solve_sparse x n p N st nb s1 s2, conforming i -> unforced i x ->
  inverse_ok inverse -> solver_ok solve_dense -> solver_ok solve_sparse -> (forall f, In f (in_intfaces i) -> i_kind f = Internal) ->
  let m := init_mesh i in let B := fun e gp => bath (m_aux m e gp) in let Bf := fun e b gp => bath (m_faux m e b gp) in
  (forall q wet D, (forall e, (e < in_n i)%nat -> resting (in_p i) x (q e)) -> slopes_of m q B Bf D ->
     solvable m alpha tau wet (depth m q B) (bed m D) (mean m (fdepth m q Bf)) (fbed m D)) ->
  (c_wd cfg = true -> submerged i x (c_h_o cfg + c_thr cfg)) -> (c_wd cfg = false -> nb = first_numbering m) ->
  rk_table n p = Some (c_A cfg, c_B cfg) -> In (n, p) exact_schemes ->
  st_nstages s1 = n -> st_nstages s2 = n -> st_stage s1 = 0%nat -> st_stage s2 = 0%nat ->
  (forall e, (e < in_n i)%nat -> resting (in_p i) x (ms_q st e 0%nat) /\ ms_wet st e = true) ->
  exists st' nb' s1' s2', ofold (fun s _ => step_gn m cfg disp inverse solve_dense solve_sparse troubled s) (seq 0 N) ((st, nb), s1, s2) = Ok ((st', nb'), s1', s2') /\
  forall e, (e < in_n i)%nat -> resting (in_p i) x (ms_q st' e 0%nat) /\ ms_wet st' e = true.
Proof.
  intros i cfg disp troubled inverse solve_dense solve_sparse x n p N st nb s1 s2 C U OI OD OS NL m B Bf SV Sb HN E HI N1 N2 K1 K2 H.
  exact (run_gn_rest i C cfg disp troubled inverse solve_dense solve_sparse OI OD OS NL x U SV Sb n p E HI N 0 st nb s1 s2 N1 N2 K1 K2 H HN).
Qed.
Print Assumptions C58_run.

(** ** The clocks *)

(** Each split step advances the first stepper by two steps and the second by one. *)
Theorem C58_clocks : forall m c disp troubled inverse solve_dense solve_sparse N o g s1 s2 g' s1' s2', (0 < st_nstages s1)%nat -> (0 < st_nstages s2)%nat ->
  st_stage s1 = 0%nat -> st_stage s2 = 0%nat ->
  ofold (fun s _ => step_gn m c disp inverse solve_dense solve_sparse troubled s) (seq o N) (g, s1, s2) = Ok (g', s1', s2') ->
  st_stage s1' = 0%nat /\ st_step s1' = (st_step s1 + 2 * N)%nat /\ st_t s1' = st_t s1 + INR N * (2 * st_dt s1) /\
  st_stage s2' = 0%nat /\ st_step s2' = (st_step s2 + N)%nat /\ st_t s2' = st_t s2 + INR N * st_dt s2.
Proof. exact split_clocks. Qed.
Print Assumptions C58_clocks.
(** So both show the same time after every split step. *)
Theorem C58_clocks_agree : forall m c disp troubled inverse solve_dense solve_sparse N n p dt hr rd g g' s1' s2', (0 < n)%nat ->
  ofold (fun s _ => step_gn m c disp inverse solve_dense solve_sparse troubled s) (seq 0 N) (g, fst (strang_steppers n p dt hr rd), snd (strang_steppers n p dt hr rd)) = Ok (g', s1', s2') ->
  st_t s1' = INR N * dt /\ st_t s2' = INR N * dt.
Proof.
  intros m c disp troubled inverse solve_dense solve_sparse N n p dt hr rd g g' s1' s2' Hn H.
  destruct (C58_clocks m c disp troubled inverse solve_dense solve_sparse N 0 g (fst (strang_steppers n p dt hr rd)) (snd (strang_steppers n p dt hr rd)) g' s1' s2' Hn Hn eq_refl eq_refl H) as (_ & _ & E1 & _ & _ & E2). cbn in E1, E2. split; lra.
Qed.
Print Assumptions C58_clocks_agree.

(** ** Where it fails *)

(** A wet element at a levee: the kernel leaves the edge equations unset. *)
Theorem C58_levee : forall m c disp inverse solve_dense solve_sparse troubled st nb stp f, In f (m_intfaces m) -> i_kind f <> Internal ->
  ms_wet st (i_in f) = true \/ ms_wet st (i_ex f) = true ->
  correction_stage m c disp inverse solve_dense solve_sparse troubled ((st, nb), stp) = UB.
Proof. intros m c disp inverse solve_dense solve_sparse troubled st nb stp f Hf K W. unfold correction_stage. rewrite (levee_ub m (c_g c) _ (ms_wet st) f Hf K W). reflexivity. Qed.
Print Assumptions C58_levee.

(** Dry edges keep the number they had, which may be past the end of the solution. *)
Theorem C58_dry_edge : forall m c disp inverse solve_dense solve_sparse troubled st nb stp x, c_wd c = true -> In x (numbered_edges m) -> wet_edge (ms_wet st) (snd x) = false ->
  (length (filter (fun x => wet_edge (ms_wet st) (snd x)) (numbered_edges m)) <= n_edge nb (fst x))%nat ->
  correction_stage m c disp inverse solve_dense solve_sparse troubled ((st, nb), stp) = UB.
Proof. exact (fun m c disp inverse solve_dense solve_sparse troubled => stale_stage m c disp troubled inverse solve_dense solve_sparse). Qed.
Print Assumptions C58_dry_edge.
Theorem C58_dry_last : forall m c disp inverse solve_dense solve_sparse troubled st stp ed, faces_once m -> c_wd c = true ->
  nth_error (gedges m) (n_edges m - 1) = Some ed -> wet_edge (ms_wet st) ed = false ->
  correction_stage m c disp inverse solve_dense solve_sparse troubled ((st, first_numbering m), stp) = UB.
Proof. exact (fun m c disp inverse solve_dense solve_sparse troubled => stale_last m c disp troubled inverse solve_dense solve_sparse). Qed.
Print Assumptions C58_dry_last.
Theorem C58_dry_refuted : exists i, conforming i /\ unforced i 0 /\ forall c disp inverse solve_dense solve_sparse troubled st stp, c_wd c = true ->
  ms_wet st 0%nat = true -> ms_wet st 1%nat = false ->
  correction_stage (init_mesh i) c disp inverse solve_dense solve_sparse troubled ((st, first_numbering (init_mesh i)), stp) = UB.
Proof.
  exists (basin 0). destruct (basin_ok 0) as (C & U & _). split; [exact C|]. split; [exact U|]. intros c disp inverse solve_dense solve_sparse troubled st stp W _ D.
  apply (C58_dry_last _ _ _ _ _ _ _ _ _ (nth 4 (gedges (init_mesh (basin 0))) (GEdge KLand (0, 0)%nat []))); [exact (LemmasGN8.once (basin 0) C)|exact W|reflexivity|].
  cbn. rewrite D. reflexivity.
Qed.
Print Assumptions C58_dry_refuted.

(** A solver that leaves its factors in the matrix gives a wrong second solution. *)
Theorem C58_overwritten_refuted : exists A b, let '(A', x) := gesv2 A b in
  (forall i, (i < 2)%nat -> A i 0%nat * x 0%nat + A i 1%nat * x 1%nat = b i) /\
  let '(_, y) := gesv2 A' b in A 1%nat 0%nat * y 0%nat + A 1%nat 1%nat * y 1%nat <> b 1%nat.
Proof.
  exists (fun i j => match i, j with 0%nat, 0%nat => 2 | _, _ => 1 end), (fun i => match i with 0%nat => 0 | _ => 1 end). cbn. split.
  - intros i Hi. destruct i as [|[|i]]; [| |lia]; field.
  - intros E. field_simplify in E. lra.
Qed.
Print Assumptions C58_overwritten_refuted.

(** ** The basin *)
Definition basin_cfg : config := Config 1 [[1%Q]] [[1%Q]] true (1 / 10) (1 / 10) true.
Example C58_basin_run : forall N, exists inverse solve st st' nb' s1' s2', init_state (basin (1 / 2)) basin_cfg (fun _ _ _ _ => 7) = Ok st /\
  ofold (fun s _ => step_gn (init_mesh (basin (1 / 2))) basin_cfg (fun _ => true) inverse solve solve (fun _ => false) s) (seq 0 N)
    ((st, first_numbering (init_mesh (basin (1 / 2)))), fst (strang_steppers 1 1 (1 / 100) false 0), snd (strang_steppers 1 1 (1 / 100) false 0)) = Ok ((st', nb'), s1', s2') /\
  ms_q st' 1%nat 0%nat 0%nat 0%nat = 1 / 2 /\ ms_q st' 1%nat 0%nat 1%nat 0%nat = 0 /\ st_t s1' = INR N * (1 / 100).
Proof.
  intros N. destruct contracts_met as (inverse & solve & OI & OS). destruct (basin_ok (1 / 2)) as (C & U & GW).
  assert (Sb : c_wd basin_cfg = true -> submerged (basin (1 / 2)) (1 / 2) (c_h_o basin_cfg + c_thr basin_cfg)) by (intros _ e v He Hv; cbn; lra).
  destruct (initial_rest (basin (1 / 2)) basin_cfg (fun _ _ _ _ => 7) (1 / 2) C eq_refl Sb) as (st & A & H).
  destruct (C58_run (basin (1 / 2)) basin_cfg (fun _ => true) (fun _ => false) inverse solve solve (1 / 2) 1 1 N st (first_numbering (init_mesh (basin (1 / 2))))
    (fst (strang_steppers 1 1 (1 / 100) false 0)) (snd (strang_steppers 1 1 (1 / 100) false 0)) C U OI OS OS) as (st' & nb' & s1' & s2' & E & F); try reflexivity; try assumption.
  - intros f [<-|[]]. reflexivity.
  - exact (level_rest_solvable (basin (1 / 2)) C eq_refl (1 / 2) 2 (fun _ _ _ _ => eq_refl) ltac:(lra) GW).
  - cbn. tauto.
  - exists inverse, solve, st, st', nb', s1', s2'. split; [exact A|]. split; [exact E|]. destruct (F 1%nat ltac:(cbn; lia)) as [R1 _].
    split; [apply (R1 0%nat 0%nat); cbn; lia|]. split; [apply (R1 1%nat 0%nat); cbn; lia|].
    exact (proj1 (C58_clocks_agree _ _ _ _ _ _ _ N 1 1 (1 / 100) false 0 _ _ s1' s2' ltac:(lia) E)).
Qed.

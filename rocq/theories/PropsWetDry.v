(** Property theorems about wetting and drying: C07. *)
From Coq Require Import Reals Lra Lia Arith List.
From Verif Require Import Num Outcome ModelBasis ModelWetDry SpecWetDry LemmasBasis4 LemmasWetDry.
Open Scope R_scope.

(** The treatment always finishes; it keeps the mean elevation except that a mean
    depth below the threshold is raised to it. *)
Theorem C07_water : forall p H thr bath bath_min s,
  (1 <= p)%nat -> 0 <= thr -> 0 <= H -> (forall v, (v < 3)%nat -> bath_min <= bath v) ->
  exists s', wetting_drying_kernel p H thr bath bath_min s = Ok s' /\
  cell_mean (e_q s' 0%nat) = cell_mean (e_q s 0%nat) + Rmax 0 (thr - mean_depth bath s) /\
  (forall v, (v < 3)%nat -> Rmin H (Rmax thr (mean_depth bath s)) <= vertex_depth bath s' v) /\
  (e_wet s' = false -> (forall var dof, (1 <= var < 3)%nat -> e_q s' var dof = 0) /\ (forall var dof, e_rhs s' var dof = 0)) /\
  (e_wet s' = true -> (exists v, (v < 3)%nat /\ H < vertex_depth bath s' v) /\
     (forall var dof, e_rhs s' var dof = e_rhs s var dof)) /\
  (e_completely_dry s' = true <-> mean_depth bath s <= thr) /\
  (forall var, (1 <= var < 3)%nat -> cell_mean (e_q s' var) = cell_mean (e_q s var) \/ cell_mean (e_q s' var) = 0).
Proof. exact (fun p H thr bath bath_min s Hp Ht HH Hb => kernel_ok p H thr bath bath_min Hp Ht HH Hb s). Qed.
Print Assumptions C07_water.

(** A wet element with all vertices above the limit is left alone. *)
Theorem C07_wet_unchanged : forall p H thr bath bath_min s, (1 <= p)%nat ->
  (forall v, (v < 3)%nat -> H + thr < vertex_depth bath s v) -> e_wet s = true ->
  exists s', wetting_drying_kernel p H thr bath bath_min s = Ok s' /\ e_q s' = e_q s /\ e_rhs s' = e_rhs s /\ e_wet s' = true.
Proof. exact (fun p H thr bath bath_min s Hp => kernel_wet p H thr bath bath_min Hp s). Qed.
Print Assumptions C07_wet_unchanged.

(** With all vertices below the limit the depth becomes constant. *)
Theorem C07_all_dry : forall p H thr bath bath_min s, (1 <= p)%nat ->
  (forall v, (v < 3)%nat -> vertex_depth bath s v <= H + thr) ->
  exists s', wetting_drying_kernel p H thr bath bath_min s = Ok s' /\ e_wet s' = false /\
  (forall v, (v < 3)%nat -> vertex_depth bath s' v = Rmax thr (mean_depth bath s)) /\
  (forall var dof, (var < 3)%nat -> (3 <= dof)%nat -> e_q s' var dof = 0).
Proof. exact (fun p H thr bath bath_min s Hp => kernel_all_dry p H thr bath bath_min Hp s). Qed.
Print Assumptions C07_all_dry.

(** Partly dry, mean above the limit: the shallowest vertex gets depth H, the
    discharge leaves the dry vertices and its mean stays. *)
Theorem C07_partly_dry : forall p H thr bath bath_min s, (1 <= p)%nat -> 0 <= thr ->
  (exists v, (v < 3)%nat /\ vertex_depth bath s v <= H + thr) -> H + thr < mean_depth bath s ->
  exists s', wetting_drying_kernel p H thr bath bath_min s = Ok s' /\
  (exists v, (v < 3)%nat /\ vertex_depth bath s' v = H /\ forall w, (w < 3)%nat -> vertex_depth bath s v <= vertex_depth bath s w) /\
  (e_wet s' = true -> forall var, (1 <= var < 3)%nat -> cell_mean (e_q s' var) = cell_mean (e_q s var)) /\
  (forall var v, (1 <= var < 3)%nat -> (v < 3)%nat -> vertex_depth bath s' v <= H + thr -> vertex_value (e_q s' var) v = 0).
Proof. exact kernel_partly_dry. Qed.
Print Assumptions C07_partly_dry.

(** An element with a dry vertex keeps only its linear modes. *)
Theorem C07_linear_after : forall p H thr bath bath_min s s', (1 <= p)%nat ->
  (exists v, (v < 3)%nat /\ vertex_depth bath s v <= H + thr) ->
  wetting_drying_kernel p H thr bath bath_min s = Ok s' ->
  forall var dof, (var < 3)%nat -> (3 <= dof)%nat -> e_q s' var dof = 0.
Proof. exact (fun p H thr bath bath_min s s' Hp => kernel_linear p H thr bath bath_min Hp s s'). Qed.
Print Assumptions C07_linear_after.

(** The initial verdict and the lowest bathymetry value. *)
Theorem C07_initial : forall p H thr bath s, (1 <= p)%nat -> 0 <= thr ->
  exists s', init_wet_dry p H thr bath s = Ok s' /\
  (forall v, (v < 3)%nat -> H <= vertex_depth bath s' v) /\
  (e_wet s' = true <-> forall v, (v < 3)%nat -> H + thr < vertex_depth bath s v) /\
  (e_wet s' = true -> forall var dof, e_q s' var dof = e_q s var dof) /\
  (e_wet s' = false -> (forall var dof, (1 <= var < 3)%nat -> e_q s' var dof = 0) /\ (forall var dof, e_rhs s' var dof = 0) /\
     forall v, (v < 3)%nat -> vertex_depth bath s' v = if Rle_dec (vertex_depth bath s v) (H + thr) then H else vertex_depth bath s v).
Proof. exact init_ok. Qed.
Print Assumptions C07_initial.

Theorem C07_bath_min : forall bath, (exists v, (v < 3)%nat /\ init_bath_min bath = bath v) /\
  forall v, (v < 3)%nat -> init_bath_min bath <= bath v.
Proof. exact init_bath_min_ok. Qed.
Print Assumptions C07_bath_min.

(** "The cell average is unchanged" is false: at mean depth -1 the treatment adds
    one unit of water (plus the threshold). *)
Definition below_bed : elt_wd := EltWD (fun var dof => match var, dof with 0%nat, 0%nat => -2 | _, _ => 0 end) (fun _ _ => 0) true false.
Theorem C07_average_refuted : exists p H thr bath s s', (1 <= p)%nat /\ 0 <= thr /\ 0 < H /\ e_wet s = true /\
  wetting_drying_kernel p H thr bath (bath 0%nat) s = Ok s' /\ cell_mean (e_q s' 0%nat) = cell_mean (e_q s 0%nat) + 1 + thr.
Proof.
  destruct (C07_water 1 (1 / 100) (1 / 1000) (fun _ => 1) 1 below_bed) as [s' [E [M _]]]; [lia|lra|lra|intros; lra|].
  exists 1%nat, (1 / 100), (1 / 1000), (fun _ => 1), below_bed, s'.
  repeat split; [lia|lra|lra|exact E|]. rewrite M.
  assert (MD : mean_depth (fun _ => 1) below_bed = -1) by (unfold mean_depth, cell_mean, below_bed; cbn; field).
  rewrite MD. unfold Rmax. destruct (Rle_dec _ _); lra.
Qed.
Print Assumptions C07_average_refuted.

(** Water is also created at the start: dry vertices are lifted to depth H. *)
Theorem C07_initial_average_refuted : exists p H thr bath s s', (1 <= p)%nat /\ 0 <= thr /\ 0 < H /\ 0 < mean_depth bath s /\
  init_wet_dry p H thr bath s = Ok s' /\ cell_mean (e_q s 0%nat) < cell_mean (e_q s' 0%nat).
Proof.
  set (s := EltWD (fun _ _ => 0) (fun _ _ => 0) false false).
  assert (V : forall v, (v < 3)%nat -> vertex_depth (fun _ => 1 / 10) s v = 1 / 10).
  { intros v Hv. unfold vertex_depth, vertex_value, s. cbn [e_q]. lra. }
  destruct (C07_initial 1 1 0 (fun _ => 1 / 10) s) as [s' [E [D _]]]; [lia|lra|].
  exists 1%nat, 1, 0, (fun _ => 1 / 10), s, s'.
  split; [lia|]. split; [lra|]. split; [lra|].
  split; [unfold mean_depth, cell_mean, s; cbn; lra|]. split; [exact E|].
  pose proof (D 0%nat ltac:(lia)) as D0. pose proof (D 1%nat ltac:(lia)) as D1. pose proof (D 2%nat ltac:(lia)) as D2.
  unfold vertex_depth in *. rewrite vv in D0, D1, D2 by lia. pose proof (TB_mean (e_q s' 0%nat)). unfold cell_mean, s at 1. cbn [e_q]. lra.
Qed.
Print Assumptions C07_initial_average_refuted.

(** Piecewise constant elements: the projection to vertex values does not exist. *)
Theorem C07_order_zero_refuted : exists H thr bath bath_min s, wetting_drying_kernel 0 H thr bath bath_min s = UB.
Proof.
  exists 1, 0, (fun _ => 0), 0, (EltWD (fun _ _ => 1) (fun _ _ => 0) true false).
  unfold wetting_drying_kernel, to_linear. rewrite (proj1 (order0 _)). reflexivity.
Qed.
Print Assumptions C07_order_zero_refuted.

(** Depths -1, 1, 6 over a flat bed (mean 2) with limit 1/2 become 1/2, 1/2, 5. *)
Example redistribute_example : exists h', redistribute (1 / 2) (fun v => match v with 0%nat => -1 | 1%nat => 1 | _ => 6 end) = Ok h' /\
  h' 0%nat = 1 / 2 /\ h' 1%nat = 1 / 2 /\ h' 2%nat = 5.
Proof.
  unfold redistribute, argmin3, argmax3. repeat (rcase; try (exfalso; lra)). cbn. eexists. split; [reflexivity|].
  unfold ModelSWE.upd. cbn. unfold Rmax. destruct (Rle_dec _ _); repeat split; lra.
Qed.

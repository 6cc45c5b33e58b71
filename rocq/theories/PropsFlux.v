(** Property theorems: numerical fluxes (C01, C02, C03, C30, C31, C39). *)
From Coq Require Import ZArith QArith List Bool Arith Reals Lra Lia.
From Verif Require Import Num ModelSWE SpecSWE LemmasSWE LemmasHDG.
Import ListNotations.
Open Scope R_scope.

(** Depths are not required positive because the identities below do not
    depend on the value of the quotients; the C++ code needs nonzero depths
    for the quotients to be finite. *)

(** ** C01 *)
Theorem C01_interface_mass_conserved :
  forall g wet_in wet_ex ngp q_in q_ex a_in a_ex n_in n_ex F0,
  (forall j, (j < ngp)%nat -> unit2 (n_in j) /\ unit2 (n_ex j) /\ sp (a_in j) = 1 /\ sp (a_ex j) = 1) ->
  let F := internal_flux g wet_in wet_ex ngp q_in q_ex a_in a_ex n_in n_ex F0 in
  forall j, (j < ngp)%nat -> ze (fst F j) + ze (snd F (ngp - 1 - j)%nat) = 0.
Proof. exact internal_flux_mass. Qed.
Print Assumptions C01_interface_mass_conserved.

Theorem C01_interface_wet_all_cancel :
  forall g ngp q_in q_ex a_in a_ex n_in n_ex F0,
  let F := internal_flux g true true ngp q_in q_ex a_in a_ex n_in n_ex F0 in
  forall j, (j < ngp)%nat -> cancel (fst F j) (snd F (ngp - 1 - j)%nat) /\
     fst F j = LLF_flux g (q_in j) (q_ex (ngp - 1 - j)%nat) (a_in j) (n_in j).
Proof. exact internal_flux_wet. Qed.
Print Assumptions C01_interface_wet_all_cancel.

(** A dry element never loses water through an interface (beyond 1e-12). *)
Theorem C01_no_outflow_from_dry :
  forall g wet_other q_in q_ex a_in a_ex n_in n_ex,
  unit2 n_in -> unit2 n_ex -> sp a_in = 1 -> sp a_ex = 1 ->
  ze (fst (internal_point g false wet_other q_in q_ex a_in a_ex n_in n_ex)) <= 1 / 1000000000000 /\
  ze (snd (internal_point g wet_other false q_in q_ex a_in a_ex n_in n_ex)) <= 1 / 1000000000000.
Proof.
  exact (fun g w q_in q_ex a_in a_ex n_in n_ex U1 U2 S1 S2 =>
    conj (internal_point_dry_in g w q_in q_ex a_in a_ex n_in n_ex U1 S1)
         (internal_point_dry_ex g w q_in q_ex a_in a_ex n_in n_ex U2 S2)).
Qed.
Print Assumptions C01_no_outflow_from_dry.

(** Concrete instance: a 3-4-5 normal, wet IN element flowing into a dry EX
    element, two Gauss points, run on rationals (g = 2, depths 2 and 1/2). *)
Definition ex_n : vec2 Q := V2 (3#5)%Q (4#5)%Q.
Definition ex_m : vec2 Q := V2 (-3#5)%Q (-4#5)%Q.
Definition ex_a : aux3 Q := Aux 1%Q 1%Q 1%Q.
Definition ex_F := internal_flux (N := Num_Q) 2%Q true false 2
   (fun _ => V3 1%Q 3%Q 1%Q) (fun _ => V3 (-1#2)%Q 0%Q 0%Q)
   (fun _ => ex_a) (fun _ => ex_a) (fun _ => ex_n) (fun _ => ex_m)
   (fun _ => V3 0%Q 0%Q 0%Q, fun _ => V3 0%Q 0%Q 0%Q).
Example C01_ex_hyp : unit2 (V2 (3/5) (4/5)) /\ unit2 (V2 (-3/5) (-4/5)).
Proof. unfold unit2; cbn; split; field. Qed.
Example C01_ex_run :
  Qeq_bool (ze (fst ex_F 0%nat)) (151#40)%Q && Qeq_bool (ze (snd ex_F 1%nat)) (-151#40)%Q
  && negb (Qeq_bool (qx (fst ex_F 0%nat) + qx (snd ex_F 1%nat))%Q 0%Q) = true.
Proof. vm_compute. reflexivity. Qed.

(** ** C02 *)
Theorem C02_consistent : forall g q a n, sp a = 1 ->
  LLF_flux g q q a n = physical_flux g q (bath a) n.
Proof. exact LLF_consistent. Qed.
Print Assumptions C02_consistent.

Theorem C02_swap_sides : forall g p q a a' n m,
  sp a = 1 -> sp a' = 1 -> bath a' = bath a -> opposite n m ->
  LLF_flux g q p a' m = vneg (LLF_flux g p q a n).
Proof. exact LLF_antisym. Qed.
Print Assumptions C02_swap_sides.

(** The flux is the local Lax-Friedrichs flux: the mean of the two physical
    fluxes plus half the larger signal speed times the jump. *)
Theorem C02_local_lax_friedrichs : forall g p q a n, sp a = 1 -> unit2 n ->
  let s := Rmax (wave_speed g p (bath a) n) (wave_speed g q (bath a) n) in
  let F := LLF_flux g p q a n in
  let Fp := physical_flux g p (bath a) n in
  let Fq := physical_flux g q (bath a) n in
  ze F = (ze Fp + ze Fq) / 2 + s / 2 * (ze p - ze q) /\
  qx F = (qx Fp + qx Fq) / 2 + s / 2 * (qx p - qx q) /\
  qy F = (qy Fp + qy Fq) / 2 + s / 2 * (qy p - qy q).
Proof. exact LLF_lax_friedrichs. Qed.
Print Assumptions C02_local_lax_friedrichs.

(** Water at rest flows towards the lower elevation. *)
Theorem C02_flows_downhill : forall g p q a n, sp a = 1 -> unit2 n -> 0 < g -> 0 < ze p + bath a -> 0 < ze q + bath a ->
  qx p = 0 -> qy p = 0 -> qx q = 0 -> qy q = 0 -> ze q < ze p -> 0 < ze (LLF_flux g p q a n).
Proof. exact LLF_still_water. Qed.
Print Assumptions C02_flows_downhill.

(** The analytic normal flux of the HDG solvers is the same physical flux. *)
Theorem C02_analytic_flux : forall g q a n, hh a = ze q + bath a -> get_Fn g q a n = physical_flux g q (bath a) n.
Proof. exact get_Fn_physical. Qed.
Print Assumptions C02_analytic_flux.

(** In spherical coordinates (factor 2) the flux of two equal states is
    neither the Cartesian nor the spherical normal flux. *)
Theorem C02_spherical_consistency_refuted :
  exists (g : R) (q : vec3 R) (a : aux3 R) (n : vec2 R),
    0 < g /\ 0 < ze q + bath a /\ unit2 n /\ 0 < sp a /\
    ze (LLF_flux g q q a n) <> qx q * nx n + qy q * ny n /\
    ze (LLF_flux g q q a n) <> sp a * qx q * nx n + qy q * ny n.
Proof.
  exists 1, (V3 0 1 0), (Aux 1 1 2), (V2 1 0).
  assert (E : ze (LLF_flux 1 (V3 0 1 0) (V3 0 1 0) (Aux 1 1 2) (V2 1 0)) = 3 / 2).
  { unfold LLF_flux, vscale, vadd, vsub; num_R; cbn [ze qx qy bath sp nx ny]. field. }
  rewrite E; unfold unit2; cbn [ze qx qy bath sp nx ny]; repeat split; lra.
Qed.
Print Assumptions C02_spherical_consistency_refuted.

Example C02_ex_hyp : opposite (V2 (3/5) (4/5)) (V2 (-3/5) (-4/5)).
Proof. unfold opposite; cbn; split; field. Qed.
Example C02_ex_run :
  Qeq_bool (qx (LLF_flux (N := Num_Q) 2%Q (V3 1 3 1)%Q (V3 1 3 1)%Q ex_a ex_n)) (57#10)%Q = true.
Proof. vm_compute. reflexivity. Qed.

(** ** C03 *)
Theorem C03_land_impermeable : forall g n q a, unit2 n -> sp a = 1 ->
  ze (land_flux g n q a) = 0 /\ tangent_part (land_flux g n q a) n = 0.
Proof. exact land_flux_impermeable. Qed.
Print Assumptions C03_land_impermeable.

Theorem C03_land_exterior_state : forall n (q : vec3 R), unit2 n ->
  ze (land_ex n q) = ze q /\
  normal_part (land_ex n q) n = - normal_part q n /\
  tangent_part (land_ex n q) n = tangent_part q n.
Proof. exact land_ex_spec. Qed.
Print Assumptions C03_land_exterior_state.

Theorem C03_ehdg_land_impermeable : forall g n q a, unit2 n ->
  (ze (ehdg_land_flux g n q a) = 0 /\ tangent_part (ehdg_land_flux g n q a) n = 0) /\
  (ze (ehdg_land_point g n q a) = 0 /\ tangent_part (ehdg_land_point g n q a) n = 0).
Proof. exact (fun g n q a U => conj (ehdg_land_gen g n q _ _ U) (ehdg_land_gen g n q _ _ U)). Qed.
Print Assumptions C03_ehdg_land_impermeable.

(** In spherical coordinates the RKDG wall leaks. *)
Theorem C03_spherical_refuted :
  exists (g : R) (q : vec3 R) (a : aux3 R) (n : vec2 R),
    0 < g /\ 0 < ze q + bath a /\ unit2 n /\ 0 < sp a /\ ze (land_flux g n q a) <> 0.
Proof.
  exists 1, (V3 0 1 0), (Aux 1 1 2), (V2 1 0).
  assert (E : ze (land_flux 1 (V2 1 0) (V3 0 1 0) (Aux 1 1 2)) = 1 / 2).
  { unfold land_flux, land_ex, LLF_flux, vscale, vadd, vsub; num_R; cbn [ze qx qy bath sp nx ny]. field. }
  rewrite E; unfold unit2; cbn [ze qx qy bath sp nx ny]; repeat split; lra.
Qed.
Print Assumptions C03_spherical_refuted.

Example C03_ex_run :
  let F := land_flux (N := Num_Q) 2%Q ex_n (V3 1 3 1)%Q ex_a in
  Qeq_bool (ze F) 0%Q && negb (Qeq_bool (qx F) 0%Q) = true.
Proof. vm_compute. reflexivity. Qed.

(** ** C30 *)
Theorem C30_ehdg_mass_conserved :
  forall g wet_in wet_ex ngp q_in q_ex a_hat n_in n_ex F0,
  wet_in || wet_ex = true ->
  (forall j, (j < ngp)%nat -> unit2 (n_in j) /\ unit2 (n_ex j)) ->
  let F := ehdg_internal_flux g wet_in wet_ex ngp q_in q_ex a_hat n_in n_ex F0 in
  forall j, (j < ngp)%nat -> ze (fst F j) + ze (snd F (ngp - 1 - j)%nat) = 0.
Proof. exact ehdg_internal_mass. Qed.
Print Assumptions C30_ehdg_mass_conserved.

Theorem C30_ehdg_wet_all_cancel :
  forall g ngp q_in q_ex a_hat n_in n_ex F0,
  let F := ehdg_internal_flux g true true ngp q_in q_ex a_hat n_in n_ex F0 in
  forall j, (j < ngp)%nat ->
    cancel (fst F j) (snd F (ngp - 1 - j)%nat) /\
    fst F j = ehdg_base g (q_in j) (q_ex (ngp - 1 - j)%nat) (a_hat j) (n_in j).
Proof. exact ehdg_internal_wet. Qed.
Print Assumptions C30_ehdg_wet_all_cancel.

(** Three Gauss points, stale buffers, both wet: all components cancel. *)
Definition ex_E := ehdg_internal_flux (N := Num_Q) 2%Q true true 3
   (fun j => V3 1%Q (inject_Z (Z.of_nat j)) 1%Q) (fun j => V3 (5#2)%Q 2%Q (inject_Z (Z.of_nat j)))
   (fun _ => Aux (1#4)%Q 0%Q 1%Q) (fun _ => ex_n) (fun _ => ex_m)
   (fun _ => V3 7%Q 7%Q 7%Q, fun _ => V3 9%Q 9%Q 9%Q).
Example C30_ex_run :
  forallb (fun j => Qeq_bool (ze (fst ex_E j) + ze (snd ex_E (2 - j)%nat))%Q 0 &&
                    Qeq_bool (qx (fst ex_E j) + qx (snd ex_E (2 - j)%nat))%Q 0 &&
                    Qeq_bool (qy (fst ex_E j) + qy (snd ex_E (2 - j)%nat))%Q 0 &&
                    negb (Qeq_bool (ze (fst ex_E j)) 0%Q)) [0; 1; 2]%nat = true.
Proof. vm_compute. reflexivity. Qed.

(** ** C31 *)
Theorem C31_distributed_equals_internal :
  forall g wet_in wet_ex ngp q_in q_ex a_in a_ex n_in n_ex F0 G0 H0,
  (forall j, (j < ngp)%nat -> sp (a_in j) = 1 /\ sp (a_ex j) = 1 /\
      bath (a_ex (ngp - 1 - j)%nat) = bath (a_in j) /\ opposite (n_in j) (n_ex (ngp - 1 - j)%nat)) ->
  let F := internal_flux g wet_in wet_ex ngp q_in q_ex a_in a_ex n_in n_ex F0 in
  (forall j, (j < ngp)%nat ->
     distributed_flux g wet_in ngp (bound_message wet_ex ngp q_ex) q_in a_in n_in G0 j = fst F j) /\
  (forall j, (j < ngp)%nat ->
     distributed_flux g wet_ex ngp (bound_message wet_in ngp q_in) q_ex a_ex n_ex H0 j = snd F j).
Proof. exact distributed_is_internal. Qed.
Print Assumptions C31_distributed_equals_internal.

Theorem C31_ehdg_distributed_equals_internal :
  forall g wet_in wet_ex ngp q_in q_ex a_in a_ex n_in n_ex F0,
  wet_in || wet_ex = true ->
  (forall j, (j < ngp)%nat -> a_ex (ngp - 1 - j)%nat = a_in j /\ opposite (n_in j) (n_ex (ngp - 1 - j)%nat)) ->
  let F := ehdg_internal_flux g wet_in wet_ex ngp q_in q_ex a_in n_in n_ex F0 in
  forall j, (j < ngp)%nat -> let k := (ngp - 1 - j)%nat in
     ehdg_distributed_point g wet_in wet_ex (q_in j) (q_ex k) (a_in j) (n_in j) = fst F j /\
     ehdg_distributed_point g wet_ex wet_in (q_ex k) (q_in j) (a_ex k) (n_ex k) = snd F k.
Proof. exact ehdg_distributed_is_internal. Qed.
Print Assumptions C31_ehdg_distributed_equals_internal.

Theorem C31_distributed_levee_equals_levee :
  forall g H cs cp wet_in wet_ex q_in q_ex a_in a_ex n_in n_ex, opposite n_in n_ex ->
  (dist_levee_point g H cs cp wet_in q_in q_ex a_in n_in,
   dist_levee_point g H cs cp wet_ex q_ex q_in a_ex n_ex)
  = levee_point g H cs cp wet_in wet_ex q_in q_ex a_in a_ex n_in n_ex.
Proof. exact dist_levee_both. Qed.
Print Assumptions C31_distributed_levee_equals_levee.

Example C31_ex_run :
  let G := distributed_flux (N := Num_Q) 2%Q false 2
     (bound_message (N := Num_Q) true 2 (fun _ => V3 1%Q 3%Q 1%Q))
     (fun _ => V3 (-1#2)%Q 0%Q 0%Q) (fun _ => ex_a) (fun _ => ex_m) (fun _ => V3 0%Q 0%Q 0%Q) in
  Qeq_bool (ze (G 1%nat)) (-151#40)%Q && Qeq_bool (qx (G 1%nat)) (qx (snd ex_F 1%nat)) = true.
Proof. vm_compute. reflexivity. Qed.

(** ** C39 *)
Theorem C39_levee_closed_no_flow :
  forall g H cs cp wet_in wet_ex q_in q_ex a_in a_ex n_in n_ex,
  unit2 n_in -> unit2 n_ex -> sp a_in = 1 -> sp a_ex = 1 ->
  levee_closed (ze q_in - H) (ze q_ex - H) ->
  let P := levee_point g H cs cp wet_in wet_ex q_in q_ex a_in a_ex n_in n_ex in
  ze (fst P) = 0 /\ ze (snd P) = 0.
Proof. exact levee_closed_no_flow. Qed.
Print Assumptions C39_levee_closed_no_flow.

(** The two mass fluxes of an overtopped levee do not cancel in general:
    their sum is half the sum of the outward interior discharges. *)
Theorem C39_levee_mass_defect :
  forall g H cs cp wet_in wet_ex q_in q_ex a_in a_ex n_in n_ex,
  unit2 n_in -> opposite n_in n_ex -> sp a_in = 1 -> sp a_ex = 1 ->
  ~ levee_closed (ze q_in - H) (ze q_ex - H) ->
  let P := levee_point g H cs cp wet_in wet_ex q_in q_ex a_in a_ex n_in n_ex in
  ze (fst P) + ze (snd P) = (normal_part q_in n_in + normal_part q_ex n_ex) / 2.
Proof. exact levee_defect. Qed.
Print Assumptions C39_levee_mass_defect.

Theorem C39_levee_mass_conservation_refuted :
  exists g H cs cp q_in q_ex a n_in n_ex,
    0 < g /\ 0 <= cs /\ 0 <= cp /\ unit2 n_in /\ opposite n_in n_ex /\ sp a = 1 /\
    0 < ze q_in + bath a /\ 0 < ze q_ex + bath a /\
    let P := levee_point g H cs cp true true q_in q_ex a a n_in n_ex in
    ze (fst P) + ze (snd P) <> 0.
Proof. exact levee_mass_witness. Qed.
Print Assumptions C39_levee_mass_conservation_refuted.

(** With water standing on both sides (zero normal discharge) an overtopped
    levee conserves mass and moves water from the higher to the lower side. *)
Theorem C39_levee_still_water :
  forall g H cs cp wet_in wet_ex q_in q_ex a_in a_ex n_in n_ex,
  unit2 n_in -> opposite n_in n_ex -> sp a_in = 1 -> sp a_ex = 1 -> 0 <= cs -> 0 <= cp ->
  normal_part q_in n_in = 0 -> normal_part q_ex n_ex = 0 ->
  ~ levee_closed (ze q_in - H) (ze q_ex - H) ->
  let P := levee_point g H cs cp wet_in wet_ex q_in q_ex a_in a_ex n_in n_ex in
  ze (fst P) + ze (snd P) = 0 /\
  (ze q_ex < ze q_in -> 0 <= ze (fst P)) /\ (ze q_in < ze q_ex -> 0 <= ze (snd P)).
Proof. exact levee_still. Qed.
Print Assumptions C39_levee_still_water.

(** The direction of flow is not determined by the levels alone. *)
Theorem C39_levee_direction_refuted :
  exists g H cs cp q_in q_ex a n_in n_ex,
    0 < g /\ 0 <= cs /\ 0 <= cp /\ unit2 n_in /\ opposite n_in n_ex /\ sp a = 1 /\
    0 < ze q_in + bath a /\ 0 < ze q_ex + bath a /\
    ~ levee_closed (ze q_in - H) (ze q_ex - H) /\ ze q_ex < ze q_in /\
    ze (fst (levee_point g H cs cp true true q_in q_ex a a n_in n_ex)) < 0.
Proof. exact levee_direction_witness. Qed.
Print Assumptions C39_levee_direction_refuted.

(** Overtopped levee, heads 6 m and 1 m, g = 4: supercritical branch, weir
    discharge 4 * sqrt(4 * 4) = 16, half of which is the flux on each side. *)
Example C39_ex_run :
  let P := levee_point (N := Num_Q) 4%Q 0%Q 1%Q 1%Q true true
             (V3 6 0 0)%Q (V3 1 0 0)%Q (Aux 1 1 1)%Q (Aux 1 1 1)%Q (V2 1 0)%Q (V2 (-1) 0)%Q in
  Qeq_bool (ze (fst P)) 8%Q && Qeq_bool (ze (snd P)) (-8)%Q = true.
Proof. vm_compute. reflexivity. Qed.

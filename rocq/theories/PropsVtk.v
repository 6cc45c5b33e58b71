(** C63: the files written for visualisation and the files of coefficients. *)
From Coq Require Import String NArith ZArith Reals List Bool Arith Lia Lra.
From Verif Require Import Num Outcome ModelSWE ModelShape ModelBasis.
From Verif Require Import ModelVtk SpecStepper SpecShape SpecVtk LemmasVtk2 LemmasVtk4 LemmasVtk6 LemmasVtk7 LemmasVtk8 LemmasVtk9.
Import ListNotations.
Open Scope R_scope.

(** The legacy file is well formed, and read back shows the mesh and the solution. *)
Theorem C63_legacy : forall n p prd prf els0 els, (1 <= n)%nat -> length els0 = length els ->
  exists f P g, file_vtk n p prd prf els0 els = Ok f /\ read_vtk f = Some g /\ shows n p prd prf els0 els P g /\
    turns n els0 P g /\ (p = 1%nat -> shows_exactly n p prf els0 els P g).
Proof. exact (fun n p prd prf els0 els Hn Hl => legacy_shows n Hn p prd prf els0 els Hl). Qed.
Print Assumptions C63_legacy.

(** So does the XML file, with the speed beside. *)
Theorem C63_xml : forall n p prd prf els0 els, (1 <= n)%nat -> length els0 = length els ->
  exists f P g, file_vtu n p prd prf els0 els = Ok f /\ read_vtu f = Some g /\ shows n p prd prf els0 els P g /\
    turns n els0 P g /\ (p = 1%nat -> shows_exactly n p prf els0 els P g) /\ shows_speed n p prf els0 els P g.
Proof. exact (fun n p prd prf els0 els Hn Hl => xml_shows n Hn p prd prf els0 els Hl). Qed.
Print Assumptions C63_xml.

(** Six printed digits keep a relative error below 5e-6 ... *)
Theorem C63_precision : forall x y, six_digits x y -> Rabs (x - y) <= 5 / 1000000 * Rabs x.
Proof. exact six_error. Qed.
Print Assumptions C63_precision.
(** ... but not the shape of a small element far from the origin: its points coincide. *)
Theorem C63_precision_refuted : exists el, orient (el_nodes el 0%nat) (el_nodes el 1%nat) (el_nodes el 2%nat) = 4 /\
  forall p prd prf, (forall x, six_digits x (prd x)) ->
  exists f g, file_vtk 1 p prd prf [el] [el] = Ok f /\ read_vtk f = Some g /\ g_points g = repeat (1000000, 1000000, 0) 3.
Proof.
  exists small_far. split; [exact small_far_area |]. intros p prd prf H.
  destruct (legacy_read 1 p (le_n 1) prd prf [small_far] [small_far] _ (collect_ok 1 (le_n 1) p _) (data_consistent 1 (le_n 1) p _ _ eq_refl)) as [f [F G]].
  exists f. eexists. split; [exact F |]. split; [exact G |]. exact (small_far_points prd H).
Qed.
Print Assumptions C63_precision_refuted.

(** Orders the subdivision does not resolve: two solutions, one file. *)
Theorem C63_resolution_refuted : exists el el', 
  (forall prd prf, file_vtk 1 2 prd prf [el] [el] = file_vtk 1 2 prd prf [el'] [el'] /\
                   file_vtu 1 2 prd prf [el] [el] = file_vtu 1 2 prd prf [el'] [el']) /\
  exists z, in_reference z /\ field 2 (fun d => ze (el_q el d)) z = 5 / 4 /\ field 2 (fun d => ze (el_q el' d)) z = 0.
Proof.
  exists (with_q hidden), (with_q (fun _ => 0)). split; [exact hidden_files |]. exists (0, 0). destruct hidden_seen as [I S].
  split; [exact I |]. split; [exact S |]. rewrite <- value_field. exact (zero_value 2 (0, 0)).
Qed.
Print Assumptions C63_resolution_refuted.

(** Cells of a counter-clockwise element are not all counter-clockwise. *)
Theorem C63_orientation_refuted : exists el, 0 < orient (el_nodes el 0%nat) (el_nodes el 1%nat) (el_nodes el 2%nat) /\
  forall p prd prf, exists f P g, file_vtk 2 p prd prf [el] [el] = Ok f /\ read_vtk f = Some g /\ shows 2 p prd prf [el] [el] P g /\
    let c := nth 3 (g_cells g) [] in orient (corner P c 0) (corner P c 1) (corner P c 2) < 0.
Proof.
  exists (with_q (fun _ => 0)). assert (O : orient (el_nodes (with_q (fun _ => 0)) 0%nat) (el_nodes (with_q (fun _ => 0)) 1%nat) (el_nodes (with_q (fun _ => 0)) 2%nat) = 1) by (unfold orient, with_q; cbn; ring).
  split; [rewrite O; lra |]. intros p prd prf.
  destruct (C63_legacy 2 p prd prf [with_q (fun _ => 0)] [with_q (fun _ => 0)] ltac:(lia) eq_refl) as [f [P [g (F & G & S & T & _)]]].
  exists f, P, g. split; [exact F |]. split; [exact G |]. split; [exact S |].
  specialize (T 0%nat _ 3%nat eq_refl ltac:(lia)). cbv zeta in T. change (0 * (2 * 2) + 3)%nat with 3%nat in T. cbv zeta. rewrite T, O. cbn. lra.
Qed.
Print Assumptions C63_orientation_refuted.

(** The coefficient files hold the steps 0, f, 2f, … of the run, whatever they held before. *)
Theorem C63_modal : forall p prt prs u sol time f steps old nel, (f <> 0)%nat -> (forall k, length (sol k) = nel) ->
  exists file, run_modal p prt prs u (N.of_nat f) sol time steps old = Ok file /\
    read_modal ((p + 1) * (p + 2) / 2) nel (S (steps / f)) file =
    Some (map (fun j => (prt (time (j * f)%nat), map (fun e => map (fun d => (el_id e, prs (u e d))) (seq 0 ((p + 1) * (p + 2) / 2))) (sol (j * f)%nat))) (seq 0 (S (steps / f)))).
Proof. exact modal_back. Qed.
Print Assumptions C63_modal.
(** A frequency of zero is a division by zero. *)
Theorem C63_modal_frequency : forall p prt prs u sol time steps old, run_modal p prt prs u 0 sol time steps old = UB.
Proof. exact modal_none. Qed.
Print Assumptions C63_modal_frequency.

(** Examples: the cells of an element divided in two, and a short run of coefficient output. *)
Example C63_example_cells : map (@tl nat) (snd (geometry 2 [with_q hidden])) = [[0; 1; 3]; [1; 2; 4]; [3; 4; 5]; [3; 4; 1]]%nat.
Proof. reflexivity. Qed.
Example C63_example_modal : exists file, run_modal 0 (fun x => x) (fun x => x) (fun e d => ze (el_q e d)) 2 (fun k => [with_q (fun _ => INR k)]) INR 5 [Word "old"] = Ok file /\
  read_modal 1 1 3 file = Some [(INR 0, [[(0%nat, INR 0)]]); (INR 2, [[(0%nat, INR 2)]]); (INR 4, [[(0%nat, INR 4)]])].
Proof. exact (C63_modal 0 (fun x => x) (fun x => x) (fun e d => ze (el_q e d)) (fun k => [with_q (fun _ => INR k)]) INR 2 5 [Word "old"] 1 ltac:(lia) (fun _ => eq_refl)). Qed.
Example C63_example_digits : six_digits 1234567 1234570.
Proof.
  right. exists 6%Z, 123457%Z. change (powerRZ 10 6) with (10 ^ 6). change (powerRZ 10 (6 + 1)) with (10 ^ 7). change (powerRZ 10 (6 - 5)) with (10 ^ 1).
  rewrite Rabs_pos_eq by lra. replace (1234567 - 1234570) with (Ropp 3) by ring. rewrite Rabs_Ropp, (Rabs_pos_eq 3) by lra. lra.
Qed.

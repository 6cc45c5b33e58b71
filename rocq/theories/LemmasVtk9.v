From Coq Require Import String NArith ZArith Reals List Bool Arith Lia Lra.
From Verif Require Import Num Outcome ModelSWE ModelShape ModelBasis ModelStepper ModelRun LemmasRK LemmasRun LemmasPart.
From Verif Require Import ModelVtk SpecStepper SpecShape SpecVtk LemmasVtk1 LemmasVtk2 LemmasVtk3 LemmasVtk4 LemmasVtk5 LemmasVtk6 LemmasVtk7 LemmasVtk8.
Import ListNotations.
Open Scope R_scope.

(** ** Printed digits. *)
Lemma six_error : forall x y, six_digits x y -> Rabs (x - y) <= 5 / 1000000 * Rabs x.
Proof.
  intros x y [[-> ->] | [k [m [[L _] [_ B]]]]].
  - rewrite Rminus_0_r, Rabs_R0. lra.
  - eapply Rle_trans; [exact B |]. replace (k - 5)%Z with (k + - 5)%Z by lia. rewrite powerRZ_add by lra.
    replace (powerRZ 10 (-5)) with (/ 100000) by (change (powerRZ 10 (-5)) with (/ (10 ^ 5)); f_equal; ring). lra.
Qed.
Lemma six_zero : forall y, six_digits 0 y -> y = 0.
Proof.
  intros y [[_ ->] | [k [m [[L _] _]]]]; [reflexivity |]. rewrite Rabs_R0 in L. pose proof (powerRZ_lt 10 k ltac:(lra)). lra.
Qed.
Lemma pow_up : forall k l : Z, (k <= l)%Z -> powerRZ 10 k <= powerRZ 10 l.
Proof.
  intros k l H. replace l with (k + (l - k))%Z by lia. rewrite powerRZ_add by lra. pose proof (powerRZ_lt 10 k ltac:(lra)).
  assert (1 <= powerRZ 10 (l - k)).
  { destruct (l - k)%Z as [| q | q] eqn:E; [cbn; lra | | lia]. cbn [powerRZ]. apply pow_R1_Rle. lra. }
  nra.
Qed.
Lemma six_million : forall x y, 1000000 < x < 1000005 -> six_digits x y -> y = 1000000.
Proof.
  intros x y [H1 H2] [[-> _] | [k [m [[L U] [E B]]]]]; [lra |]. rewrite (Rabs_pos_eq x) in * by lra.
  assert (P6 : powerRZ 10 6 = 1000000) by (change (powerRZ 10 6) with (10 ^ 6); ring). assert (P7 : powerRZ 10 7 = 10000000) by (change (powerRZ 10 7) with (10 ^ 7); ring).
  assert (K : k = 6%Z).
  { destruct (Z.lt_trichotomy k 6) as [K | [K | K]]; [| exact K |].
    - pose proof (pow_up (k + 1) 6 ltac:(lia)). lra.
    - pose proof (pow_up 7 k ltac:(lia)). lra. }
  subst k. replace (powerRZ 10 (6 - 5)) with 10 in * by (change (powerRZ 10 (6 - 5)) with (10 ^ 1); ring).
  assert (B' : -5 <= x - y <= 5) by (unfold Rabs in B; destruct (Rcase_abs (x - y)); lra).
  assert (M : m = 100000%Z).
  { assert (99999 < IZR m < 100001) by lra. destruct H as [A1 A2]. apply lt_IZR in A1. apply lt_IZR in A2. lia. }
  rewrite E, M. lra.
Qed.
Definition small_far : elem := Elem 0 (fun j => match j with 0%nat => (1000001, 1000001) | 1%nat => (1000003, 1000001) | _ => (1000001, 1000003) end) (fun _ => V3 0 0 0) (fun _ => 0) true true.
Lemma small_far_area : orient (el_nodes small_far 0%nat) (el_nodes small_far 1%nat) (el_nodes small_far 2%nat) = 4.
Proof. unfold orient, small_far. cbn. ring. Qed.
Lemma small_far_points : forall prd, (forall x, six_digits x (prd x)) ->
  map (print3 prd) (fst (geometry 1 [small_far])) = repeat (1000000, 1000000, 0) 3.
Proof.
  intros prd H. rewrite (geometry_lists 1 (le_n 1)). cbn [fst flat_map]. rewrite app_nil_r. unfold points_of.
  change (point_loop 1) with [(0, 0); (0, 1); (1, 0)]%nat. cbn [map]. rewrite !(vtk_gpt 1 (le_n 1)). unfold gpt, comb, small_far, print3. cbn [el_nodes fst snd INR].
  assert (Z : prd 0 = 0) by (apply six_zero, H). rewrite Z.
  assert (Q : forall x, 1000000 < x < 1000005 -> prd x = 1000000) by (intros x X; apply (six_million x); [exact X | apply H]).
  rewrite !Q by lra. reflexivity.
Qed.

(** ** Orders the subdivision does not resolve. *)
Definition with_q (u : nat -> R) : elem :=
  Elem 0 (fun j => match j with 0%nat => (0, 0) | 1%nat => (1, 0) | _ => (0, 1) end) (fun d => V3 (u d) 0 0) (fun _ => 1) true true.
Lemma zero_value : forall p z, value p (fun _ => 0) z = 0.
Proof. intros. rewrite value_field. unfold field. rewrite (LemmasRK.rsum_ext _ _ (fun _ => 0)) by (intros; ring). apply LemmasRK.rsum_0. Qed.
Lemma hidden_data : the_data 1 2 [with_q hidden] = the_data 1 2 [with_q (fun _ => 0)].
Proof.
  assert (V : forall z, In z (zp 1) \/ In z (zc 1) -> value 2 hidden z = 0).
  { unfold zp, zc. change (point_loop 1) with [(0, 0); (0, 1); (1, 0)]%nat. change (up_loop 1) with [(0, 0)]%nat. change (down_loop 1) with (@nil (nat * nat)).
    cbn [map app]. intros z [[<- | [<- | [<- | []]]] | [<- | []]]; (rewrite hidden_value; [| unfold in_reference]); unfold grid, up_centre, dz; cbn [fst snd INR]; lra. }
  unfold the_data. cbn [flat_map]. rewrite !app_nil_r. cbn [with_q el_q el_bath el_id el_wet el_gone].
  assert (M : forall l, (forall z, In z l -> In z (zp 1) \/ In z (zc 1)) -> map (values 2 (fun d => V3 (hidden d) 0 0)) l = map (values 2 (fun _ => V3 0 0 0)) l).
  { intros l Hl. apply map_ext_in. intros z Hz. unfold values. cbn [ze qx qy]. f_equal. change (fun d => hidden d) with hidden. rewrite V by (apply Hl; exact Hz). rewrite zero_value. reflexivity. }
  f_equal; apply M; tauto.
Qed.
Lemma hidden_seen : in_reference (0, 0) /\ field 2 hidden (0, 0) = 5 / 4.
Proof.
  assert (I : in_reference (0, 0)) by (unfold in_reference; cbn [fst snd]; lra). split; [exact I |].
  rewrite <- value_field, hidden_value by exact I. cbn [fst snd]. lra.
Qed.
Lemma hidden_files : forall prd prf,
  file_vtk 1 2 prd prf [with_q hidden] [with_q hidden] = file_vtk 1 2 prd prf [with_q (fun _ => 0)] [with_q (fun _ => 0)] /\
  file_vtu 1 2 prd prf [with_q hidden] [with_q hidden] = file_vtu 1 2 prd prf [with_q (fun _ => 0)] [with_q (fun _ => 0)].
Proof.
  intros prd prf. unfold file_vtk, file_vtu. rewrite !(collect_ok 1 (le_n 1)), hidden_data. split; reflexivity.
Qed.

(** ** Coefficients. *)
Section Modal.
  Context (p : nat) (prt prs : R -> R) (u : elem -> nat -> R) (sol : nat -> list elem) (time : nat -> R).
  Let fr (k : nat) : list tok := modal_frame p prt prs u (time k) (sol k).
  Lemma modal_later : forall (freq : N) l file, freq <> 0%N -> (forall k, In k l -> k <> 0%nat) ->
    ofold (offer_modal p prt prs u freq sol time) l file = Ok (file ++ flat_map fr (filter (fun k => (N.of_nat k mod freq =? 0)%N) l)).
  Proof.
    intros freq l file Hf. revert file. induction l as [| k l IH]; intros file Hl; [cbn; rewrite app_nil_r; reflexivity |].
    cbn [ofold]. unfold offer_modal at 1, write_guard. rewrite (proj2 (N.eqb_neq _ _) Hf). cbn [bind filter].
    rewrite IH by (intros j Hj; apply Hl; right; exact Hj).
    destruct (N.of_nat k mod freq =? 0)%N; [| reflexivity]. cbn [flat_map]. unfold write_modal. rewrite (proj2 (Nat.eqb_neq _ _) (Hl k (or_introl eq_refl))).
    rewrite <- app_assoc. reflexivity.
  Qed.
  Lemma modal_run : forall f steps old, (f <> 0)%nat ->
    run_modal p prt prs u (N.of_nat f) sol time steps old = Ok (flat_map (fun j => fr (j * f)%nat) (seq 0 (S (steps / f)))).
  Proof.
    intros f steps old Hf. assert (Hf' : N.of_nat f <> 0%N) by lia.
    unfold run_modal. rewrite Nat.add_1_r. cbn [seq ofold]. unfold offer_modal at 1, write_guard. rewrite (proj2 (N.eqb_neq _ _) Hf'). cbn [bind N.of_nat].
    rewrite N.mod_0_l by exact Hf'. cbn [N.eqb]. unfold write_modal at 1. cbn [Nat.eqb].
    rewrite modal_later by (try exact Hf'; intros k Hk; apply in_seq in Hk; lia).
    pose proof (schedule_multiples f steps Hf) as M. unfold schedule in M. cbn [seq filter N.of_nat] in M. rewrite N.mod_0_l in M by exact Hf'. cbn [N.eqb] in M.
    f_equal. change (modal_frame p prt prs u (time 0%nat) (sol 0%nat)) with (fr 0%nat).
    transitivity (flat_map fr (0%nat :: filter (fun k => (N.of_nat k mod N.of_nat f =? 0)%N) (seq 1 steps))); [reflexivity |].
    rewrite M. rewrite flat_map_concat_map, map_map, <- flat_map_concat_map. reflexivity.
  Qed.
  Definition modal_table (k : nat) : R * list (list (nat * R)) :=
    (prt (time k), map (fun e => map (fun d => (el_id e, prs (u e d))) (seq 0 ((p + 1) * (p + 2) / 2))) (sol k)).
  Lemma modal_read : forall nel js, (forall k, length (sol k) = nel) ->
    read_modal ((p + 1) * (p + 2) / 2) nel (length js) (flat_map fr js) = Some (map modal_table js).
  Proof.
    intros nel js Hs. unfold read_modal, whole. rewrite <- (app_nil_r (flat_map fr js)).
    rewrite (many_enc _ _ (read_frame ((p + 1) * (p + 2) / 2) nel) fr modal_table); [reflexivity |].
    intros k r _. unfold fr, modal_frame. cbn [app read_frame]. rewrite <- (Hs k).
    rewrite (many_enc _ _ (many read_line ((p + 1) * (p + 2) / 2)) (modal_lines p prs u) (fun e => map (fun d => (el_id e, prs (u e d))) (seq 0 ((p + 1) * (p + 2) / 2)))); [reflexivity |].
    intros e r' _. unfold modal_lines, dubiner_ndof.
    pose proof (many_enc _ _ read_line (fun d => [Int (el_id e); Real (prs (u e d))]) (fun d => (el_id e, prs (u e d))) (seq 0 ((p + 1) * (p + 2) / 2)) r') as M.
    rewrite seq_length in M. apply M. reflexivity.
  Qed.
End Modal.
Lemma modal_back : forall p prt prs u sol time f steps old nel, (f <> 0)%nat -> (forall k, length (sol k) = nel) ->
  exists file, run_modal p prt prs u (N.of_nat f) sol time steps old = Ok file /\
    read_modal ((p + 1) * (p + 2) / 2) nel (S (steps / f)) file =
    Some (map (fun j => (prt (time (j * f)%nat), map (fun e => map (fun d => (el_id e, prs (u e d))) (seq 0 ((p + 1) * (p + 2) / 2))) (sol (j * f)%nat))) (seq 0 (S (steps / f)))).
Proof.
  intros p prt prs u sol time f steps old nel Hf Hs. eexists. split; [apply modal_run; exact Hf |].
  pose proof (modal_read p prt prs u sol time nel (map (fun j => (j * f)%nat) (seq 0 (S (steps / f)))) Hs) as M.
  rewrite map_length, seq_length, map_map in M. rewrite flat_map_concat_map, map_map, <- flat_map_concat_map in M. exact M.
Qed.
Lemma modal_none : forall p prt prs u sol time steps old, run_modal p prt prs u 0 sol time steps old = UB.
Proof. intros. unfold run_modal. rewrite Nat.add_1_r. reflexivity. Qed.


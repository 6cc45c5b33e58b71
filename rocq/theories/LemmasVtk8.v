From Coq Require Import String ZArith Reals List Bool Arith Lia Lra.
From Verif Require Import Num Outcome ModelSWE ModelShape ModelBasis.
From Verif Require Import ModelVtk SpecStepper SpecShape SpecVtk LemmasVtk1 LemmasVtk2 LemmasVtk3 LemmasVtk4 LemmasVtk5 LemmasVtk6 LemmasVtk7.
Import ListNotations.
Open Scope R_scope.

Lemma nth_some : forall (A : Type) (l : list A) k d, (k < length l)%nat -> nth_error l k = Some (nth k l d).
Proof. intros. apply nth_error_nth'. assumption. Qed.
Lemma nth_map : forall (A B : Type) (f : A -> B) l k d, (k < length l)%nat -> nth_error (map f l) k = Some (f (nth k l d)).
Proof. intros A B f l k d H. apply map_nth_error. apply nth_error_nth'. exact H. Qed.

(** Orientation of the cells in the file. *)
Lemma orient_cells : forall n els e k, (1 <= n)%nat -> (e < length els)%nat -> (k < n * n)%nat ->
  let P := fst (geometry n els) in let c := nth (e * (n * n) + k) (map (@tl nat) (snd (geometry n els))) [] in let E := nth e els none in
  orient (corner P c 0) (corner P c 1) (corner P c 2) =
  (if (k <? n * (n + 1) / 2)%nat then 1 else -1) * (orient (el_nodes E 0%nat) (el_nodes E 1%nat) (el_nodes E 2%nat) / (INR n * INR n)).
Proof.
  intros n els e k Hn He Hk P c E. unfold P, c. rewrite (cell_at n Hn els e He k Hk). rewrite (geometry_lists n Hn). cbn [fst].
  rewrite (cell_orient n Hn els e He k Hk). unfold kind. reflexivity.
Qed.

Section N.
  Context (n : nat) (Hn : (1 <= n)%nat) (p : nat) (prd prf : R -> R).
  Context (els0 els : list elem) (Hl : length els0 = length els).
  Let P := fst (geometry n els0).
  Let Cs := map (@tl nat) (snd (geometry n els0)).
  Let d := the_data n p els.
  Let pd := map named (point_arrays prf d).
  Let cd := map named (cell_arrays prf d).

  Lemma data_sizes : length (d_qp d) = (length els * tri (n + 1))%nat /\ length (d_ap d) = (length els * tri (n + 1))%nat /\
    length (d_qc d) = (length els * (n * n))%nat /\ length (d_ac d) = (length els * (n * n))%nat /\ length (d_id d) = (length els * (n * n))%nat /\
    length (d_wet d) = (length els * (n * n))%nat /\ length (d_gone d) = (length els * (n * n))%nat.
  Proof.
    unfold d, the_data. cbn [d_qp d_qc d_ap d_ac d_id d_wet d_gone].
    repeat apply conj; apply flat_len; intros; rewrite ?map_length, ?repeat_length; try apply (zp_len n Hn); try apply (zc_len n Hn); reflexivity.
  Qed.
  Lemma all_shown : forall (more : list (string * list tok)) e E0 E, nth_error els0 e = Some E0 -> nth_error els e = Some E ->
    let a := el_nodes E0 0%nat in let b := el_nodes E0 1%nat in let c := el_nodes E0 2%nat in
    (orient a b c <> 0 -> tiles P (slice (n * n) e Cs) a b c) /\
    (forall i, (i < tri (n + 1))%nat -> exists z, in_reference z /\ nth (e * tri (n + 1) + i) P (0, 0, 0) = (image a b c z, 0) /\
       holds_at p prf (pd ++ more) "_point" (e * tri (n + 1) + i) (el_q E) (el_bath E) z) /\
    (forall k, (k < n * n)%nat -> exists z, in_reference z /\ image a b c z = centroid P (nth (e * (n * n) + k) Cs []) /\
       holds_at p prf cd "_cell" (e * (n * n) + k) (el_q E) (el_bath E) z /\
       entry_of cd "ID" (e * (n * n) + k) = Some (Int (el_id E)) /\
       entry_of cd "wet_dry" (e * (n * n) + k) = Some (flag (el_wet E)) /\
       entry_of cd "went_completely_dry" (e * (n * n) + k) = Some (flag (el_gone E))).
  Proof.
    intros more e E0 E N0 N1 a b c. pose proof (nth_error_nth _ _ none N0) as X0. pose proof (nth_error_nth _ _ none N1) as X1.
    assert (L0 : (e < length els0)%nat) by (apply nth_error_Some; congruence). assert (L1 : (e < length els)%nat) by congruence.
    destruct data_sizes as (D1 & D2 & D3 & D4 & D5 & D6 & D7). subst E0. repeat apply conj.
    - intros O. unfold Cs. rewrite (slice_cells n Hn els0 e L0). unfold P. rewrite (geometry_lists n Hn). cbn [fst]. apply (tiles_all n Hn els0 e L0). exact O.
    - intros i Hi. destruct (zp_grid n Hn i Hi) as [r [s [L [Z Ei]]]]. exists (grid n (r, s)). split; [apply (grid_in n Hn); exact L |]. split.
      + rewrite Ei. apply (point_at n Hn els0 e L0). exact L.
      + assert (B : (e * tri (n + 1) + i < length els * tri (n + 1))%nat) by nia.
        pose proof (qp_at n Hn p els e L1 i (V3 0 0 0) Hi) as Q. pose proof (ap_at n Hn p els e L1 i 0 Hi) as A. rewrite Z, X1 in Q, A. fold d in Q, A.
        rewrite values_field in Q. rewrite value_field in A.
        unfold holds_at, entry_of, pd, point_arrays. cbn [map named app find fst snd String.eqb Ascii.eqb Bool.eqb String.append].
        rewrite !(nth_map _ _ _ (d_qp d) _ (V3 0 0 0)) by (rewrite D1; exact B). rewrite (nth_map _ _ _ (d_ap d) _ 0) by (rewrite D2; exact B).
        rewrite Q, A. repeat apply conj; reflexivity.
    - intros k Hk. exists (comb (zcorner n k 0) (zcorner n k 1) (zcorner n k 2) (/ 3) (/ 3) (/ 3)).
      split; [apply ref_mix; try lra; apply (zcorner_in n Hn); exact Hk |].
      split; [rewrite image_mix by lra; unfold centroid, P, Cs; rewrite !(corner_image n Hn els0 e L0) by (try exact Hk; lia); reflexivity |].
      assert (B : (e * (n * n) + k < length els * (n * n))%nat) by nia.
      pose proof (qc_at n Hn p els e L1 k (V3 0 0 0) Hk) as Q. pose proof (ac_at n Hn p els e L1 k 0 Hk) as A. rewrite (centre_mean n Hn k Hk), X1 in Q, A. fold d in Q, A.
      rewrite values_field in Q. rewrite value_field in A.
      pose proof (rep_at n els e L1 _ el_id k 0%nat Hk) as R1. pose proof (rep_at n els e L1 _ el_wet k true Hk) as R2. pose proof (rep_at n els e L1 _ el_gone k true Hk) as R3.
      rewrite X1 in R1, R2, R3.
      unfold holds_at, entry_of, cd, cell_arrays. cbn [map named app find fst snd String.eqb Ascii.eqb Bool.eqb String.append].
      rewrite !(nth_map _ _ _ (d_qc d) _ (V3 0 0 0)) by (rewrite D3; exact B). rewrite (nth_map _ _ _ (d_ac d) _ 0) by (rewrite D4; exact B).
      rewrite (nth_map _ _ _ (d_id d) _ 0%nat) by (rewrite D5; exact B). rewrite (nth_map _ _ _ (d_wet d) _ true) by (rewrite D6; exact B).
      rewrite (nth_map _ _ _ (d_gone d) _ true) by (rewrite D7; exact B).
      rewrite Q, A. change (nth (e * (n * n) + k) (d_id d) 0%nat = el_id E) in R1. change (nth (e * (n * n) + k) (d_wet d) true = el_wet E) in R2. change (nth (e * (n * n) + k) (d_gone d) true = el_gone E) in R3. rewrite R1, R2, R3. repeat apply conj; reflexivity.
  Qed.
  Lemma shows_gen : forall more, shows n p prd prf els0 els P (GF (map (print3 prd) P) Cs (repeat 5%nat (length (snd (geometry n els0)))) cd (pd ++ more)).
  Proof.
    intros more. destruct (geometry_sizes n Hn els0) as [G1 G2]. unfold shows. rewrite tri_def. cbn [g_points g_cells g_types g_cell_data g_point_data].
    repeat apply conj.
    - unfold P. rewrite G1, Hl. reflexivity.
    - reflexivity.
    - unfold Cs. rewrite map_length, G2, Hl. reflexivity.
    - rewrite G2, Hl. reflexivity.
    - intros e E0 E N0 N1. apply all_shown; assumption.
  Qed.
  Lemma exactly : p = 1%nat -> forall more, shows_exactly n p prf els0 els P (GF (map (print3 prd) P) Cs (repeat 5%nat (length (snd (geometry n els0)))) cd (pd ++ more)).
  Proof.
    intros Hp more e E0 E k u v w N0 N1 Hk Hu Hv Hw HS cell. pose proof (nth_error_nth _ _ none N0) as X0. pose proof (nth_error_nth _ _ none N1) as X1.
    assert (L0 : (e < length els0)%nat) by (apply nth_error_Some; congruence). assert (L1 : (e < length els)%nat) by congruence.
    destruct data_sizes as (D1 & D2 & _).
    exists (comb (zcorner n k 0) (zcorner n k 1) (zcorner n k 2) u v w). split; [apply ref_mix; try assumption; apply (zcorner_in n Hn); exact Hk |].
    split; [rewrite image_mix by exact HS; unfold P, cell; cbn [g_cells]; unfold Cs; rewrite !(corner_image n Hn els0 e L0) by (try exact Hk; lia); rewrite X0; reflexivity |].
    assert (I : forall j, (j < 3)%nat -> nth j cell 0%nat = (e * tri (n + 1) + pos n (fst (gcorner n k j)) (snd (gcorner n k j)))%nat).
    { intros j Hj. unfold cell. cbn [g_cells]. unfold Cs. rewrite (cell_at n Hn els0 e L0 k Hk). apply (cell_index n Hn e k j Hk Hj). }
    assert (S0 : forall j, (pos n (fst (gcorner n k j)) (snd (gcorner n k j)) < tri (n + 1))%nat) by (intros j; apply (pos_lt n Hn), (gcorner_le n Hn); exact Hk).
    assert (B : forall j, (j < 3)%nat -> (nth j cell 0 < length els * tri (n + 1))%nat) by (intros j Hj; rewrite I by exact Hj; specialize (S0 j); nia).
    assert (Q : forall j, (j < 3)%nat -> nth (nth j cell 0%nat) (d_qp d) (V3 0 0 0) = field3 p (el_q E) (zcorner n k j)).
    { intros j Hj. rewrite I by exact Hj. unfold d. rewrite (qp_at n Hn p els e L1) by apply S0. rewrite (zp_corner n Hn) by exact Hk. rewrite X1. apply values_field. }
    assert (A : forall j, (j < 3)%nat -> nth (nth j cell 0%nat) (d_ap d) 0 = field p (el_bath E) (zcorner n k j)).
    { intros j Hj. rewrite I by exact Hj. unfold d. rewrite (ap_at n Hn p els e L1) by apply S0. rewrite (zp_corner n Hn) by exact Hk. rewrite X1. apply value_field. }
    assert (G : forall name (h : vec3 R -> R) f, (forall j, (j < length els * tri (n + 1))%nat -> entry_of (pd ++ more) name j = Some (Real (prf (h (nth j (d_qp d) (V3 0 0 0)))))) ->
      (forall z, h (field3 p (el_q E) z) = field p f z) ->
      interpolates prf (GF (map (print3 prd) P) Cs (repeat 5%nat (length (snd (geometry n els0)))) cd (pd ++ more)) name cell u v w
        (field p f (comb (zcorner n k 0) (zcorner n k 1) (zcorner n k 2) u v w))).
    { intros name h f Hent Hf. exists (field p f (zcorner n k 0)), (field p f (zcorner n k 1)), (field p f (zcorner n k 2)). cbn [g_point_data].
      repeat apply conj; try (rewrite Hent by (apply B; lia); rewrite Q by lia; rewrite Hf; reflexivity).
      rewrite Hp. apply field1_mix; try assumption; apply (zcorner_in n Hn); exact Hk. }
    assert (F : forall j (h : vec3 R -> R), (j < length els * tri (n + 1))%nat -> nth_error (map (fun q => pf prf (h q)) (d_qp d)) j = Some (Real (prf (h (nth j (d_qp d) (V3 0 0 0)))))).
    { intros j h Hj. rewrite (nth_map _ _ _ (d_qp d) _ (V3 0 0 0)) by (rewrite D1; exact Hj). reflexivity. }
    repeat apply conj.
    - apply (G _ ze); [| reflexivity]. intros j Hj. unfold entry_of, pd, point_arrays. cbn [map named app find fst snd String.eqb Ascii.eqb Bool.eqb]. apply (F j ze Hj).
    - apply (G _ qx); [| reflexivity]. intros j Hj. unfold entry_of, pd, point_arrays. cbn [map named app find fst snd String.eqb Ascii.eqb Bool.eqb]. apply (F j qx Hj).
    - apply (G _ qy); [| reflexivity]. intros j Hj. unfold entry_of, pd, point_arrays. cbn [map named app find fst snd String.eqb Ascii.eqb Bool.eqb]. apply (F j qy Hj).
    - exists (field p (el_bath E) (zcorner n k 0)), (field p (el_bath E) (zcorner n k 1)), (field p (el_bath E) (zcorner n k 2)). cbn [g_point_data].
      assert (Y : forall j, (j < 3)%nat -> entry_of (pd ++ more) "bath_point" (nth j cell 0%nat) = Some (Real (prf (field p (el_bath E) (zcorner n k j))))).
      { intros j Hj. unfold entry_of, pd, point_arrays. cbn [map named app find fst snd String.eqb Ascii.eqb Bool.eqb].
        rewrite (nth_map _ _ _ (d_ap d) _ 0) by (rewrite D2; apply B; exact Hj). rewrite A by exact Hj. reflexivity. }
      repeat apply conj; try (apply Y; lia). rewrite Hp. apply field1_mix; try assumption; apply (zcorner_in n Hn); exact Hk.
  Qed.
  Lemma turned : forall c p, turns n els0 P (GF (map (print3 prd) P) Cs (repeat 5%nat (length (snd (geometry n els0)))) c p).
  Proof.
    intros c p' e E0 k N0 Hk. pose proof (nth_error_nth _ _ none N0) as X0. assert (L0 : (e < length els0)%nat) by (apply nth_error_Some; congruence).
    pose proof (orient_cells n els0 e k Hn L0 Hk) as O. cbv zeta in O. rewrite X0 in O. exact O.
  Qed.
  Lemma legacy_shows : exists f P g, file_vtk n p prd prf els0 els = Ok f /\ read_vtk f = Some g /\ shows n p prd prf els0 els P g /\
    turns n els0 P g /\ (p = 1%nat -> shows_exactly n p prf els0 els P g).
  Proof.
    destruct (legacy_read n p Hn prd prf els0 els d (collect_ok n Hn p els) (data_consistent n Hn p els els0 Hl)) as [f [F G]].
    exists f, P. eexists. split; [exact F |]. split; [exact G |]. pose proof (shows_gen []) as X. rewrite app_nil_r in X.
    split; [exact X |]. split; [apply turned |]. intros Hp. pose proof (exactly Hp []) as Y. rewrite app_nil_r in Y. exact Y.
  Qed.
  Lemma xml_shows : exists f P g, file_vtu n p prd prf els0 els = Ok f /\ read_vtu f = Some g /\ shows n p prd prf els0 els P g /\
    turns n els0 P g /\ (p = 1%nat -> shows_exactly n p prf els0 els P g) /\ shows_speed n p prf els0 els P g.
  Proof.
    destruct (xml_read n p Hn prd prf els0 els d (collect_ok n Hn p els) (data_consistent n Hn p els els0 Hl)) as [f [F G]].
    exists f, P. eexists. split; [exact F |]. split; [exact G |]. split; [apply shows_gen |]. split; [apply turned |]. split; [intros Hp; apply (exactly Hp) |].
    unfold shows_speed. rewrite tri_def. intros e E0 E i N0 N1 Hi. pose proof (nth_error_nth _ _ none N0) as X0. pose proof (nth_error_nth _ _ none N1) as X1.
    assert (L0 : (e < length els0)%nat) by (apply nth_error_Some; congruence). assert (L1 : (e < length els)%nat) by congruence.
    destruct data_sizes as (D1 & _). assert (B : (e * tri (n + 1) + i < length els * tri (n + 1))%nat) by nia.
    destruct (zp_grid n Hn i Hi) as [r [s [L [Z Ei]]]]. exists (grid n (r, s)). eexists. split; [apply (grid_in n Hn); exact L |]. split; [rewrite Ei, <- X0; apply (point_at n Hn els0 e L0); exact L |]. split.
    - unfold entry_of, vtu_points. cbn [g_point_data map named point_arrays app find fst snd String.eqb Ascii.eqb Bool.eqb].
      rewrite (nth_map _ _ _ (seq 0 (length (d_qp d))) _ 0%nat) by (rewrite seq_length, D1; exact B). rewrite seq_nth by (rewrite D1; exact B). cbn [Nat.add]. reflexivity.
    - pose proof (qp_at n Hn p els e L1 i (V3 0 0 0) Hi) as Q. pose proof (ap_at n Hn p els e L1 i 0 Hi) as A. rewrite Z, X1 in Q, A. fold d in Q, A.
      rewrite values_field in Q. rewrite value_field in A. rewrite Q, A. cbv zeta. unfold velocity. split.
      + intros H. destruct (Req_EM_T _ 0) as [Y | _]; [contradiction | reflexivity].
      + intros H x. destruct (Req_EM_T _ 0) as [_ | Y]; [destruct (Req_EM_T _ 0); discriminate | contradiction].
  Qed.
End N.

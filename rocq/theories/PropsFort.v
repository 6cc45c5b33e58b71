(** C46: ADCIRC mesh files. *)
From Coq Require Import String Reals ZArith NArith List Bool Lia.
From Verif Require Import Outcome ModelStream ModelMeta ModelFort SpecMeta SpecFort LemmasStream LemmasFort LemmasFort2.
Import ListNotations.
Local Open Scope N_scope.

(** What is written can be read: everything but the decimals comes back as it was, and those
    within one part in 10^14. *)
Theorem C46_round_trip : forall f, fort_ok f -> Forall (bars_all normal) (ft_land f) ->
  exists t f', write_fort f = Ok t /\ read_fort t = Ok f' /\ close_fort f' f.
Proof. exact fort_close. Qed.
Print Assumptions C46_round_trip.

(** Decimals of at most 15 digits come back exactly. *)
Theorem C46_exact : forall f, fort_ok f -> Forall (fun n => coordinates_15 (snd n)) (ft_nodes f) -> Forall (bars_all fifteen_digits) (ft_land f) ->
  exists t, write_fort f = Ok t /\ read_fort t = Ok f.
Proof. exact fort_exact. Qed.
Print Assumptions C46_exact.

Definition d15 := to_double.
Definition bay : fort :=
  Fort (lit "bay") [(7, (d15 false 0 0, d15 true 123456789012345 (-120), d15 false 5 0)); (2, (d15 false 1 3, d15 true 123456789012345 (-20), d15 true 25 (-1))); (4, (d15 true 1 (-1), d15 false 5 22, d15 false 1 0))]
    [(1, (3, 7, 2, 4))] (Some 2) [[7; 2]] (Some 5)
    [Plain 20 [2; 4]; Barrier 24 [Bar 2 7 (d15 false 15 (-1)) (d15 false 1 0) (d15 false 8 (-1))]; Plain 77 [4; 7]]
    (Some (Generic (Some 2) [[4; 7]])).
Lemma in_range_check : forall d, ((if (d_man d =? 0)%N then (d_exp d =? 0)%Z else (2 ^ 52 <=? d_man d)%N && (d_man d <? 2 ^ 53)%N) && (-1074 <=? d_exp d)%Z && (d_exp d <=? 971)%Z) = true -> in_range d.
Proof.
  intros d H. apply andb_true_iff in H. destruct H as [H H3]. apply andb_true_iff in H. destruct H as [H H2]. split; [|split; apply Z.leb_le; assumption]. unfold normal.
  destruct (d_man d =? 0)%N eqn:E; [left; split; [apply N.eqb_eq; exact E|apply Z.eqb_eq; exact H]|right]. apply andb_true_iff in H. destruct H as [A B]. split; [apply N.leb_le; exact A|apply N.ltb_lt; exact B].
Qed.
Example C46_bay : fort_ok bay /\ Forall (fun n => coordinates_15 (snd n)) (ft_nodes bay) /\ Forall (bars_all fifteen_digits) (ft_land bay).
Proof.
  split; [|split].
  - unfold fort_ok. split; [split; [discriminate|repeat constructor]|]. split; [discriminate|].
    split; [unfold entries, uints; cbn [bay ft_nodes map fst]; repeat split; repeat (constructor; cbn; try (intuition discriminate)); reflexivity|].
    split; [constructor; [|constructor; [|constructor; [|constructor]]]; (refine (conj _ (conj _ _)); apply in_range_check; vm_compute; reflexivity)|].
    split; [unfold entries, uints; cbn [bay ft_elements map fst]; repeat split; repeat (constructor; cbn; try (intuition discriminate)); reflexivity|].
    split; [repeat constructor|]. split; [exists 2; split; reflexivity|]. split; [reflexivity|]. split; [repeat constructor|]. split; [exists 5; split; reflexivity|]. split; [reflexivity|].
    split; [constructor; [|constructor; [|constructor; [|constructor]]]; cbn [land_ok]; repeat split; auto; repeat constructor|]. exists (Generic (Some 2) [[4; 7]]). split; [reflexivity|]. split; [exists 2; split; reflexivity|]. split; [reflexivity|repeat constructor].
  - cbn [bay ft_nodes]. repeat constructor; cbn [snd coordinates_15]; unfold fifteen_digits; repeat split; eexists _, _, _; (split; [|reflexivity]); reflexivity.
  - cbn [bay ft_land]. repeat constructor; cbn [b_height b_sub b_super]; eexists _, _, _; (split; [|reflexivity]); reflexivity.
Qed.
(** Two fields of 22 characters with no blank between them. *)
Example C46_bay_line : exists a b, print_node (7, (d15 true 123456789012345 (-120), d15 true 123456789012345 (-120), d15 false 5 0)) = lit "7" ++ a ++ b ++ [newline] /\
  a = lit "-1.23456789012345e-106" ++ lit "-1.23456789012345e-106" /\ b = lit "                     5".
Proof. eexists _, _. split; [|split; reflexivity]. vm_compute. reflexivity. Qed.
Example C46_bay_read : (do t <- write_fort bay ; read_fort t) = Ok bay.
Proof. vm_compute. reflexivity. Qed.

(** A mesh file may end after the land boundaries; the mesh read then has no number of generic
    boundaries, and writing it uses the uninitialised one. *)
Definition small (rest : string) : text :=
  lit "bay" ++ [newline] ++ lit "1 3" ++ [newline] ++ lit "1 0 0 1" ++ [newline] ++ lit "2 1 0 1" ++ [newline] ++ lit "3 0 1 1" ++ [newline] ++
  lit "1 3 1 2 3" ++ [newline] ++ lit "0" ++ [newline] ++ lit "0" ++ [newline] ++ lit "1" ++ [newline] ++ lit "2" ++ [newline] ++ lit rest ++ [newline].
Theorem C46_no_generic_refuted : exists t f, read_fort t = Ok f /\ ft_generic f = None /\ write_fort f = UB.
Proof. exists (small "0 0"). eexists. split; [vm_compute; reflexivity|]. split; reflexivity. Qed.
Print Assumptions C46_no_generic_refuted.
(** A title of two words loses the second. *)
Theorem C46_title_refuted : exists f t f', ft_name f = lit "a b" /\ write_fort f = Ok t /\ read_fort t = Ok f' /\ ft_name f' = lit "a".
Proof.
  exists (Fort (lit "a b") [(0, zero_point)] [] (Some 0) [] (Some 0) [] (Some (Generic (Some 0) []))). do 2 eexists. split; [reflexivity|]. split; [reflexivity|].
  split; [vm_compute; reflexivity|reflexivity].
Qed.
Print Assumptions C46_title_refuted.
(** A file that ends too early is accepted and filled up with zeros. *)
Theorem C46_truncated_refuted : exists t f, read_fort t = Ok f /\ ft_land f = [Plain 0 [0; 0; 0; 0; 0]].
Proof. exists (small "5 0"). eexists. split; [vm_compute; reflexivity|reflexivity]. Qed.
Print Assumptions C46_truncated_refuted.
(** Of two nodes with the same number the second is lost without an error. *)
Theorem C46_duplicate_refuted : exists t f, read_fort t = Ok f /\
  ft_nodes f = [(7, (to_double false 1 0, to_double false 1 0, to_double false 1 0))] /\
  t = lit "bay" ++ [newline] ++ lit "0 2" ++ [newline] ++ lit "7 1 1 1" ++ [newline] ++ lit "7 2 2 2" ++ [newline] ++ lit "0" ++ [newline] ++ lit "0" ++ [newline] ++ lit "0" ++ [newline] ++ lit "0" ++ [newline].
Proof.
  exists (lit "bay" ++ [newline] ++ lit "0 2" ++ [newline] ++ lit "7 1 1 1" ++ [newline] ++ lit "7 2 2 2" ++ [newline] ++ lit "0" ++ [newline] ++ lit "0" ++ [newline] ++ lit "0" ++ [newline] ++ lit "0" ++ [newline]).
  eexists. split; [vm_compute; reflexivity|]. split; reflexivity.
Qed.
Print Assumptions C46_duplicate_refuted.
(** A boundary code outside the known ones stops the reading. *)
Example C46_code : read_fort (small "1 3") = Throw.
Proof. vm_compute. reflexivity. Qed.

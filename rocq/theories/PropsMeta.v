(** C38: mesh metadata files. *)
From Coq Require Import String Reals ZArith NArith List Bool Lia Lra.
From Verif Require Import Outcome ModelStream ModelMeta ModelMesh SpecMeta LemmasRound LemmasStream LemmasMeta.
Import ListNotations.
Open Scope N_scope.

(** Name, elements and node ids come back as written; coordinates come back within one part in
    10^14. *)
Theorem C38_round_trip : forall m, word (md_name m) -> writable m ->
  Forall (fun n => let '(x, y, z) := snd n in normal x /\ normal y /\ normal z) (md_nodes m) ->
  exists els nodes, read_meta (write_meta m) = Ok (md_name m, els, nodes) /\ tabulates els (md_elements m) /\
    (forall k p, In (k, p) (md_nodes m) -> exists q, nodes k = Some q /\ close_points q p) /\
    (forall k, ~ In k (map fst (md_nodes m)) -> nodes k = None).
Proof. exact meta_round_trip_close. Qed.
Print Assumptions C38_round_trip.

(** Coordinates that are decimal numbers of at most 15 digits come back exactly. *)
Theorem C38_exact : forall m, word (md_name m) -> writable m -> Forall (fun n => coordinates_15 (snd n)) (md_nodes m) ->
  exists els nodes, read_meta (write_meta m) = Ok (md_name m, els, nodes) /\ tabulates els (md_elements m) /\ tabulates nodes (md_nodes m).
Proof. exact meta_round_trip_exact. Qed.
Print Assumptions C38_exact.

(** Reading twice changes nothing more: the result of a round trip written again reads back the same. *)
Theorem C38_stable : forall m els nodes, word (md_name m) -> writable m -> read_meta (write_meta m) = Ok (md_name m, els, nodes) ->
  exists again, read_meta (write_meta (Metadata (md_name m) (md_elements m) again)) = Ok (md_name m, els, nodes) /\ tabulates nodes again.
Proof. exact meta_stable. Qed.
Print Assumptions C38_stable.

(** The type codes of the program are safe to write as characters. *)
Theorem C38_known_codes : Forall (fun c => c < 256 /\ is_space c = false)
  [bt_land; bt_tide; bt_flow; bt_function; bt_outflow; bt_internal; bt_levee; distributed bt_internal; distributed bt_levee].
Proof. repeat constructor. Qed.
Print Assumptions C38_known_codes.

Definition sample : metadata :=
  Metadata (lit "bay") [(7, Elem [1; 2; 3] [8; 4294967295; 4294967295] [128; 0; 1]); (8, Elem [3; 2; 4] [7; 4294967295; 4294967295] [128; 2; 2])]
    [(1, (to_double false 0 0, to_double false 0 0, to_double true 25 (-1))); (2, (to_double false 1 3, to_double true 123456789012345 (-20), to_double false 1 0));
     (4, (to_double false 1 (-1), to_double false 5 22, to_double false 1 0)); (3, (to_double false 9 2, to_double false 8 2, to_double false 7 0))].
Example C38_sample : word (md_name sample) /\ writable sample /\ Forall (fun n => coordinates_15 (snd n)) (md_nodes sample).
Proof.
  split; [split; [discriminate|repeat constructor]|]. split.
  - unfold writable, entries, uints, sample. cbn [md_elements md_nodes map fst]. repeat split; repeat (constructor; cbn; try (intuition discriminate)); reflexivity.
  - unfold sample. cbn [md_nodes]. repeat constructor; cbn [snd coordinates_15]; unfold fifteen_digits; repeat split; eexists _, _, _; (split; [|reflexivity]); reflexivity.
Qed.
Example C38_sample_read : match read_meta (write_meta sample) with
  | Ok (name, els, nodes) => name = lit "bay" /\ els 8 = Some (Elem [3; 2; 4] [7; 4294967295; 4294967295] [128; 2; 2]) /\ els 9 = None /\
      nodes 2 = Some (to_double false 1 3, to_double true 123456789012345 (-20), to_double false 1 0)
  | _ => False end.
Proof. vm_compute. repeat split. Qed.
Example C38_text : print_double (to_double true 123456789012345 (-20)) = lit "-1.23456789012345e-06" /\ print_double (to_double false 1 (-1)) = lit "0.1".
Proof. vm_compute. split; reflexivity. Qed.

(** A name of two words loses the second. *)
Theorem C38_name_refuted : exists m els nodes, writable m /\ read_meta (write_meta m) = Ok (lit "a", els, nodes) /\ md_name m = lit "a b".
Proof.
  exists (Metadata (lit "a b") [] []). destruct (meta_name_cut (Metadata (lit "a b") [] []) (lit "a") 32 (lit "b")) as (els & nodes & E & _);
    [split; [discriminate|repeat constructor]|reflexivity|discriminate|repeat constructor; discriminate|cbn; lia|reflexivity|repeat constructor|].
  exists els, nodes. split; [repeat constructor|]. split; [exact E|reflexivity].
Qed.
Print Assumptions C38_name_refuted.
(** Without a name the element count is taken for the name and the read runs off the file. *)
Theorem C38_empty_name_refuted : exists m, writable m /\ md_name m = [] /\ read_meta (write_meta m) = UB.
Proof. exists (Metadata [] [] []). split; [repeat constructor|]. split; reflexivity. Qed.
Print Assumptions C38_empty_name_refuted.
(** A type code that is white space as a character is not read back. *)
Theorem C38_code_refuted : exists m name els nodes e, word (md_name m) /\ md_elements m = [(0, e)] /\ e_types e = [32] /\
  read_meta (write_meta m) = Ok (name, els, nodes) /\ option_map e_types (els 0) = Some [49].
Proof.
  exists (Metadata (lit "g") [(0, Elem [5] [6] [32])] [(0, zero_point)]).
  destruct (read_meta (write_meta (Metadata (lit "g") [(0, Elem [5] [6] [32])] [(0, zero_point)]))) as [[[name els] nodes]| |] eqn:E; [|vm_compute in E; discriminate..].
  exists name, els, nodes, (Elem [5] [6] [32]). split; [split; [discriminate|repeat constructor]|]. split; [reflexivity|]. split; [reflexivity|]. split; [reflexivity|].
  vm_compute in E. injection E as _ <- _. reflexivity.
Qed.
Print Assumptions C38_code_refuted.
(** 1 + 2^-52 is read back as 1. *)
Theorem C38_digits_refuted : exists d, normal d /\ reread d = to_double false 1 0 /\ d <> to_double false 1 0.
Proof. exists (Double false 4503599627370497 (-52)). split; [right; split; reflexivity || discriminate|]. split; [vm_compute; reflexivity|vm_compute; discriminate]. Qed.
Print Assumptions C38_digits_refuted.
(** "A damaged file is reported" is false: when the line after the name does not start with a
    number, the element count becomes 0 and the node count is used without a value. *)
Theorem C38_bad_count : forall name c r, word name -> is_space c = false -> is_digit c = false -> c <> 43 -> c <> 45 ->
  read_meta (name ++ newline :: c :: r) = UB.
Proof. exact meta_bad_count. Qed.
Print Assumptions C38_bad_count.

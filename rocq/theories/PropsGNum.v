(** C68: the unknowns of the Green-Naghdi correction are numbered once on the wet part
    of a divided mesh, and the assembled system does not depend on the division. *)
From Coq Require Import NArith List Bool Arith Lia Reals Permutation.
From Verif Require Import Outcome ModelDist ModelComm ModelDofs SpecDofs ModelStep SpecStage ModelGNum SpecGNum SpecGNumS LemmasGNum1 LemmasGNum2 LemmasGNum3 LemmasGNum4 LemmasGNum5.
From Verif Require ModelGN.
Import ListNotations.
Open Scope N_scope.

(** The wet edges are numbered 0, 1, ..., n - 1, in the order of the localities, units and
    edges that give the numbers, whatever was stored before; every half with a wet side
    knows the number of its edge. *)
Theorem C68_numbering : forall wet rs, divided wet rs -> few rs ->
  exists res n num, renumber_all wet rs = Ok (res, n) /\ numbering_of wet rs num n /\ renumbered wet rs res num /\
    map (fun e => i_glob (snd e)) (filter (fun e => numbers wet (fst e)) (entries_of (map fst res))) = upto n.
Proof. exact numbering_ok. Qed.
Print Assumptions C68_numbering.

(** The numbering of the preprocessor: nothing is dry, and every edge can be read. *)
Theorem C68_first : forall rs, divided (fun _ => true) rs -> few rs ->
  exists res n num, first_numbers rs = Ok (res, n) /\ numbering_of (fun _ => true) rs num n /\ renumbered (fun _ => true) rs res num /\
    forall us v X, In (us, v) res -> read_traces (scatter X v) us = Ok (map (fun e => X (num (i_edge (fst e)))) (concat us)) /\ (concat us <> [] -> index_set v <> UB).
Proof. exact first_ok. Qed.
Print Assumptions C68_first.

(** On the undivided mesh the numbers are those of the serial solver of C58. *)
Theorem C68_serial : forall m, faces_once m -> forall wet mem, divided wet (undivided m mem) /\ forall nb, few (undivided m mem) ->
  let nb' := ModelGN.renumber m true wet nb in
  exists res num, renumber_all wet (undivided m mem) = Ok (res, N.of_nat (ModelGN.n_count nb')) /\
    numbering_of wet (undivided m mem) num (N.of_nat (ModelGN.n_count nb')) /\ renumbered wet (undivided m mem) res num /\
    forall x, In x (ModelGN.numbered_edges m) -> ModelGN.wet_edge wet (snd x) = true ->
      num (fst x) = N.of_nat (ModelGN.n_edge nb' (fst x)) /\
      forall s, In s (ModelGN.ge_sides (snd x)) -> num (fst x) = N.of_nat (ModelGN.n_face nb' (ModelGN.s_e s) (ModelGN.s_b s)).
Proof. exact (fun m H wet mem => conj (undivided_ok m H wet mem) (serial_numbers m H wet mem)). Qed.
Print Assumptions C68_serial.

(** Row of the matrix and entry of the right hand side of a wet edge: one term per wet
    side of the edge on the whole mesh. *)
Theorem C68_rows : forall wet rs res num n own con rh X at_, divided wet rs -> numbering_of wet rs num n -> renumbered wet rs res num ->
  (forall s j, edge_at rs s j -> wet_edge wet rs j -> at_ s = X (num j)) -> forall k, wet_edge wet rs k ->
  row_times (matrix wet own con (all_units res)) X (num k) = edge_equation wet rs own con at_ k /\
  row_rhs (right_side wet rh (all_units res)) (num k) = sum_of rh (filter (fun s => wet (fst s)) (sides_of rs k)).
Proof. exact rows_ok. Qed.
Print Assumptions C68_rows.

(** Two divisions of one mesh, of which one may be the undivided mesh. *)
Theorem C68_same_solutions : forall wet P Q, divided wet P -> divided wet Q -> few P -> few Q -> same_mesh P Q ->
  exists resP resQ n numP numQ, renumber_all wet P = Ok (resP, n) /\ renumber_all wet Q = Ok (resQ, n) /\
    numbering_of wet P numP n /\ renumbered wet P resP numP /\ numbering_of wet Q numQ n /\ renumbered wet Q resQ numQ /\
    forall own con rh X Y, (forall k, wet_edge wet P k -> X (numP k) = Y (numQ k)) ->
      (solves (matrix wet own con (all_units resP)) (right_side wet rh (all_units resP)) n X <->
       solves (matrix wet own con (all_units resQ)) (right_side wet rh (all_units resQ)) n Y).
Proof. exact same_solutions. Qed.
Print Assumptions C68_same_solutions.

(** What a half with a wet side reads from the local solution is the value of its edge. *)
Theorem C68_read_back : forall wet rs res num X us v e, renumbered wet rs res num -> In (us, v) res -> In e (concat us) ->
  (exists s, In s (i_slots (fst e)) /\ wet (fst s) = true) -> read_trace (scatter X v) e = Ok (X (num (i_edge (fst e)))).
Proof. exact trace_read. Qed.
Print Assumptions C68_read_back.

(** MatCreateBAIJ reserves five blocks per row, of them four for other localities: enough. *)
Theorem C68_row_room : forall wet rs res num n own con k, divided wet rs -> numbering_of wet rs num n -> renumbered wet rs res num -> wet_edge wet rs k ->
  (length (sides_of rs k) <= 2)%nat -> (forall s, In s (sides_of rs k) -> (snd s < 3)%nat) ->
  exists c, (length c <= 4)%nat /\ forall w, In w (matrix wet own con (all_units res)) -> fst (fst w) = num k -> snd (fst w) = num k \/ In (snd (fst w)) c.
Proof. exact row_room. Qed.
Print Assumptions C68_row_room.

(** ** Where it fails *)

(** Every edge of the unit is read, also those that keep an old place. *)
Theorem C68_stale_place : forall X v us e, In e (concat us) -> N.of_nat (length v) <= i_loc (snd e) -> read_traces (scatter X v) us = UB.
Proof. exact read_past_end. Qed.
Print Assumptions C68_stale_place.

(** A strip of three elements 0, 1, 2 on two localities, the second with two units; [mem]
    gives what is stored for the edge of a face. *)
Definition strip (wet : nat -> bool) (mem : slot -> ids) : list (list gunit) :=
  let en (it : item) (s : slot) : entry := (it, mem s) in
  [[[en (Bnd 2 (0, 1)) (0, 1); en (Bnd 3 (0, 2)) (0, 2); en (Cut 0 (0, 0) (0%N, 0%N) (1%N, 0%N) (wet 1)) (0, 0)]];
   [[en (Bnd 4 (1, 2)) (1, 2); en (Cut 0 (1, 0) (1%N, 0%N) (0%N, 0%N) (wet 0)) (1, 0); en (Cut 1 (1, 1) (1%N, 0%N) (1%N, 1%N) (wet 2)) (1, 1)];
    [en (Bnd 5 (2, 1)) (2, 1); en (Bnd 6 (2, 2)) (2, 2); en (Cut 1 (2, 0) (1%N, 1%N) (1%N, 0%N) (wet 1)) (2, 0)]]]%nat.
Definition whole (mem : slot -> ids) : list (list gunit) :=
  let en (it : item) (s : slot) : entry := (it, mem s) in
  [[[en (Int 0 (0, 0) (1, 0)) (0, 0); en (Int 1 (1, 1) (2, 0)) (1, 1); en (Bnd 2 (0, 1)) (0, 1); en (Bnd 3 (0, 2)) (0, 2); en (Bnd 4 (1, 2)) (1, 2);
     en (Bnd 5 (2, 1)) (2, 1); en (Bnd 6 (2, 2)) (2, 2)]]]%nat.
Definition blank (s : slot) : ids := Ids 0 0 0.
Definition stored (res : list (list gunit * list N)) (s : slot) : ids :=
  match find (has_slot s) (entries_of (map fst res)) with Some e => snd e | None => Ids 0 0 0 end.

Ltac slots := cbn; repeat constructor; cbn; intuition discriminate.
Lemma strip_divided : forall wet mem, divided wet (strip wet mem).
Proof.
  intros wet mem. split; [slots|]. split; [slots|]. split.
  - intros k a i x wn H. cbn in H. repeat destruct H as [H|H]; try discriminate H; try (destruct H; fail); injection H as <- <- <- <- <-; (split; [discriminate|]).
    + exists (1, 0)%nat, (wet 0%nat). cbn. intuition.
    + exists (0, 0)%nat, (wet 1%nat). cbn. intuition.
    + exists (2, 0)%nat, (wet 1%nat). cbn. intuition.
    + exists (1, 1)%nat, (wet 2%nat). cbn. intuition.
  - intros us u e s f Hu Hv He Hs Hf. assert (F : f = 0%nat \/ f = 1%nat \/ f = 2%nat) by lia.
    cbn in Hu. destruct Hu as [<-|[<-|[]]]; cbn in Hv; repeat destruct Hv as [<-|Hv]; try (destruct Hv; fail);
      cbn in He; repeat destruct He as [<-|He]; try (destruct He; fail); cbn in Hs; destruct Hs as [<-|[]]; cbn [fst];
      destruct F as [->|[->| ->]]; 
      first [eexists; split; [left; reflexivity|left; reflexivity]|eexists; split; [right; left; reflexivity|left; reflexivity]
            |eexists; split; [right; right; left; reflexivity|left; reflexivity]].
Qed.
Lemma strip_first : forall wet mem, divided (fun _ => true) (strip wet mem).
Proof.
  intros wet mem. split; [slots|]. split; [slots|]. split.
  - intros k a i x wn H. cbn in H. repeat destruct H as [H|H]; try discriminate H; try (destruct H; fail); injection H as <- <- <- <- <-; (split; [discriminate|]).
    + exists (1, 0)%nat, (wet 0%nat). cbn. intuition discriminate.
    + exists (0, 0)%nat, (wet 1%nat). cbn. intuition discriminate.
    + exists (2, 0)%nat, (wet 1%nat). cbn. intuition discriminate.
    + exists (1, 1)%nat, (wet 2%nat). cbn. intuition discriminate.
  - intros us u e s f Hu Hv He Hs Hf. assert (F : f = 0%nat \/ f = 1%nat \/ f = 2%nat) by lia.
    cbn in Hu. destruct Hu as [<-|[<-|[]]]; cbn in Hv; repeat destruct Hv as [<-|Hv]; try (destruct Hv; fail);
      cbn in He; repeat destruct He as [<-|He]; try (destruct He; fail); cbn in Hs; destruct Hs as [<-|[]]; cbn [fst];
      destruct F as [->|[->| ->]]; 
      first [eexists; split; [left; reflexivity|left; reflexivity]|eexists; split; [right; left; reflexivity|left; reflexivity]
            |eexists; split; [right; right; left; reflexivity|left; reflexivity]].
Qed.
Lemma whole_divided : forall wet mem, divided wet (whole mem).
Proof.
  intros wet mem. split; [slots|]. split; [slots|]. split.
  - intros k a i x wn H. cbn in H. repeat destruct H as [H|H]; try discriminate H. destruct H.
  - intros us u e s f Hu Hv He Hs Hf. assert (F : f = 0%nat \/ f = 1%nat \/ f = 2%nat) by lia.
    cbn in Hu. destruct Hu as [<-|[]]. cbn in Hv. destruct Hv as [<-|[]].
    assert (E : fst s = 0%nat \/ fst s = 1%nat \/ fst s = 2%nat).
    { clear - He Hs. cbn in He. repeat destruct He as [<-|He]; try (destruct He; fail); cbn in Hs; repeat destruct Hs as [<-|Hs]; try (destruct Hs; fail); cbn; intuition. }
    clear He.
    assert (G : forall s, In s [(0, 0); (0, 1); (0, 2); (1, 0); (1, 1); (1, 2); (2, 0); (2, 1); (2, 2)]%nat -> exists e', In e' (nth 0 (nth 0 (whole mem) []) []) /\ In s (i_slots (fst e'))).
    { clear. intros s H. cbn in H. repeat destruct H as [<-|H]; try (destruct H; fail); cbn;
        [exists (Int 0 (0, 0) (1, 0), mem (0, 0))%nat|exists (Bnd 2 (0, 1), mem (0, 1))%nat|exists (Bnd 3 (0, 2), mem (0, 2))%nat
        |exists (Int 0 (0, 0) (1, 0), mem (0, 0))%nat|exists (Int 1 (1, 1) (2, 0), mem (1, 1))%nat|exists (Bnd 4 (1, 2), mem (1, 2))%nat
        |exists (Int 1 (1, 1) (2, 0), mem (1, 1))%nat|exists (Bnd 5 (2, 1), mem (2, 1))%nat|exists (Bnd 6 (2, 2), mem (2, 2))%nat]; cbn; intuition. }
    apply G. clear G Hf.
    destruct E as [->|[->| ->]], F as [->|[->| ->]]; cbn; intuition.
Qed.
Lemma strip_whole : forall wet mem mem', same_mesh (strip wet mem) (whole mem').
Proof.
  intros wet mem mem' k. do 7 (destruct k as [|k]; [cbn; apply Permutation_refl|]). cbn. apply Permutation_refl.
Qed.

(** Element 0 dry: edge 0 between the localities is numbered by the dry side. *)
Definition two_wet (e : nat) : bool := negb (Nat.eqb e 0).
Example C68_ex_dry_half : exists res, renumber_all two_wet (strip two_wet blank) = Ok (res, 5) /\
  map (fun r => snd r) res = [[]; [1; 0; 2; 3; 4; 2]] /\
  map (fun e => (i_edge (fst e), i_glob (snd e), i_loc (snd e))) (entries_of (map fst res)) =
    [(2%nat, 0, 0); (3%nat, 0, 0); (0%nat, 0, 0); (4%nat, 1, 0); (0%nat, 0, 1); (1%nat, 2, 2); (5%nat, 3, 3); (6%nat, 4, 4); (1%nat, 2, 5)].
Proof. eexists. split; [vm_compute; reflexivity|]. split; reflexivity. Qed.
(** Before the first exchange the flags of the neighbours are false: of no account. *)
Example C68_ex_first : divided (fun _ => true) (strip (fun _ => false) blank) /\ few (strip (fun _ => false) blank) /\
  exists res, first_numbers (strip (fun _ => false) blank) = Ok (res, 7) /\ map (fun r => snd r) res = [[0; 1; 2]; [3; 2; 4; 5; 6; 4]].
Proof. split; [exact (strip_first (fun _ => false) blank)|]. split; [reflexivity|]. eexists. split; [vm_compute; reflexivity|reflexivity]. Qed.
(** All wet, then on the undivided mesh. *)
Example C68_ex_all_wet : exists res res', renumber_all (fun _ => true) (strip (fun _ => true) blank) = Ok (res, 7) /\
  map (fun r => snd r) res = [[0; 1; 2]; [3; 2; 4; 5; 6; 4]] /\
  renumber_all (fun _ => true) (whole blank) = Ok (res', 7) /\ map (fun r => snd r) res' = [[0; 1; 2; 3; 4; 5; 6]].
Proof. do 2 eexists. split; [vm_compute; reflexivity|]. split; [reflexivity|]. split; [vm_compute; reflexivity|reflexivity]. Qed.
(** The example is a division of the undivided mesh, so the theorems apply to it. *)
Example C68_ex_same : forall wet, divided wet (strip wet blank) /\ divided wet (whole blank) /\ same_mesh (strip wet blank) (whole blank) /\ few (strip wet blank) /\ few (whole blank).
Proof. exact (fun wet => conj (strip_divided wet blank) (conj (whole_divided wet blank) (conj (strip_whole wet blank blank) (conj eq_refl eq_refl)))). Qed.
(** Row of edge 1 (number 2): blocks from both units that hold a half of it. *)
Example C68_ex_row : exists res, renumber_all two_wet (strip two_wet blank) = Ok (res, 5) /\
  map fst (filter (fun w => fst (fst w) =? 2) (matrix two_wet (fun _ => 1%R) (fun _ _ => 1%R) (all_units res))) = [(2, 2); (2, 0); (2, 1); (2, 2); (2, 3); (2, 4)].
Proof. eexists. split; [vm_compute; reflexivity|vm_compute; reflexivity]. Qed.

(** A locality without a wet edge takes the front of an empty vector. *)
Theorem C68_empty_refuted : exists wet rs res n us v, divided wet rs /\ few rs /\ renumber_all wet rs = Ok (res, n) /\ In (us, v) res /\ index_set v = UB.
Proof.
  exists two_wet, (strip two_wet blank). do 4 eexists. split; [exact (strip_divided two_wet blank)|]. split; [reflexivity|]. split; [vm_compute; reflexivity|].
  split; [left; reflexivity|reflexivity].
Qed.
Print Assumptions C68_empty_refuted.

(** All wet at first, then element 2 dry: its edges keep their places, past the end. *)
Definition first_two (e : nat) : bool := Nat.ltb e 2.
Definition first_res : list (list gunit * list N) := match renumber_all (fun _ => true) (strip (fun _ => true) blank) with Ok p => fst p | _ => [] end.
Theorem C68_dry_refuted : exists rs0 rs res0 n0 res n us v, divided (fun _ => true) rs0 /\ divided first_two rs /\ few rs /\
  renumber_all (fun _ => true) rs0 = Ok (res0, n0) /\ rs = strip first_two (stored res0) /\ renumber_all first_two rs = Ok (res, n) /\
  In (us, v) res /\ v <> [] /\ forall X, read_traces (scatter X v) us = UB.
Proof.
  exists (strip (fun _ => true) blank), (strip first_two (stored first_res)), first_res. do 5 eexists. split; [exact (strip_divided (fun _ => true) blank)|]. split; [exact (strip_divided first_two (stored first_res))|].
  split; [reflexivity|]. split; [vm_compute; reflexivity|]. split; [reflexivity|]. split; [vm_compute; reflexivity|]. split; [right; left; reflexivity|]. split; [discriminate|].
  intros X. eapply C68_stale_place; [right; right; right; left; reflexivity|]. vm_compute. discriminate.
Qed.
Print Assumptions C68_dry_refuted.

(** The flag of the other side is needed: a dry half that takes its wet neighbour for dry
    gives no number, and the neighbour reads a message nobody wrote. *)
Theorem C68_flag_needed : renumber_all two_wet (strip (fun _ => false) blank) = UB.
Proof. reflexivity. Qed.
Print Assumptions C68_flag_needed.

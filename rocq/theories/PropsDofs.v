(** Properties of the numbering of global unknowns: C33. *)
From Coq Require Import NArith List Bool Arith Permutation Lia.
From Verif Require Import Outcome ModelDist ModelComm ModelDofs SpecDofs LemmasDofs LemmasDofs2 LemmasDofs3.
Import ListNotations.
Open Scope N_scope.

(** All localities and submeshes: the owned blocks are 0, 1, ..., N - 1 in order (so
    disjoint and covering), every edge has a contiguous block of three unknowns per
    degree of freedom, and both sides of a distributed edge hold the same block. *)
Theorem C33_global_numbering : forall ls, total_unknowns ls < 2 ^ 32 -> edges_matched ls ->
  exists res, number_all ls = Ok (res, total_unknowns ls) /\
    concat (run_blocks ls res) = upto (total_unknowns ls) /\
    (forall p u, unit_at ls p u -> exists n, numbering_at res p n /\
       Forall2 (fun nd b => contiguous b (3 * nd)) (u_int u) (n_int n) /\
       Forall2 (fun nd b => contiguous b (3 * nd)) (u_bnd u) (n_bnd n) /\
       Forall2 (fun e b => contiguous b (3 * g_ndof e)) (u_dist u) (n_dist n)) /\
    (forall p u n i e b, unit_at ls p u -> numbering_at res p n -> nth_error (u_dist u) i = Some e -> nth_error (n_dist n) i = Some b ->
       exists u' n' i' e', unit_at ls (g_ex e) u' /\ numbering_at res (g_ex e) n' /\ nth_error (u_dist u') i' = Some e' /\
         g_ex e' = p /\ g_pos e' = g_pos e /\ nth_error (n_dist n') i' = Some b).
Proof. exact run_ok. Qed.
Print Assumptions C33_global_numbering.

Theorem C33_serial_numbering : forall u, 3 * sumN (u_int u) + 3 * sumN (u_bnd u) < 2 ^ 32 ->
  exists n, number_serial u 0 = (n, 3 * sumN (u_int u) + 3 * sumN (u_bnd u)) /\
    concat (n_int n ++ n_bnd n) = upto (3 * sumN (u_int u) + 3 * sumN (u_bnd u)) /\
    Forall2 (fun nd b => contiguous b (3 * nd)) (u_int u) (n_int n) /\ Forall2 (fun nd b => contiguous b (3 * nd)) (u_bnd u) (n_bnd n).
Proof. exact serial_ok. Qed.
Print Assumptions C33_serial_numbering.

(** sol_offset of an edge points at its block in the local list of indices. *)
Theorem C33_solution_offsets : forall ns, snd (collect ns) = concat (map (fun n => concat (all_edges n)) ns) /\
  Forall2 (fun os n => Forall2 (fun o b => slice (snd (collect ns)) o b) os (all_edges n)) (fst (collect ns)) ns.
Proof. exact collect_ok. Qed.
Print Assumptions C33_solution_offsets.

(** On every locality but the first, .front() is called on an empty vector. *)
Theorem C33_front_of_empty_refuted : exists locality n, locality < n /\ front (gather_vector locality n) = UB.
Proof. exact (ex_intro _ 1 (ex_intro _ 2 (conj eq_refl eq_refl))). Qed.
Print Assumptions C33_front_of_empty_refuted.

(** Two localities, the first with two submeshes. *)
Definition dofs_ex : list (list dunit) :=
  [[DUnit [2] [1] [DEdge 2 (0, 0) (1, 0) 0; DEdge 2 (0, 0) (0, 1) 0];
    DUnit [] [2; 2] [DEdge 2 (0, 1) (0, 0) 0]];
   [DUnit [1; 1] [] [DEdge 2 (1, 0) (0, 0) 0]]].
Example dofs_ex_run : number_all dofs_ex = Ok (
  [[Numbering [[0;1;2;3;4;5]] [[6;7;8]] [[9;10;11;12;13;14]; [15;16;17;18;19;20]];
    Numbering [] [[21;22;23;24;25;26]; [27;28;29;30;31;32]] [[15;16;17;18;19;20]]];
   [Numbering [[33;34;35]; [36;37;38]] [] [[9;10;11;12;13;14]]]], 39).
Proof. reflexivity. Qed.
Example dofs_ex_matched : edges_matched dofs_ex.
Proof.
  split.
  - intros [r l] u e (us & H1 & H2) He. cbn [fst snd] in *.
    destruct (N.to_nat r) as [|[|[|]]] eqn:Er; cbn in H1; try discriminate; injection H1 as <-;
    destruct (N.to_nat l) as [|[|[|]]] eqn:El; cbn in H2; try discriminate; injection H2 as <-;
    assert (r = N.of_nat (N.to_nat r)) by lia; assert (l = N.of_nat (N.to_nat l)) by lia; rewrite Er in *; rewrite El in *; cbn in H, H0; subst r l; cbn in He.
    + destruct He as [<-|[<-|[]]]; (split; [reflexivity|]; split; [discriminate|]; split; [reflexivity|]).
      * eexists _, _. split; [eexists; split; reflexivity|]. split; [left; reflexivity|]. auto.
      * eexists _, _. split; [eexists; split; reflexivity|]. split; [left; reflexivity|]. auto.
    + destruct He as [<-|[]]; (split; [reflexivity|]; split; [discriminate|]; split; [reflexivity|]).
      eexists _, _. split; [eexists; split; reflexivity|]. split; [right; left; reflexivity|]. auto.
    + destruct He as [<-|[]]; (split; [reflexivity|]; split; [discriminate|]; split; [reflexivity|]).
      eexists _, _. split; [eexists; split; reflexivity|]. split; [left; reflexivity|]. auto.
  - intros [r l] u (us & H1 & H2). cbn [fst snd] in *.
    destruct (N.to_nat r) as [|[|[|]]]; cbn in H1; try discriminate; injection H1 as <-;
    destruct (N.to_nat l) as [|[|[|]]]; cbn in H2; try discriminate; injection H2 as <-; cbn; repeat constructor; cbn; intuition discriminate.
Qed.

(** C34: static condensation. *)
From Coq Require Import Reals QArith List Arith Bool Lia Lra Permutation ClassicalEpsilon.
From Verif Require Import Num Outcome ModelSWE ModelCond SpecStepper SpecStep SpecCond LemmasRK LemmasStep LemmasCond LemmasCond2 LemmasCond3.
Import ListNotations.
Open Scope R_scope.

(** The condensed matrix and right-hand side: a trace update solves them exactly when it is
    part of a solution of the coupled system. *)
Theorem C34_condensed_system : forall sk inv, well_formed sk ->
  (forall K, (K < s_nelt sk)%nat -> two_sided (3 * e_ndof (s_elt sk K)) (e_delta (s_elt sk K)) (inv K)) ->
  exists w ts, assemble sk inv = Ok (w, ts) /\ in_range (s_size sk) ts = true /\
    forall x, solves (s_size sk) (entry ts) w x <-> exists dq, full_system sk dq x.
Proof. exact condensation_equivalent. Qed.
Print Assumptions C34_condensed_system.

(** The whole routine: the updates added to the states solve the coupled system. *)
Theorem C34_newton_update : forall inverse solve_sle sk, inverse_ok inverse -> solver_ok solve_sle -> well_formed sk ->
  invertible_blocks (s_nelt sk) (s_elt sk) -> uniquely_solvable sk ->
  exists res dq x, serial_solve_global_problem inverse solve_sle sk = Ok res /\ full_system sk dq x /\
    q_updated (s_nelt sk) (s_elt sk) (r_q res) dq /\
    Forall2 (fun e qh => qhat_updated (snd e) qh x) (s_int sk) (r_int res) /\
    Forall2 (fun e qh => qhat_updated (snd e) qh x) (s_bnd sk) (r_bnd res) /\
    conv_spec (s_size sk) x (r_conv res).
Proof. exact newton_update. Qed.
Print Assumptions C34_newton_update.

(** The distributed assembly: two half edges act as the one edge of the undivided mesh. *)
Theorem C34_distributed_condensed_system : forall size nelt els us pairs, whole_ok size nelt els us pairs -> forall inv,
  (forall K, (K < nelt)%nat -> two_sided (3 * e_ndof (els K)) (e_delta (els K)) (inv K)) ->
  in_range size (snd (ompi_assemble els inv us)) = true /\
  forall x, solves size (entry (snd (ompi_assemble els inv us))) (fst (ompi_assemble els inv us)) x <->
    exists dq, whole_system nelt els us pairs dq x.
Proof. exact ompi_equivalent. Qed.
Print Assumptions C34_distributed_condensed_system.

Theorem C34_distributed_newton_update : forall size nelt els us pairs, whole_ok size nelt els us pairs ->
  forall inverse ksp_solve, inverse_ok inverse -> solver_ok ksp_solve -> invertible_blocks nelt els ->
  (exists dq x, whole_system nelt els us pairs dq x) ->
  (forall dq x dq' x', whole_system nelt els us pairs dq x -> whole_system nelt els us pairs dq' x' -> same_update nelt els size dq dq' x x') ->
  exists res dq x, ompi_solve_global_problem inverse ksp_solve size els us = Ok res /\ whole_system nelt els us pairs dq x /\
    q_updated nelt els (o_q res) dq /\
    Forall2 (fun u qs => Forall2 (fun e qh => qhat_updated (snd e) qh x) (u_ints u) qs) us (o_int res) /\
    Forall2 (fun u qs => Forall2 (fun e qh => qhat_updated (snd e) qh x) (u_bnds u) qs) us (o_bnd res) /\
    Forall2 (fun u qs => Forall2 (fun e qh => qhat_updated (snd e) qh x) (u_dists u) qs) us (o_dist res) /\
    conv_spec size x (o_conv res).
Proof. exact ompi_update. Qed.
Print Assumptions C34_distributed_newton_update.

(** ** A concrete system: two elements joined by an interface, one boundary edge on the first.
    All blocks are multiples of the identity; the right-hand sides belong to the solution
    dq0 = a, dq1 = b, interface trace c, boundary trace d. *)
Definition ident {T} {N : Num T} (s : T) (i j : nat) : T := if Nat.eqb i j then s else nofZ 0.
Definition two_elements {T} {N : Num T} (a b c d : T) : skeleton T :=
  let one := nofZ 1 in
  let k := fun z x => nmul (nofZ z) x in
  let e0 := Elt 1 (ident (nofZ 2)) (fun _ => nadd (k 2%Z a) (nadd c d)) 2
              (fun s => BData (ident one) (ident one) (if Nat.eqb s 0 then [0; 1; 2]%nat else [3; 4; 5]%nat)) (fun _ _ => nofZ 10) in
  let e1 := Elt 1 (ident one) (fun _ => nadd b c) 1 (fun _ => BData (ident one) (ident one) [0; 1; 2]%nat) (fun _ _ => nofZ 20) in
  Skel 2 (fun K => if Nat.eqb K 0 then e0 else e1)
    [((0, 0)%nat, (1, 0)%nat, Edge 1 (ident (nofZ 4)) (fun _ => nadd (nadd a b) (k 4%Z c)) [0; 1; 2]%nat (fun _ _ => nofZ 30))]
    [((0, 1)%nat, Edge 1 (ident (nofZ 3)) (fun _ => nadd a (k 3%Z d)) [3; 4; 5]%nat (fun _ _ => nofZ 40))] 6 (fun _ => nofZ 7).

Lemma two_elements_wf : forall a b c d, well_formed (two_elements a b c d).
Proof.
  intros. split; [|reflexivity]. split; [cbn; apply perm_skip; apply perm_swap|].
  intros sides ed [H|[H|[]]]; injection H as <- <-; (split; [cbn; lia|]; split; [reflexivity|]).
  - intros s [<-|[<-|[]]]; reflexivity.
  - intros s [<-|[]]; reflexivity.
Qed.

Lemma two_elements_system : forall a b c d dq x, full_system (two_elements a b c d) dq x <->
  forall i, (i < 3)%nat -> 2 * dq 0%nat i + (x i + x (3 + i)%nat) = 2 * a + (c + d) /\ dq 1%nat i + x i = b + c /\
    dq 0%nat i + dq 1%nat i + 4 * x i = a + b + 4 * c /\ dq 0%nat i + 3 * x (3 + i)%nat = a + 3 * d.
Proof.
  intros a b c d dq x. split.
  - intros [HE HD] i Hi.
    pose proof (HE 0%nat i ltac:(cbn; lia) ltac:(cbn; lia)) as E0. pose proof (HE 1%nat i ltac:(cbn; lia) ltac:(cbn; lia)) as E1.
    pose proof (HD _ _ i (or_introl eq_refl) ltac:(cbn; lia)) as D0. pose proof (HD _ _ i (or_intror (or_introl eq_refl)) ltac:(cbn; lia)) as D1.
    unfold lsum, side_term, trace_term in D0, D1. destruct i as [|[|[|i]]]; [| | |lia]; cbn in E0, E1, D0, D1; repeat split; cbn; lra.
  - intros H. pose proof (H 0%nat ltac:(lia)) as H0. pose proof (H 1%nat ltac:(lia)) as H1. pose proof (H 2%nat ltac:(lia)) as H2. cbn in H0, H1, H2. split.
    + intros K i HK Hi. destruct K as [|[|K]]; [| |cbn in HK; lia]; destruct i as [|[|[|i]]]; try (cbn in Hi; lia); cbn; lra.
    + intros sides ed i [E|[E|[]]] Hi; injection E as <- <-; unfold lsum, side_term, trace_term; destruct i as [|[|[|i]]]; try (cbn in Hi; lia); cbn; lra.
Qed.

Lemma two_elements_solution : forall a b c d dq x, full_system (two_elements a b c d) dq x <->
  forall i, (i < 3)%nat -> dq 0%nat i = a /\ dq 1%nat i = b /\ x i = c /\ x (3 + i)%nat = d.
Proof.
  intros. rewrite two_elements_system. split; intros H i Hi; destruct (H i Hi) as (H1 & H2 & H3 & H4); repeat split; lra.
Qed.

Lemma two_elements_unique : forall a b c d, uniquely_solvable (two_elements a b c d).
Proof.
  intros a b c d. split.
  - exists (fun K _ => if Nat.eqb K 0 then a else b), (fun r => if Nat.ltb r 3 then c else d). apply two_elements_solution.
    intros [|[|[|i]]] Hi; try lia; auto.
  - intros dq x dq' x' F F'. pose proof (proj1 (two_elements_solution _ _ _ _ _ _) F) as G. pose proof (proj1 (two_elements_solution _ _ _ _ _ _) F') as G'. split.
    + intros K HK i Hi. destruct K as [|[|K]]; [| |cbn in HK; lia]; cbn in Hi; destruct (G i ltac:(lia)) as (? & ? & _), (G' i ltac:(lia)) as (? & ? & _); congruence.
    + intros r Hr. change (s_size (two_elements a b c d)) with 6%nat in Hr. destruct (le_lt_dec 3 r).
      * replace r with (3 + (r - 3))%nat by lia. destruct (G (r - 3)%nat ltac:(lia)) as (_ & _ & _ & ->), (G' (r - 3)%nat ltac:(lia)) as (_ & _ & _ & ->). reflexivity.
      * destruct (G r ltac:(lia)) as (_ & _ & -> & _), (G' r ltac:(lia)) as (_ & _ & -> & _). reflexivity.
Qed.

Lemma two_elements_blocks : forall a b c d, invertible_blocks 2 (s_elt (two_elements a b c d)).
Proof.
  intros a b c d K HK. destruct K as [|[|K]]; [exists (ident (/ 2))|exists (ident 1)|lia];
    intros i j Hi Hj; destruct i as [|[|[|i]]], j as [|[|[|j]]]; try (cbn in Hi, Hj; lia); cbn; lra.
Qed.

(** Every correct pair of library routines gives the solution. *)
Lemma two_elements_run : forall inverse solve, inverse_ok inverse -> solver_ok solve -> forall a b c d,
  exists res, serial_solve_global_problem inverse solve (two_elements a b c d) = Ok res /\
    (forall var, (var < 3)%nat -> r_q res 0%nat var 0%nat = 10 + a /\ r_q res 1%nat var 0%nat = 20 + b) /\
    conv_spec 6 (fun r => if Nat.ltb r 3 then c else d) (r_conv res).
Proof.
  intros inverse solve HI HS a b c d.
  destruct (C34_newton_update inverse solve _ HI HS (two_elements_wf a b c d) (two_elements_blocks a b c d) (two_elements_unique a b c d))
    as (res & dq & x & E & F & Q & _ & _ & C).
  pose proof (proj1 (two_elements_solution _ _ _ _ _ _) F) as G. exists res. split; [exact E|]. split.
  - intros var Hv. destruct (G var Hv) as (G1 & G2 & _ & _). rewrite (Q 0%nat var 0%nat), (Q 1%nat var 0%nat) by (cbn; lia). cbn [Nat.mul Nat.add].
    rewrite G1, G2. split; reflexivity.
  - unfold conv_spec in *. rewrite C. change (s_size _) with 6%nat. rewrite (rsum_ext 6 (fun r => x r * x r) (fun r => (if Nat.ltb r 3 then c else d) * (if Nat.ltb r 3 then c else d))); [tauto|].
    intros r Hr. destruct (Nat.ltb_spec r 3) as [H|H].
    + destruct (G r H) as (_ & _ & -> & _). reflexivity.
    + replace r with (3 + (r - 3))%nat by lia. destruct (G (r - 3)%nat ltac:(lia)) as (_ & _ & _ & ->). reflexivity.
Qed.

(** Routines meeting the contracts exist. *)
Lemma contracts_met : exists inverse solve, inverse_ok inverse /\ solver_ok solve.
Proof.
  exists (fun n A => epsilon (inhabits (fun _ _ => 0)) (two_sided n A)), (fun n M b => epsilon (inhabits (fun _ => 0)) (solves n M b)). split.
  - intros n A H. apply epsilon_spec. exact H.
  - intros n M b (x & H & _). apply epsilon_spec. eauto.
Qed.
Example two_elements_solved : exists inverse solve res,
  serial_solve_global_problem inverse solve (two_elements 1 2 3 4) = Ok res /\ r_q res 0%nat 2%nat 0%nat = 11 /\ r_q res 1%nat 0%nat 0%nat = 22.
Proof.
  destruct contracts_met as (inverse & solve & HI & HS). destruct (two_elements_run inverse solve HI HS 1 2 3 4) as (res & E & Q & _).
  exists inverse, solve, res. split; [exact E|]. destruct (Q 2%nat ltac:(lia)) as [-> _], (Q 0%nat ltac:(lia)) as [_ ->]. lra.
Qed.

(** The same numbers through the executable model, rationals, with a solver for this matrix only. *)
Definition diag_inverse (n : nat) (A : nat -> nat -> Q) (i j : nat) : Q := if Nat.eqb i j then (1 / A i i)%Q else 0%Q.
Definition pair_solve (n : nat) (M : nat -> nat -> Q) (b : nat -> Q) (r : nat) : Q :=
  let i := (r mod 3)%nat in let j := (i + 3)%nat in
  let det := (M i i * M j j - M i j * M j i)%Q in
  if Nat.ltb r 3 then ((b i * M j j - M i j * b j) / det)%Q else ((M i i * b j - M j i * b i) / det)%Q.
Example two_elements_computed :
  match serial_solve_global_problem (N := Num_Q) diag_inverse pair_solve (two_elements (N := Num_Q) 1 2 3 4)%Q with
  | Ok res => forallb (fun v => Qeq_bool (r_q res 0%nat v 0%nat) 11 && Qeq_bool (r_q res 1%nat v 0%nat) 22 &&
      Qeq_bool (nth 0 (r_int res) (fun _ _ => 0%Q) v 0%nat) 33 && Qeq_bool (nth 0 (r_bnd res) (fun _ _ => 0%Q) v 0%nat) 44) (seq 0 3)
  | _ => false
  end = true.
Proof. vm_compute. reflexivity. Qed.

(** Distributed: the interface cut into two halves, one per submesh. *)
Definition two_units {T} {N : Num T} (a b c d : T) : list (unit_edges T) :=
  [Unit [] [((0, 1)%nat, Edge 1 (ident (nofZ 3)) (fun _ => nadd a (nmul (nofZ 3) d)) [3; 4; 5]%nat (fun _ _ => nofZ 40))]
        [((0, 0)%nat, Edge 1 (ident (nofZ 1)) (fun _ => nadd a c) [0; 1; 2]%nat (fun _ _ => nofZ 30))];
   Unit [] [] [((1, 0)%nat, Edge 1 (ident (nofZ 3)) (fun _ => nadd b (nmul (nofZ 3) c)) [0; 1; 2]%nat (fun _ _ => nofZ 30))]].
Example two_units_whole : exists pairs, whole_ok 6 2 (s_elt (two_elements 1 2 3 4)) (two_units 1 2 3 4) pairs.
Proof.
  exists [(((0, 0)%nat, Edge 1 (ident 1) (fun _ => 1 + 3) [0; 1; 2]%nat (fun _ _ => 30)),
           ((1, 0)%nat, Edge 1 (ident 3) (fun _ => 2 + 3 * 3) [0; 1; 2]%nat (fun _ _ => 30)))].
  split; [|split; [split|]].
  - split; [apply Permutation_refl|]. intros p [<-|[]]. split; reflexivity.
  - cbn. apply perm_swap.
  - intros sides ed [H|[H|[]]]; injection H as <- <-; (split; [cbn; lia|]; split; [reflexivity|]).
    + intros s [<-|[]]; reflexivity.
    + intros s [<-|[<-|[]]]; reflexivity.
  - cbn. apply (Permutation_app_comm [3; 4; 5]%nat [0; 1; 2]%nat).
Qed.
Example two_units_computed :
  match ompi_solve_global_problem (N := Num_Q) diag_inverse pair_solve 6 (s_elt (two_elements (N := Num_Q) 1 2 3 4)%Q) (two_units (N := Num_Q) 1 2 3 4)%Q with
  | Ok res => forallb (fun v => Qeq_bool (o_q res 0%nat v 0%nat) 11 && Qeq_bool (o_q res 1%nat v 0%nat) 22 &&
      forallb (fun l => Qeq_bool (nth 0 l (fun _ _ => 0%Q) v 0%nat) 33) (o_dist res)) (seq 0 3)
  | _ => false
  end = true.
Proof. vm_compute. reflexivity. Qed.

(** "When the iteration reports convergence all updates are small" is false: only the trace
    update is tested. *)
Theorem C34_converged_update_small_refuted : exists sk, well_formed sk /\ invertible_blocks (s_nelt sk) (s_elt sk) /\ uniquely_solvable sk /\
  forall inverse solve, inverse_ok inverse -> solver_ok solve ->
  exists res, serial_solve_global_problem inverse solve sk = Ok res /\ r_conv res = true /\
    r_q res 0%nat 0%nat 0%nat = e_q (s_elt sk 0%nat) 0%nat 0%nat + 1000.
Proof.
  exists (two_elements 1000 0 0 0). split; [apply two_elements_wf|]. split; [apply two_elements_blocks|]. split; [apply two_elements_unique|].
  intros inverse solve HI HS. destruct (two_elements_run inverse solve HI HS 1000 0 0 0) as (res & E & Q & C). exists res. split; [exact E|]. split.
  - apply C. rewrite (rsum_ext 6 _ (fun _ => 0)) by (intros r _; destruct (Nat.ltb r 3); ring). rewrite rsum_0, sqrt_0. unfold Rdiv. rewrite Rmult_0_l. lra.
  - exact (proj1 (Q 0%nat ltac:(lia))).
Qed.
Print Assumptions C34_converged_update_small_refuted.

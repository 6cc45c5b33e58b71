(** Property theorems: the distributed Green-Naghdi correction computes what the serial
    one does (C67). *)
From Coq Require Import Reals ZArith List Bool Arith Lra Lia Permutation.
From Verif Require Import Num ModelSWE Outcome ModelShape ModelBasis ModelJac ModelStep ModelIHDG SpecComm
  SpecSWE SpecShape SpecStepper SpecStep SpecStage SpecIHDG SpecIHDG2
  LemmasSWE LemmasBasis LemmasBasis2 LemmasStep PropsBasis PropsStep LemmasPar6 LemmasIHDG4 LemmasIHDG6 LemmasIPar2 LemmasIPar4
  ModelIPar SpecIPar PropsIPar ModelGN ModelGPar SpecGPar LemmasGN3 LemmasGPar1 LemmasGPar2 LemmasGPar3 LemmasGPar4 LemmasGPar5 LemmasGPar6.
Import ListNotations.
Open Scope R_scope.

(** After the exchanges the units hold the serial derivatives of bathymetry (up to the
    third), surface (first) and velocity (up to the second). *)
Theorem C67_fields : forall m us cuts own, divides m us cuts own -> conforming m -> (forall ed, In ed cuts -> fits m ed) ->
  forall q qs, elts_shared m us q qs -> forall wets boxes, mailed m us boxes qs wets ->
  (forall a, (a < 2)%nat -> field_shared us (ndof m) (dbath m a) (fun u => u_dbath m (the_unit us u) (boxes u) a)) /\
  (forall a c, (a < 2)%nat -> (c < 2)%nat -> field_shared us (ndof m) (ddbath m a c) (fun u => u_ddbath m (the_unit us u) (boxes u) a c)) /\
  (forall a c l, (a < 2)%nat -> (c < 2)%nat -> (l < 2)%nat -> field_shared us (ndof m) (dddbath m a c l) (fun u => u_dddbath m (the_unit us u) (boxes u) a c l)) /\
  (forall a, (a < 2)%nat -> field_shared us (ndof m) (dze m q a) (fun u => u_dze m (the_unit us u) (boxes u) (qs u) a)) /\
  (forall i a, (i < 2)%nat -> (a < 2)%nat -> field_shared us (ndof m) (du m q i a) (fun u => u_du m (the_unit us u) (boxes u) (qs u) i a)) /\
  (forall i a c, (i < 2)%nat -> (a < 2)%nat -> (c < 2)%nat -> field_shared us (ndof m) (ddu m q i a c) (fun u => u_ddu m (the_unit us u) (boxes u) (qs u) i a c)).
Proof. exact fields_ok. Qed.
Print Assumptions C67_fields.

(** On a cut both units hold the serial traces of bathymetry gradient and depth, and
    whether the element across is wet. *)
Theorem C67_traces : forall m us cuts own, divides m us cuts own -> conforming m -> (forall ed, In ed cuts -> fits m ed) ->
  forall q qs, elts_shared m us q qs -> forall wet wets, wets_shared us wet wets -> forall boxes, mailed m us boxes qs wets ->
  forall u d gp, (u < length us)%nat -> In d (un_dist (the_unit us u)) -> (gp < length (m_rule1 m))%nat ->
  (forall a, (a < 2)%nat -> dbath_hat m (the_unit us u) (boxes u) a d gp = hat m (at_fgp m (dbath m a)) (the_gedge m (de_edge d)) (point_of m d gp)) /\
  first_hat m (boxes u) (qs u) 3 d gp = hat m (h_fc m q) (the_gedge m (de_edge d)) (point_of m d gp) /\
  wet_neighbor m (boxes u) d = wet (across m d).
Proof. exact traces_ok. Qed.
Print Assumptions C67_traces.

(** Serial and distributed assembly end, and the units' matrices are the serial ones. *)
Theorem C67_blocks : forall m us cuts own, divides m us cuts own -> conforming m -> faces_once m -> symmetric_weights m -> symmetric_points m -> (forall ed, In ed cuts -> fits m ed) ->
  forall g q qs, elts_shared m us q qs -> forall wet wets, wets_shared us wet wets -> no_wet_levee m wet -> forall boxes, mailed m us boxes qs wets ->
  exists s ss, dc_blocks m g q wet = Ok s /\
    (forall u, (u < length us)%nat -> unit_blocks m (the_unit us u) (boxes u) g (qs u) (wets u) = Ok (ss u)) /\
    blocks_shared m us own wet s ss.
Proof. exact blocks_both. Qed.
Print Assumptions C67_blocks.

(** Corrections and traces solve the serial equations if and only if the units' parts of
    them solve the distributed ones. *)
Theorem C67_system : forall m us cuts own, divides m us cuts own -> conforming m -> faces_once m -> symmetric_weights m -> symmetric_points m -> (forall ed, In ed cuts -> fits m ed) ->
  forall g q qs, elts_shared m us q qs -> forall wet wets, wets_shared us wet wets -> no_wet_levee m wet -> forall boxes, mailed m us boxes qs wets ->
  forall s ss, dc_blocks m g q wet = Ok s -> (forall u, (u < length us)%nat -> unit_blocks m (the_unit us u) (boxes u) g (qs u) (wets u) = Ok (ss u)) ->
  forall x y z xs ys zs, field_shared us (2 * ndof m) x xs -> field_shared us (ndof m) y ys -> gtraces_shared m us own z zs ->
  solves_dc m wet s x y z <-> solves_dc_par m us wets ss xs ys zs.
Proof. exact system_same. Qed.
Print Assumptions C67_system.

(** ** Two triangles of a square on two units *)
Example two_faces : faces_once two.
Proof.
  split; [cbn; repeat constructor; cbn; intuition congruence|]. intros e b. unfold all_sides. cbn. split.
  - intuition; match goal with H : (_, _) = (_, _) |- _ => injection H as <- <- end; lia.
  - intros (A & B). destruct e as [|[|e]]; [| |lia]; (destruct b as [|[|[|b]]]; [| | |lia]; auto 10).
Qed.
Lemma carries_refl : forall (w : list R) n, length w = n -> carries w w n.
Proof. intros w n H. split; [exact H|]. reflexivity. Qed.
(** Messages exist for any states and wet flags. *)
Section Boxes.
  Context (o : bool) (qs : nat -> nat -> coeffs) (wets : nat -> nat -> bool).
  Definition half (u : nat) : dedge := DEdge 0 u 0 (if (u =? 0)%nat then o else negb o).
  Definition peer (u : nat) : nat := (1 - u)%nat.
  Definition un2 (u : nat) : iunit := the_unit (two_units o) u.
  Definition box1 (u : nat) : mailbox := Mail (fun _ => bath_message two (half (peer u))) (fun _ => []) (fun _ => []) (fun _ => first_message two (qs (peer u)) (wets (peer u)) (half (peer u))) (fun _ => []).
  Definition box2 (u : nat) : mailbox := Mail (in_bath (box1 u)) (fun _ => dbath_message two (un2 (peer u)) (box1 (peer u)) (half (peer u))) (fun _ => []) (in_first (box1 u)) (fun _ => []).
  Definition box3 (u : nat) : mailbox := Mail (in_bath (box1 u)) (in_dbath (box2 u)) (fun _ => ddbath_message two (un2 (peer u)) (box2 (peer u)) (half (peer u))) (in_first (box1 u))
    (fun _ => du_message two (un2 (peer u)) (box1 (peer u)) (qs (peer u)) (half (peer u))).
End Boxes.
Example C67_ex_mailed : forall o qs wets, mailed two (two_units o) (box3 o qs wets) qs wets.
Proof.
  intros o qs wets u d Hu Hd. cbn in Hu. exists (peer u), (half o (peer u)).
  destruct u as [|[|u]]; [| |lia]; (destruct Hd as [<-|[]]; cbn [peer Nat.sub]; split; [cbn; lia|]; split; [left; reflexivity|]; split; [reflexivity|]; split; [discriminate|];
    repeat split; try reflexivity).
Qed.
Lemma two_no_levee : forall w, no_wet_levee two w.
Proof. intros w f [<-|[]] _. reflexivity. Qed.
Lemma two_fits : forall ed, In ed [0%nat] -> fits two ed.
Proof. intros ed [<-|[]]. exact (proj2 (proj2 (proj2 (proj2 (two_ok true))))). Qed.
Lemma two_entry : forall o g q w u x, (u < 2)%nat -> unit_blocks two (un2 o u) (box3 o (fun _ => q) (fun _ => w) u) g q w = Ok x -> w u = true ->
  d_hh x 0%nat 0%nat 0%nat = if w (peer u) then 20 * sqrt 2 else - sqrt 2.
Proof.
  intros o g q w u x Hu B W. destruct (two_ok o) as (D & Cf & _).
  destruct (units_ok two (two_units o) [0%nat] (fun _ => o) D Cf g (fun _ => q) w (fun _ => w) (fun _ _ _ _ => eq_refl) (two_no_levee w) (box3 o (fun _ => q) (fun _ => w)) u Hu) as (_ & O).
  unfold un2 in B. cbv beta in O. rewrite B in O. cbn [got] in O.
  assert (Hd : In (half o u) (un_dist (the_unit (two_units o) u))) by (destruct u as [|[|u]]; [left; reflexivity|left; reflexivity|lia]).
  destruct (uo_d _ _ _ _ _ _ _ O (half o u) Hd W) as (_ & _ & _ & _ & H). change (de_edge (half o u)) with 0%nat in H. rewrite H. unfold dhh, flat11. cbn [Nat.div Nat.modulo Nat.divmod fst snd Nat.sub].
  unfold d_ll. rewrite vmsum_rsum. change (ngp1 two) with 2%nat. cbn [rsum]. unfold lam_fact, lam. rewrite !LemmasIHDG9.leg_0.
  change (m_nodes two (de_elt (half o u))) with (sq_nodes u). change (de_face (half o u)) with 0%nat. rewrite half_side_J, sq_half by exact Hu.
  unfold dk. unfold d_kernels.
  destruct (C67_traces two (two_units o) [0%nat] (fun _ => o) D Cf two_fits q (fun _ => q) (fun _ _ _ _ _ _ _ _ => eq_refl) w (fun _ => w) (fun _ _ _ _ => eq_refl) _ (C67_ex_mailed o (fun _ => q) (fun _ => w)) u (half o u) 0%nat Hu Hd (le_S _ _ (le_n 1))) as (_ & _ & ->).
  assert (X : across two (half o u) = peer u) by (destruct u as [|[|u]]; [reflexivity|reflexivity|lia]). rewrite X.
  unfold w1. destruct (w (peer u)); cbn; unfold tau, delta; cbn; field.
Qed.
(** Trace against trace on the diagonal (length sqrt 2): both sides wet, each unit has half
    of the serial entry; element 1 dry, unit 0 has the wall entry, which is the serial one. *)
Example C67_ex_cut : forall o g (q : nat -> coeffs) s ss,
  let w := fun _ : nat => true in
  dc_blocks two g q w = Ok s -> (forall u, (u < 2)%nat -> unit_blocks two (un2 o u) (box3 o (fun _ => q) (fun _ => w) u) g q w = Ok (ss u)) ->
  d_hh (ss 0%nat) 0%nat 0%nat 0%nat = 20 * sqrt 2 /\ d_hh (ss 1%nat) 0%nat 0%nat 0%nat = 20 * sqrt 2 /\ d_hh s 0%nat 0%nat 0%nat = 40 * sqrt 2.
Proof.
  intros o g q s ss w A B. pose proof (two_entry o g q w 0 _ (le_S _ _ (le_n 1)) (B 0%nat (le_S _ _ (le_n 1))) eq_refl) as E0. pose proof (two_entry o g q w 1 _ (le_n 2) (B 1%nat (le_n 2)) eq_refl) as E1. cbn [w peer] in E0, E1.
  split; [exact E0|]. split; [exact E1|]. destruct (two_ok o) as (D & Cf & Sw & Sp & _).
  destruct (C67_blocks two (two_units o) [0%nat] (fun _ => o) D Cf two_faces Sw Sp two_fits g q (fun _ => q) (fun _ _ _ _ _ _ _ _ => eq_refl) w (fun _ => w) (fun _ _ _ _ => eq_refl) (two_no_levee w) _ (C67_ex_mailed o (fun _ => q) (fun _ => w))) as (s' & ss' & A' & B' & C).
  rewrite A in A'. injection A' as <-.
  assert (F : forall u, (u < 2)%nat -> ss' u = ss u) by (intros u Hu; pose proof (B' u Hu) as P; pose proof (B u Hu) as P'; unfold un2 in P'; rewrite P' in P; injection P as ->; reflexivity).
  pose proof (bs_cut _ _ _ _ _ _ C 0%nat 1%nat (half o 0) (half o 1) 0%nat 0%nat (le_S _ _ (le_n 1)) (le_n 2) (or_introl eq_refl) (or_introl eq_refl) eq_refl ltac:(discriminate) eq_refl) as Q.
  cbn [w] in Q. rewrite !F in Q by lia. change (de_edge (half o 0)) with 0%nat in Q. rewrite E0, E1 in Q. unfold flip in Q. cbn in Q. destruct o; cbn in Q; lra.
Qed.
Example C67_ex_dry : forall o g (q : nat -> coeffs) s x,
  let w := fun e => (e =? 0)%nat in
  dc_blocks two g q w = Ok s -> unit_blocks two (un2 o 0) (box3 o (fun _ => q) (fun _ => w) 0) g q w = Ok x ->
  d_hh x 0%nat 0%nat 0%nat = - sqrt 2 /\ d_hh s 0%nat 0%nat 0%nat = - sqrt 2.
Proof.
  intros o g q s x w A B. pose proof (two_entry o g q w 0 _ (le_S _ _ (le_n 1)) B eq_refl) as E0. cbn [w peer] in E0.
  split; [exact E0|]. destruct (two_ok o) as (D & Cf & Sw & Sp & _).
  destruct (C67_blocks two (two_units o) [0%nat] (fun _ => o) D Cf two_faces Sw Sp two_fits g q (fun _ => q) (fun _ _ _ _ _ _ _ _ => eq_refl) w (fun _ => w) (fun _ _ _ _ => eq_refl) (two_no_levee w) _ (C67_ex_mailed o (fun _ => q) (fun _ => w))) as (s' & ss' & A' & B' & C).
  rewrite A in A'. injection A' as <-.
  assert (F : ss' 0%nat = x) by (pose proof (B' 0%nat (le_S _ _ (le_n 1))) as P; unfold un2 in B; rewrite B in P; injection P as ->; reflexivity).
  pose proof (bs_cut _ _ _ _ _ _ C 0%nat 1%nat (half o 0) (half o 1) 0%nat 0%nat (le_S _ _ (le_n 1)) (le_n 2) (or_introl eq_refl) (or_introl eq_refl) eq_refl ltac:(discriminate) eq_refl) as Q.
  cbn [w half de_elt Nat.eqb] in Q. rewrite F in Q. change (de_edge (half o 0)) with 0%nat in Q. cbn [de_edge] in Q. rewrite E0 in Q. unfold flip in Q. cbn in Q. destruct o; cbn in Q; lra.
Qed.

(** Properties of the partitioner: C17, C21. *)
From Coq Require Import ZArith NArith List Bool Arith Reals Sorted Permutation QArith Lia Lra.
From Verif Require Import Num Outcome ModelMesh ModelPart SpecPart LemmasPart LemmasCsr LemmasPart2 LemmasPart3 LemmasCsr2.
Import ListNotations.
Open Scope N_scope.

(** ** C17 *)
Theorem C17_partition_keeps_elements : forall (P : Type) (m : mesh P) (weights : list (N * list R)) rb np nn rpl mesh_part sbmsh_part oe op,
  partition_inputs m weights np nn rpl mesh_part sbmsh_part oe op ->
  exists size c, partition_mesh m weights rb np nn rpl mesh_part sbmsh_part oe op = Ok (size, c) /\
    (forall e, In e (map fst (m_elements m)) -> exists r l, holds (nn * rpl) size c e r l /\
       forall r' l', holds (nn * rpl) size c e r' l' -> r' = r /\ l' = l) /\
    (forall e f p q, part_of (isort (map fst (m_elements m))) mesh_part e p -> part_of (isort (map fst (m_elements m))) mesh_part f q ->
       (together (nn * rpl) size c e f <-> p = q)) /\
    (forall e p i n r l, part_of (isort (map fst (m_elements m))) mesh_part e p ->
       nth_error (isort (nodup N.eq_dec mesh_part)) i = Some p -> nth_error sbmsh_part i = Some n ->
       holds (nn * rpl) size c e r l -> r / rpl = n) /\
    (forall r l, r < nn * rpl -> l < size r -> submesh_faithful m (nn * rpl) size c r l).
Proof. exact partition_ok. Qed.
Print Assumptions C17_partition_keeps_elements.

(** Four triangles in a strip 7 - 3 - 9 - 4; METIS puts 3 and 4 in part 1, 7 and 9 in part 0. *)
Definition strip : mesh N := Mesh
  [(7, Elt [1;2;3] [DEFAULT_ID;3;DEFAULT_ID] [0;INTERNAL;0]);
   (3, Elt [2;4;3] [7;9;DEFAULT_ID] [INTERNAL;INTERNAL;0]);
   (9, Elt [4;3;5] [3;4;DEFAULT_ID] [INTERNAL;INTERNAL;1]);
   (4, Elt [4;5;6] [DEFAULT_ID;DEFAULT_ID;9] [2;2;INTERNAL])]
  [(1, 10); (2, 20); (3, 30); (4, 40); (5, 50); (6, 60)].
Definition strip_out (which : N) : outcome (N * list (N * elt) * list N) :=
  do r <- partition_mesh (NT := Num_Q) strip (map (fun x => (fst x, [1%Q])) (m_elements strip)) true 2 2 1 [1;1;0;0] [1;0] (fun l => l) (@rev _) ;
  Ok (fst r which, s_elements (snd r which 0), map fst (s_nodes (snd r which 0))).
Example strip_part_ex :
  strip_out 0 = Ok (1, [(3, Elt [2;4;3] [7;9;DEFAULT_ID] [distributed INTERNAL;distributed INTERNAL;0]);
                        (4, Elt [4;5;6] [DEFAULT_ID;DEFAULT_ID;9] [2;2;distributed INTERNAL])], [2;4;3;5;6]) /\
  strip_out 1 = Ok (1, [(7, Elt [1;2;3] [DEFAULT_ID;3;DEFAULT_ID] [0;distributed INTERNAL;0]);
                        (9, Elt [4;3;5] [3;4;DEFAULT_ID] [distributed INTERNAL;distributed INTERNAL;1])], [1;2;3;4;5]).
Proof. vm_compute. auto. Qed.

Theorem C17_empty_mesh_refuted : exists (m : mesh N), m_elements m = [] /\ mesh_ok m /\
  forall rb np nn rpl oe op, (forall l, Permutation (oe l) l) -> (forall l, Permutation (op l) l) ->
    partition_mesh (NT := Num_R) m [] rb np nn rpl [] [] oe op = UB.
Proof.
  exists (Mesh [] []). split; [reflexivity|]. split; [split; [constructor | split; [intros [] | intros e x []]]|].
  intros rb np nn rpl oe op Ho Hp. assert (oe [] = []) as E by (apply Permutation_nil; symmetry; apply Ho).
  assert (op [] = []) as F by (apply Permutation_nil; symmetry; apply Hp).
  destruct rb; unfold partition_mesh; change (mesh_edges (m_elements (Mesh [] [] : mesh N))) with (@nil (N * N)); rewrite E; cbn; rewrite F; reflexivity.
Qed.
Print Assumptions C17_empty_mesh_refuted.

(** ** C21 *)
Theorem C21_csr_is_graph : forall (nw : list (N * list R)) (ew : list ((N * N) * R)) c,
  csr_make nw ew = Ok c -> NoDup (map fst nw) -> NoDup (map fst ew) ->
  (forall a b, In (a, b) (map fst ew) -> In a (map fst nw) /\ In b (map fst nw)) ->
  StronglySorted N.lt (c_nodes c) /\ (forall x, In x (c_nodes c) <-> In x (map fst nw)) /\
  exists av, adj c = Ok av /\ csr_graph ew (c_nodes c) (xadj c) av (edge_wgts c).
Proof. exact csr_make_graph. Qed.
Print Assumptions C21_csr_is_graph.

Theorem C21_node_weights : forall (nw : list (N * list R)) (ew : list ((N * N) * R)) c,
  csr_make nw ew = Ok c -> NoDup (map fst nw) ->
  exists ws, node_wgts c = Ok (concat ws) /\ Forall2 (fun id w => In (id, w) nw) (c_nodes c) ws /\ Forall (fun w => length w = c_ncon c) ws.
Proof. exact csr_node_wgts. Qed.
Print Assumptions C21_node_weights.

Theorem C21_edges : forall ew ns xs av wv, csr_graph ew ns xs av wv -> forall i s, nth_error ns i = Some s ->
  forall j w, csr_edge xs av wv i j w <->
    exists d, nth_error ns j = Some d /\ adjacent ew s d /\ w = (stored ew s d + stored ew d s)%R.
Proof. exact csr_edge_spec. Qed.
Print Assumptions C21_edges.

Theorem C21_symmetric : forall ew ns xs av wv, csr_graph ew ns xs av wv -> forall i j w, (i < length ns)%nat ->
  csr_edge xs av wv i j w -> (j < length ns)%nat /\ csr_edge xs av wv j i w.
Proof. exact csr_edge_sym. Qed.
Print Assumptions C21_symmetric.

Theorem C21_mesh_graph_no_loops : forall els, (forall e x, In (e, x) els -> ~ In e (e_neigh x)) -> forall a, ~ In (a, a) (mesh_edges els).
Proof. exact mesh_edges_no_loop. Qed.
Print Assumptions C21_mesh_graph_no_loops.

Theorem C21_submesh_node_weights : forall e2p (pw : list (N * list R)) L m, (forall e w, In (e, w) pw -> length w = L) ->
  submesh_weight e2p pw = Ok m -> forall p w, afind m p = Some w ->
  length w = L /\ forall k, nth k w 0%R = part_weight (afind e2p) pw p k.
Proof. exact submesh_weight_sums. Qed.
Print Assumptions C21_submesh_node_weights.

Theorem C21_submesh_edge_weights : forall e2p edges (m : list ((N * N) * R)), submesh_edge_weight e2p edges = Ok m ->
  NoDup (map fst m) /\ (forall p q, In (p, q) (map fst m) -> p <= q) /\
  forall p q, p <= q -> (stored m p q = INR (length (edges_between (afind e2p) edges p q))) /\
    (In (p, q) (map fst m) <-> edges_between (afind e2p) edges p q <> []).
Proof. exact submesh_edge_weight_counts. Qed.
Print Assumptions C21_submesh_edge_weights.

(** METIS requires graphs without self-loops.  Elements 1 - 2 - 3, the first two
    in part 0: the submesh graph has the loop 0 - 0, with its weight doubled. *)
Theorem C21_submesh_loop_refuted : exists e2p edges (m : list ((N * N) * R)) c,
  (forall a, ~ In (a, a) edges) /\ submesh_edge_weight e2p edges = Ok m /\ csr_make [(0, [1%R]); (1, [1%R])] m = Ok c /\
  adj c = Ok [0; 1; 0]%nat /\ xadj c = [0; 2; 3]%nat /\ edge_wgts c = [2%R; 1%R; 1%R].
Proof.
  exists [(1, 0); (2, 0); (3, 1)], [(1, 2); (2, 3)], [((0, 0), 1%R); ((0, 1), 1%R)].
  eexists. split; [intros a [E|[E|[]]]; injection E as E1 E2; lia|]. split; [reflexivity|]. split; [reflexivity|].
  split; [reflexivity|]. split; [reflexivity|]. unfold edge_wgts, edge_wgt, row. cbn. num_R. repeat f_equal; lra.
Qed.
Print Assumptions C21_submesh_loop_refuted.

Example strip_graph_ex : match csr_make (map (fun x => (fst x, [1%Q])) (m_elements strip)) (map (fun e => (e, 1%Q)) (mesh_edges (m_elements strip))) with
  | Ok c => c_nodes c = [3; 4; 7; 9] /\ xadj c = [0; 2; 3; 4; 6]%nat /\ adj c = Ok [2; 3; 3; 0; 0; 1]%nat /\ length (edge_wgts (NT := Num_Q) c) = 6%nat
  | _ => False end.
Proof. vm_compute. auto. Qed.

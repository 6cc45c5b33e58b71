(** Specifications for the partitioner. *)
From Coq Require Import NArith List Bool Reals Sorted Permutation.
From Verif Require Import Num Outcome ModelMesh ModelPart.
Import ListNotations.

(** ** C21 *)
Definition adjacent (ew : list ((N * N) * R)) (s d : N) : Prop := In (s, d) (map fst ew) \/ In (d, s) (map fst ew).
(** Sum of the weights stored under an ordered pair. *)
Definition stored (ew : list ((N * N) * R)) (s d : N) : R :=
  fold_right (fun x acc => if N.eq_dec (fst (fst x)) s then if N.eq_dec (snd (fst x)) d then (snd x + acc)%R else acc else acc) 0%R ew.
Definition slice {A : Type} (l : list A) (a b : nat) : list A := firstn (b - a) (skipn a l).

(** A graph in CSR form over the nodes [ns]: [xs] delimits the rows of [av] and [wv]. *)
Definition csr_graph (ew : list ((N * N) * R)) (ns : list N) (xs av : list nat) (wv : list R) : Prop :=
  length xs = S (length ns) /\ nth 0 xs 0%nat = 0%nat /\ nth (length ns) xs 0%nat = length av /\ length wv = length av /\
  forall i s, nth_error ns i = Some s ->
    let a := nth i xs 0%nat in let b := nth (S i) xs 0%nat in
    (a <= b)%nat /\ StronglySorted lt (slice av a b) /\
    (forall j, In j (slice av a b) <-> exists d, nth_error ns j = Some d /\ adjacent ew s d) /\
    Forall2 (fun j w => forall d, nth_error ns j = Some d -> w = (stored ew s d + stored ew d s)%R) (slice av a b) (slice wv a b).

(** The edge from index i to index j with weight w, as METIS reads it. *)
Definition csr_edge (xs av : list nat) (wv : list R) (i j : nat) (w : R) : Prop :=
  exists k, (nth i xs 0 <= k < nth (S i) xs 0)%nat /\ nth_error av k = Some j /\ nth_error wv k = Some w.

(** Sums over the elements of a part and over the edges between two parts. *)
Definition part_weight (part : N -> option N) (pw : list (N * list R)) (p : N) (k : nat) : R :=
  fold_right Rplus 0%R (map (fun x => nth k (snd x) 0%R)
    (filter (fun x => match part (fst x) with Some q => N.eqb q p | None => false end) pw)).
Definition edges_between (part : N -> option N) (edges : list (N * N)) (p q : N) : list (N * N) :=
  filter (fun e => match part (fst e), part (snd e) with
                   | Some a, Some b => (N.eqb a p && N.eqb b q) || (N.eqb a q && N.eqb b p)
                   | _, _ => false end) edges.

(** ** C17 *)
Definition mesh_ok {P : Type} (m : mesh P) : Prop :=
  NoDup (map fst (m_elements m)) /\ ~ In DEFAULT_ID (map fst (m_elements m)) /\
  forall e x, In (e, x) (m_elements m) ->
    length (e_neigh x) = 3%nat /\ length (e_type x) = 3%nat /\
    (forall v, In v (e_nodes x) -> afind (m_nodes m) v <> None) /\
    (forall n, In n (e_neigh x) -> n <> DEFAULT_ID -> In n (map fst (m_elements m))).

Definition part_of (sorted_ids part : list N) (e p : N) : Prop :=
  exists i, nth_error sorted_ids i = Some e /\ nth_error part i = Some p.

(** Submesh (r, l) of a partition with [size r] submeshes on rank r holds element e. *)
Definition holds {P : Type} (num_ranks : N) (size : N -> N) (c : subs P) (e r l : N) : Prop :=
  (r < num_ranks)%N /\ (l < size r)%N /\ In e (map fst (s_elements (c r l))).
Definition together {P : Type} (num_ranks : N) (size : N -> N) (c : subs P) (e f : N) : Prop :=
  exists r l, holds num_ranks size c e r l /\ holds num_ranks size c f r l.

Definition submesh_faithful {P : Type} (m : mesh P) (num_ranks : N) (size : N -> N) (c : subs P) (r l : N) : Prop :=
  NoDup (map fst (s_elements (c r l))) /\ s_elements (c r l) <> [] /\
  (forall e y, In (e, y) (s_elements (c r l)) -> exists x, In (e, x) (m_elements m) /\
     e_nodes y = e_nodes x /\ e_neigh y = e_neigh x /\ length (e_type y) = 3%nat /\
     forall k n t, nth_error (e_neigh x) k = Some n -> nth_error (e_type x) k = Some t ->
       ((n = DEFAULT_ID \/ together num_ranks size c e n) -> nth_error (e_type y) k = Some t) /\
       ((n <> DEFAULT_ID /\ ~ together num_ranks size c e n) -> nth_error (e_type y) k = Some (distributed t))) /\
  (forall v q, afind (s_nodes (c r l)) v = Some q <->
     afind (m_nodes m) v = Some q /\ exists e y, In (e, y) (s_elements (c r l)) /\ In v (e_nodes y)).

(** What the partitioner may assume about its inputs and about METIS: a non-empty mesh; one weight
    vector per element, all of one length; one part per element; one node per
    non-empty part; iteration orders are permutations. *)
Definition partition_inputs {P : Type} (m : mesh P) (weights : list (N * list R)) (num_partitions num_nodes rpl : N)
    (mesh_part sbmsh_part : list N) (oe op : list (N * N) -> list (N * N)) : Prop :=
  mesh_ok m /\ m_elements m <> [] /\ Permutation (map fst weights) (map fst (m_elements m)) /\
  (exists L, forall e w, In (e, w) weights -> length w = L) /\ rpl <> 0%N /\
  length mesh_part = length (m_elements m) /\ (forall p, In p mesh_part -> (p < num_partitions)%N) /\
  length sbmsh_part = length (nodup N.eq_dec mesh_part) /\ (forall n, In n sbmsh_part -> (n < num_nodes)%N) /\
  (forall l, Permutation (oe l) l) /\ (forall l, Permutation (op l) l).

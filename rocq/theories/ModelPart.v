(** The mesh partitioner.  Element, node and submesh ids are N; the code stores
    them as uint and, in the graph, as int (ids below 2^31 are assumed).  A
    std::unordered_map or unordered_set is the list of its entries in iteration
    order; where the iteration order of such a container can matter, the order
    is an argument. *)
From Coq Require Import ZArith NArith List Bool.
From Verif Require Import Num Outcome ModelMesh.
Import ListNotations.
Open Scope N_scope.

(** ** Maps *)
Fixpoint afind {V : Type} (m : list (N * V)) (k : N) : option V :=
  match m with [] => None | (j, v) :: r => if k =? j then Some v else afind r k end.
(** m[k] = v *)
Fixpoint aset {V : Type} (m : list (N * V)) (k : N) (v : V) : list (N * V) :=
  match m with [] => [(k, v)] | (j, w) :: r => if k =? j then (j, v) :: r else (j, w) :: aset r k v end.
(** m.insert({k, v}) *)
Definition ainsert {V : Type} (m : list (N * V)) (k : N) (v : V) : list (N * V) :=
  match afind m k with Some _ => m | None => m ++ [(k, v)] end.

Definition pair_eqb (a b : N * N) : bool := (fst a =? fst b) && (snd a =? snd b).
Fixpoint pfind {V : Type} (m : list ((N * N) * V)) (k : N * N) : option V :=
  match m with [] => None | (j, v) :: r => if pair_eqb k j then Some v else pfind r k end.
Fixpoint pset {V : Type} (m : list ((N * N) * V)) (k : N * N) (v : V) : list ((N * N) * V) :=
  match m with [] => [(k, v)] | (j, w) :: r => if pair_eqb k j then (j, v) :: r else (j, w) :: pset r k v end.
Definition padd (s : list (N * N)) (e : N * N) : list (N * N) := if existsb (pair_eqb e) s then s else s ++ [e].

(** std::sort on ids *)
Fixpoint insert_sorted (x : N) (l : list N) : list N :=
  match l with [] => [x] | y :: r => if x <=? y then x :: l else y :: insert_sorted x r end.
Fixpoint isort (l : list N) : list N := match l with [] => [] | x :: r => insert_sorted x (isort r) end.

(** ** Meshes: source/preprocessor/mesh_metadata.hpp lines 8-12, 27-35, 65-92.
    [P] is the type of node coordinates. *)
Record elt := Elt { e_nodes : list N; e_neigh : list N; e_type : list N }.
Record mesh (P : Type) := Mesh { m_elements : list (N * elt); m_nodes : list (N * P) }.
Arguments Mesh {P}. Arguments m_elements {P}. Arguments m_nodes {P}.

(** ** The graph of the mesh: partitioner/partition.cpp lines 14-29. *)
Definition edge_of (a b : N) : N * N := (N.min a b, N.max a b).
Definition elt_edges (x : N * elt) : list (N * N) :=
  map (edge_of (fst x)) (filter (fun n => negb (n =? DEFAULT_ID)) (e_neigh (snd x))).
Definition mesh_edges (els : list (N * elt)) : list (N * N) := fold_left padd (flat_map elt_edges els) [].

(** ** CSRMat: partitioner/csrmat.hpp lines 14-60, with weights in T. *)
Section Weights.
Context {T : Type} {NT : Num T}.
Open Scope num_scope.

Record csr := Csr {
  c_ncon : nat;
  c_nodes : list N;
  c_edges : list (N * list N);
  c_nw : list (N * list T);
  c_ew : list ((N * N) * T) }.

(** edge_sets[src].insert(dst) *)
Definition set_add (m : list (N * list N)) (s d : N) : list (N * list N) :=
  match afind m s with
  | Some l => if existsb (N.eqb d) l then m else aset m s (l ++ [d])
  | None => m ++ [(s, [d])]
  end.
Definition edge_sets (ew : list ((N * N) * T)) : list (N * list N) :=
  fold_left (fun m e => set_add (set_add m (fst (fst e)) (snd (fst e))) (snd (fst e)) (fst (fst e))) ew [].
Definition csr_make (nw : list (N * list T)) (ew : list ((N * N) * T)) : outcome csr :=
  let ncon := match nw with [] => 0%nat | x :: _ => length (snd x) end in
  if forallb (fun x => Nat.eqb (length (snd x)) ncon) nw
  then Ok (Csr ncon (isort (map fst nw)) (map (fun p => (fst p, isort (snd p))) (edge_sets ew)) nw ew)
  else Throw.

(** lines 67-76 *)
Definition row (c : csr) (id : N) : list N := match afind (c_edges c) id with Some l => l | None => [] end.
Definition xadj (c : csr) : list nat :=
  fold_left (fun r id => r ++ [(last r 0 + length (row c id))%nat]) (c_nodes c) [0%nat].
(** lines 78-93 *)
Fixpoint index_of (l : list N) (x : N) : option nat :=
  match l with [] => None | y :: r => if (x =? y)%N then Some 0%nat else option_map S (index_of r x) end.
Definition adj (c : csr) : outcome (list nat) :=
  ofold (fun res d => do i <- of_at (index_of (c_nodes c) d) ; Ok (res ++ [i])) (flat_map (row c) (c_nodes c)) [].
(** lines 98-107 *)
Definition node_wgts (c : csr) : outcome (list T) :=
  ofold (fun res id =>
    do w <- of_at (afind (c_nw c) id) ;
    ofold (fun res k => do v <- of_at (nth_error w k) ; Ok (res ++ [v])) (seq 0 (c_ncon c)) res) (c_nodes c) [].
(** lines 110-129 *)
Definition edge_wgt (c : csr) (s d : N) : T :=
  let w := $0 in
  let w := match pfind (c_ew c) (s, d) with Some x => w + x | None => w end in
  match pfind (c_ew c) (d, s) with Some x => w + x | None => w end.
Definition edge_wgts (c : csr) : list T :=
  flat_map (fun s => map (edge_wgt c s) (row c s)) (c_nodes c).

(** partition.cpp lines 54-64: submesh_weight. *)
Fixpoint add_weights (a b : list T) : outcome (list T) :=
  match a, b with
  | _, [] => Ok a
  | [], _ :: _ => UB
  | x :: a', y :: b' => do r <- add_weights a' b' ; Ok ((x + y) :: r)
  end.
Definition submesh_weight (e2p : list (N * N)) (pw : list (N * list T)) : outcome (list (N * list T)) :=
  ofold (fun m x =>
    do p <- of_at (afind e2p (fst x)) ;
    match afind m p with
    | Some w => do w' <- add_weights w (snd x) ; Ok (aset m p w')
    | None => Ok (m ++ [(p, snd x)])
    end) pw [].
(** partition.cpp lines 66-76: submesh_edge_weight; edge weights are all 1. *)
Definition submesh_edge_weight (e2p : list (N * N)) (edges : list (N * N)) : outcome (list ((N * N) * T)) :=
  ofold (fun m e =>
    do p <- of_at (afind e2p (fst e)) ;
    do q <- of_at (afind e2p (snd e)) ;
    let pq := edge_of p q in
    Ok (match pfind m pq with Some w => pset m pq (w + $1) | None => m ++ [(pq, $1)] end)) edges [].
End Weights.
Arguments csr : clear implicits.

(** ** Assignment: partition.cpp lines 33-39 and 89-94.  [part] is what METIS returned. *)
Definition assign (sorted part : list N) : outcome (list (N * N)) :=
  if Nat.ltb (length part) (length sorted) then Throw else Ok (combine sorted part).

(** ** Ranks: partition.cpp lines 96-108.  partition2rank[p] is 0 if absent. *)
Definition updN {A : Type} (m : N -> A) (k : N) (a : A) : N -> A := fun j => if j =? k then a else m j.
Record ranks := Ranks { lpc : N -> N; lrc : N -> N; p2r : N -> N; p2l : N -> N }.
Definition ranks0 : ranks := Ranks (fun _ => 0) (fun _ => 0) (fun _ => 0) (fun _ => 0).
Definition assign_rank (num_nodes rpl num_partitions : N) (s : ranks) (pn : N * N) : outcome ranks :=
  let '(p, n) := pn in
  if negb (n <? num_nodes) || (rpl =? 0) || negb (p <? num_partitions) then UB else
  let rank := lrc s n + rpl * n in
  if negb (rank <? num_nodes * rpl) then UB else
  Ok (Ranks (updN (lpc s) rank (lpc s rank + 1)) (updN (lrc s) n ((lrc s n + 1) mod rpl))
            (updN (p2r s) p rank) (updN (p2l s) p (lpc s rank))).

(** ** Submeshes: partition.cpp lines 118-132. *)
Record submesh (P : Type) := Sub { s_elements : list (N * elt); s_nodes : list (N * P) }.
Arguments Sub {P}. Arguments s_elements {P}. Arguments s_nodes {P}.
Definition subs (P : Type) := N -> N -> submesh P.
Definition upd2 {A : Type} (c : N -> N -> A) (r l : N) (a : A) : N -> N -> A :=
  fun r' l' => if (r' =? r) && (l' =? l) then a else c r' l'.

Section Assemble.
Context {P : Type} (m : mesh P) (e2p : list (N * N)) (num_ranks num_partitions : N) (rk : ranks).

(** submeshes[rank][loc_part] *)
Definition locate (p : N) : outcome (N * N) :=
  if p <? num_partitions then
    if (p2r rk p <? num_ranks) && (p2l rk p <? lpc rk (p2r rk p)) then Ok (p2r rk p, p2l rk p) else UB
  else UB.
Definition add_element (c : subs P) (x : N * elt) : outcome (subs P) :=
  do p <- of_at (afind e2p (fst x)) ;
  do rl <- locate p ;
  let s := c (fst rl) (snd rl) in
  do ns <- ofold (fun ns id => do q <- of_at (afind (m_nodes m) id) ; Ok (aset ns id q)) (e_nodes (snd x)) (s_nodes s) ;
  Ok (upd2 c (fst rl) (snd rl) (Sub (ainsert (s_elements s) (fst x) (snd x)) ns)).

(** ** Split edges: partition.cpp lines 134-162. *)
Fixpoint set_nth {A : Type} (l : list A) (k : nat) (a : A) : list A :=
  match l, k with [], _ => [] | _ :: r, O => a :: r | x :: r, S k' => x :: set_nth r k' a end.
Definition mark_face (r l a b : N) (c : subs P) (k : nat) : outcome (subs P) :=
  do ma <- of_at (afind (m_elements m) a) ;
  do nb <- of_index (nth_error (e_neigh ma) k) ;
  if b =? nb then
    do cur <- of_at (afind (s_elements (c r l)) a) ;
    do t <- of_index (nth_error (e_type cur) k) ;
    Ok (upd2 c r l (Sub (aset (s_elements (c r l)) a (Elt (e_nodes cur) (e_neigh cur) (set_nth (e_type cur) k (distributed t)))) (s_nodes (c r l))))
  else Ok c.
Definition split_edge (c : subs P) (e : N * N) : outcome (subs P) :=
  do pa <- of_at (afind e2p (fst e)) ;
  do pb <- of_at (afind e2p (snd e)) ;
  if pa =? pb then Ok c else
  do la <- locate pa ;
  do lb <- locate pb ;
  do c1 <- ofold (mark_face (fst la) (snd la) (fst e) (snd e)) (seq 0 3) c ;
  ofold (mark_face (fst lb) (snd lb) (snd e) (fst e)) (seq 0 3) c1.
End Assemble.

(** ** partition(): partitioner/partition.cpp lines 8-205; of the printed
    statistics (lines 41-52, 164-203) only the access to the first submesh weight is kept.  [weights] are the problem weights; [mesh_part] and
    [sbmsh_part] are what METIS returns for the two graphs; [oe] and [op] are
    the iteration orders of edge_weights and partition2node.  Returns, for each
    rank, the number of its submeshes, and the submeshes. *)
Definition partition_mesh {P T : Type} {NT : Num T} (m : mesh P) (weights : list (N * list T)) (rank_balanced : bool)
    (num_partitions num_nodes ranks_per_locality : N) (mesh_part sbmsh_part : list N)
    (oe : list (N * N) -> list (N * N)) (op : list (N * N) -> list (N * N)) : outcome ((N -> N) * subs P) :=
  let edges := mesh_edges (m_elements m) in
  do g <- csr_make (if rank_balanced then weights else map (fun x => (fst x, [nofZ 1%Z])) (m_elements m)) (map (fun e => (e, nofZ 1%Z)) edges) ;
  do e2p <- assign (c_nodes g) mesh_part ;
  do sw <- submesh_weight e2p weights ;
  do sew <- submesh_edge_weight e2p (oe edges) ;
  do sg <- csr_make sw sew ;
  do p2n <- assign (c_nodes sg) sbmsh_part ;
  let num_ranks := num_nodes * ranks_per_locality in
  do rk <- ofold (assign_rank num_nodes ranks_per_locality num_partitions) (op p2n) ranks0 ;
  do c <- ofold (add_element m e2p num_ranks num_partitions rk) (m_elements m) (fun _ _ => Sub [] []) ;
  do c' <- ofold (split_edge m e2p num_ranks num_partitions rk) (oe edges) c ;
  (* line 177: submesh_weight.cbegin()->second *)
  match sw with [] => UB | _ :: _ => Ok (lpc rk, c') end.

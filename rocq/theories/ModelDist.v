(** The distributed interface files: what the partitioner writes and what a
    parallel run reads back.  Files are lists of records; the numbers' text form
    is not modelled. *)
From Coq Require Import NArith List Bool.
From Verif Require Import Num Outcome ModelMesh ModelPart.
Import ListNotations.
Open Scope N_scope.

Definition seqN (n : N) : list N := map N.of_nat (seq 0 (N.to_nat n)).

(** ** partitioner/write_distributed_interfaces.cpp lines 15-25 and 30-36:
    neighbours across internal faces, as ordered pairs. *)
Definition internal_pairs (x : N * elt) : list (N * N) :=
  map (fun nt => edge_of (fst x) (fst nt)) (filter (fun nt => is_internal (snd nt)) (combine (e_neigh (snd x)) (e_type (snd x)))).
Definition premove (s : list (N * N)) (f : N * N) : list (N * N) := filter (fun g => negb (pair_eqb f g)) s.

(** The submeshes in loop order. *)
Definition submesh_ids (num_loc : N) (size : N -> N) : list (N * N) :=
  flat_map (fun r => map (fun l => (r, l)) (seqN (size r))) (seqN num_loc).
(** loc_id + num_loc * sbmsh_id, stored as uint *)
Definition code (num_loc r l : N) : N := (r + num_loc * l) mod 2 ^ 32.

Section Write.
Context {P : Type} (m : mesh P) (num_loc : N) (size : N -> N) (c : subs P).

Definition sub_elements (rl : N * N) : list (N * elt) := s_elements (c (fst rl) (snd rl)).
(** lines 14-40 *)
Definition cut_faces : list (N * N) :=
  fold_left premove (flat_map internal_pairs (flat_map sub_elements (submesh_ids num_loc size)))
    (fold_left padd (flat_map internal_pairs (m_elements m)) []).
Definition elt2code : list (N * N) :=
  fold_left (fun t rl => fold_left (fun t x => ainsert t (fst x) (code num_loc (fst rl) (snd rl))) (sub_elements rl) t)
    (submesh_ids num_loc size) [].

(** lines 50-56, 59-65: the last face of [a] whose neighbour is [b]; the assert
    stops the program if there is none. *)
Fixpoint last_face (ns : list N) (k : N) (b : N) (found : option N) : option N :=
  match ns with [] => found | n :: r => last_face r (k + 1) b (if b =? n then Some k else found) end.
Definition face_to (a b : N) : outcome N :=
  do x <- of_at (afind (m_elements m) a) ;
  match last_face (e_neigh x) 0 b None with Some k => Ok k | None => Throw end.

(** DBPairMetaData: elements, bound_ids, p. *)
Record dbpair := DBPair { d_e1 : N; d_e2 : N; d_f1 : N; d_f2 : N; d_p : N }.
(** lines 42-80; [order] is the iteration order of [faces]. *)
Definition add_shared (p : N) (t : list ((N * N) * list dbpair)) (f : N * N) : outcome (list ((N * N) * list dbpair)) :=
  do ra <- of_at (afind elt2code (fst f)) ;
  do rb <- of_at (afind elt2code (snd f)) ;
  do ka <- face_to (fst f) (snd f) ;
  do kb <- face_to (snd f) (fst f) ;
  let d := if rb <? ra then DBPair (snd f) (fst f) kb ka p else DBPair (fst f) (snd f) ka kb p in
  let key := edge_of ra rb in
  Ok (match pfind t key with Some l => pset t key (l ++ [d]) | None => t ++ [(key, [d])] end).
Definition shared_faces (p : N) (order : list (N * N)) : outcome (list ((N * N) * list dbpair)) :=
  ofold (add_shared p) order [].
End Write.

(** lines 82-108: one file; [shared] in iteration order. *)
Record dbgroup := DBGroup { g_locA : N; g_subA : N; g_locB : N; g_subB : N; g_faces : list dbpair }.
Definition group_of (num_loc : N) (sf : (N * N) * list dbpair) : dbgroup :=
  DBGroup (fst (fst sf) mod num_loc) (fst (fst sf) / num_loc) (snd (fst sf) mod num_loc) (snd (fst sf) / num_loc) (snd sf).
Definition concerns (loc sub : N) (g : dbgroup) : bool :=
  ((g_locA g =? loc) && (g_subA g =? sub)) || ((g_locB g =? loc) && (g_subB g =? sub)).
Definition dbmd_file (num_loc : N) (shared : list ((N * N) * list dbpair)) (loc sub : N) : list dbgroup :=
  filter (concerns loc sub) (map (group_of num_loc) shared).

(** ** source/preprocessor/mesh_metadata.cpp lines 149-224: the reader.  One
    entry (element_in, bound_id_in, element_ex, bound_id_ex, p) per face. *)
Record dbentry := DBEntry { b_ein : N; b_fin : N; b_eex : N; b_fex : N; b_p : N }.
Record rank_boundary := RankBoundary { k_loc_in : N; k_sub_in : N; k_loc_ex : N; k_sub_ex : N; k_faces : list dbentry }.
Definition read_group (loc sub : N) (g : dbgroup) : outcome rank_boundary :=
  if (g_locA g =? loc) && (g_subA g =? sub) then
    Ok (RankBoundary (g_locA g) (g_subA g) (g_locB g) (g_subB g) (map (fun d => DBEntry (d_e1 d) (d_f1 d) (d_e2 d) (d_f2 d) (d_p d)) (g_faces g)))
  else if (g_locB g =? loc) && (g_subB g =? sub) then
    Ok (RankBoundary (g_locB g) (g_subB g) (g_locA g) (g_subA g) (map (fun d => DBEntry (d_e2 d) (d_f2 d) (d_e1 d) (d_f1 d) (d_p d)) (g_faces g)))
  else Throw.
Definition read_dbmd (loc sub : N) (file : list dbgroup) : outcome (list rank_boundary) :=
  ofold (fun acc g => do k <- read_group loc sub g ; Ok (acc ++ [k])) file [].

(** What submesh (loc, sub) of a run gets to see; [of] and [os] are the iteration
    orders of the set of faces and of the map of shared faces. *)
Definition dist_boundaries {P : Type} (m : mesh P) (num_loc : N) (size : N -> N) (c : subs P) (p : N)
    (of : list (N * N) -> list (N * N)) (os : list ((N * N) * list dbpair) -> list ((N * N) * list dbpair))
    (loc sub : N) : outcome (list rank_boundary) :=
  do sh <- shared_faces m num_loc size c p (of (cut_faces m num_loc size c)) ;
  read_dbmd loc sub (dbmd_file num_loc (os sh) loc sub).

(** The text of the distributed boundary files: /repo/partitioner/write_distributed_interfaces.cpp
    lines 85-103 and /repo/source/preprocessor/mesh_metadata.hpp lines 96-112 (writing),
    mesh_metadata.cpp lines 150-224 (reading). *)
From Coq Require Import ZArith NArith List Bool.
From Verif Require Import Outcome ModelStream ModelDist.
Import ListNotations.
Local Open Scope N_scope.

(** mesh_metadata.hpp lines 102-105 *)
Definition print_pair (d : dbpair) : text :=
  dec (d_e1 d) ++ [blank] ++ dec (d_e2 d) ++ [blank] ++ dec (d_f1 d) ++ [blank] ++ dec (d_f2 d) ++ [blank] ++ dec (d_p d).
(** write_distributed_interfaces.cpp lines 97-100 *)
Definition print_group (g : dbgroup) : text :=
  dec (g_locA g) ++ [blank] ++ dec (g_subA g) ++ [blank] ++ dec (g_locB g) ++ [blank] ++ dec (g_subB g) ++ [blank] ++
  dec (N.of_nat (length (g_faces g))) ++ [newline] ++ flat_map (fun d => print_pair d ++ [newline]) (g_faces g).
Definition write_dbmd (gs : list dbgroup) : text := flat_map print_group gs.

(** mesh_metadata.hpp lines 107-110, into a fresh structure without initial values. *)
Definition read_pair (s : stream) : stream * outcome dbpair :=
  let (s1, a) := read_uint s in let (s2, b) := read_uint s1 in let (s3, c) := read_uint s2 in
  let (s4, d) := read_uint s3 in let (s5, e) := read_uint s4 in
  (s5, do a <- of_index a ; do b <- of_index b ; do c <- of_index c ; do d <- of_index d ; do e <- of_index e ; Ok (DBPair a b c d e)).
Fixpoint read_pairs (n : nat) (s : stream) : outcome (stream * list dbpair) :=
  match n with
  | O => Ok (s, [])
  | S k =>
      let (s1, d) := read_pair s in
      do d <- d ;
      do r <- read_pairs k (skip_line s1) ;
      Ok (fst r, d :: snd r)
  end.
(** The five variables of line 161 keep their values from line to line. *)
Record header := Header { h_locA : option N; h_subA : option N; h_locB : option N; h_subB : option N; h_count : option N }.
Definition read_header (line : text) (h : header) : header :=
  let (s1, a) := read_uint (open line) in let (s2, b) := read_uint s1 in let (s3, c) := read_uint s2 in
  let (s4, d) := read_uint s3 in let (s5, e) := read_uint s4 in
  Header (store (h_locA h) a) (store (h_subA h) b) (store (h_locB h) c) (store (h_subB h) d) (store (h_count h) e).
(** lines 163-223: every pass takes at least one character or ends the loop, so [fuel] beyond
    the length of the file is never used up.  The tests of lines 170 and 176 and the mapping of
    lines 204-219 are ModelDist.read_group. *)
Fixpoint read_lines (fuel : nat) (loc sub : N) (s : stream) (h : header) (acc : list rank_boundary) : outcome (list rank_boundary) :=
  match fuel with
  | O => UB
  | S k =>
      let (s1, l) := getline s in
      if s_fail s1 then Ok acc
      else
        let h := read_header (match l with Some t => t | None => [] end) h in
        do a <- of_index (h_locA h) ; do b <- of_index (h_subA h) ; do c <- of_index (h_locB h) ; do d <- of_index (h_subB h) ;
        do _ <- read_group loc sub (DBGroup a b c d []) ;
        do n <- of_index (h_count h) ;
        do r <- read_pairs (N.to_nat n) s1 ;
        do g <- read_group loc sub (DBGroup a b c d (snd r)) ;
        read_lines k loc sub (fst r) h (acc ++ [g])
  end.
Definition read_dbmd_text (loc sub : N) (t : text) : outcome (list rank_boundary) :=
  read_lines (S (S (length t))) loc sub (open t) (Header None None None None None) [].

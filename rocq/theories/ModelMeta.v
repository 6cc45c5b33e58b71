(** Mesh metadata files: mesh_metadata.hpp and mesh_metadata.cpp in
    /repo/source/preprocessor.

    The unordered maps are lists in iteration order when written and functions from keys when
    read. *)
From Coq Require Import ZArith NArith List Bool Ascii String.
From Verif Require Import Outcome ModelStream.
Import ListNotations.
Local Open Scope N_scope.

(** A string literal. *)
Definition lit (s : string) : text := map N_of_ascii (list_ascii_of_string s).

(** mesh_metadata.hpp lines 8-9, 26-32, 80-94. *)
Definition point3 := (double * double * double)%type.
Record elem := Elem { e_nodes : list N; e_neighbours : list N; e_types : list N }.
Record metadata := Metadata { md_name : text; md_elements : list (N * elem); md_nodes : list (N * point3) }.

(** mesh_metadata.hpp lines 11-14 *)
Definition print_point (p : point3) : text :=
  let '(x, y, z) := p in print_double x ++ [blank] ++ print_double y ++ [blank] ++ print_double z.
(** mesh_metadata.hpp lines 34-49.  boundary_type is an unsigned char: operator<< writes the
    character, not the number. *)
Definition print_elem (e : elem) : text :=
  dec (N.of_nat (List.length (e_nodes e))) ++
  flat_map (fun i => blank :: dec i) (e_nodes e) ++
  flat_map (fun i => blank :: dec i) (e_neighbours e) ++
  flat_map (fun c => [blank; c]) (e_types e).
(** mesh_metadata.cpp lines 120-136 *)
Definition write_meta (m : metadata) : text :=
  md_name m ++ [newline] ++
  dec (N.of_nat (List.length (md_elements m))) ++ lit " = number of elements" ++ [newline] ++
  flat_map (fun e => dec (fst e) ++ [blank] ++ print_elem (snd e) ++ [newline]) (md_elements m) ++
  dec (N.of_nat (List.length (md_nodes m))) ++ lit " = number of nodes" ++ [newline] ++
  flat_map (fun n => dec (fst n) ++ [blank] ++ print_point (snd n) ++ [newline]) (md_nodes m).

(** Reading into the entries of a vector, in order. *)
Fixpoint read_all (read : stream -> stream * option N) (s : stream) (l : list N) : stream * list N :=
  match l with
  | [] => (s, [])
  | x :: r => let (s1, v) := read s in let (s2, vs) := read_all read s1 r in (s2, keep x v :: vs)
  end.
(** std::vector::resize *)
Definition resize (n : N) (l : list N) : list N := firstn (N.to_nat n) l ++ repeat 0 (N.to_nat n - List.length l).
(** mesh_metadata.hpp lines 51-72.  n_faces has no initial value. *)
Definition read_elem (s : stream) (e : elem) : outcome (stream * elem) :=
  let (s1, n) := read_uint s in
  do n <- of_index n ;
  let (s2, a) := read_all read_uint s1 (resize n (e_nodes e)) in
  let (s3, b) := read_all read_uint s2 (resize n (e_neighbours e)) in
  let (s4, c) := read_all read_byte s3 (resize n (e_types e)) in
  Ok (s4, Elem a b c).
(** mesh_metadata.hpp lines 16-18 *)
Definition read_point (s : stream) (p : point3) : stream * point3 :=
  let '(x, y, z) := p in
  let (s1, a) := read_double s in let (s2, b) := read_double s1 in let (s3, c) := read_double s2 in
  (s3, (keep x a, keep y b, keep z c)).

Definition table (A : Type) := N -> option A.
Definition tset {A : Type} (t : table A) (k : N) (v : A) : table A := fun i => if i =? k then Some v else t i.
Definition zero_point : point3 := (Double false 0 0, Double false 0 0, Double false 0 0).

(** mesh_metadata.cpp lines 101-105: one pass; the id keeps its value from the pass before.
    operator[] makes a default entry.  A default Point<3> (std::array) in the map is
    zero-initialised (value-initialisation of an aggregate). *)
Definition read_elem_line (st : stream * option N * table elem) (_ : nat) : outcome (stream * option N * table elem) :=
  let '(s, id, t) := st in
  let (s1, v) := read_uint s in
  let id := store id v in
  do k <- of_index id ;
  do r <- read_elem s1 (keep (Elem [] [] []) (t k)) ;
  Ok (skip_line (fst r), id, tset t k (snd r)).
(** lines 111-115 *)
Definition read_node_line (st : stream * option N * table point3) (_ : nat) : outcome (stream * option N * table point3) :=
  let '(s, id, t) := st in
  let (s1, v) := read_uint s in
  let id := store id v in
  do k <- of_index id ;
  let (s2, p) := read_point s1 (keep zero_point (t k)) in
  Ok (skip_line s2, id, tset t k p).
(** mesh_metadata.cpp lines 87-118, for a file that exists. *)
Definition read_meta (t : text) : outcome (text * table elem * table point3) :=
  let (s1, name) := read_word (open t) in
  let name := keep [] name in
  let (s2, n) := read_uint (skip_line s1) in
  do n <- of_index n ;
  do r1 <- ofold read_elem_line (seq 0 (N.to_nat n)) (skip_line s2, None, fun _ => None) ;
  let '(s3, _, els) := r1 in
  let (s4, k) := read_uint s3 in
  do k <- of_index k ;
  do r2 <- ofold read_node_line (seq 0 (N.to_nat k)) (skip_line s4, None, fun _ => None) ;
  let '(_, _, nodes) := r2 in
  Ok (name, els, nodes).

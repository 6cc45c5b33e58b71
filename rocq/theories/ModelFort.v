(** ADCIRC mesh files: /repo/source/preprocessor/ADCIRC_reader/adcirc_format.cpp lines 3-147
    (reading) and 150-212 (writing).

    The unordered maps of nodes and elements are lists: in order of insertion when read, in
    iteration order when written.  IBTYPE, NBVV and the maps IBCONN, BARINTH, BARINCFSB and
    BARINCFSP are kept per boundary.  The members NOPE, NBOU and NGEN equal the lengths of the
    lists read and are not kept apart.  A member that may be without value is an option.
    Failing to allocate the vectors is not modelled. *)
From Coq Require Import String ZArith NArith List Bool.
From Verif Require Import Outcome ModelStream ModelMeta.
Import ListNotations.
Local Open Scope N_scope.

(** NBVV, IBCONN, BARINTH, BARINCFSB, BARINCFSP of one node of a barrier. *)
Record bar := Bar { b_front : N; b_back : N; b_height : double; b_sub : double; b_super : double }.
Inductive land := Plain (ty : N) (nodes : list N) | Barrier (ty : N) (rows : list bar).
Record generic := Generic { gn_total : option N; gn_lists : list (list N) }.
Record fort := Fort {
  ft_name : text;
  ft_nodes : list (N * point3);
  ft_elements : list (N * (N * N * N * N));
  ft_neta : option N;
  ft_open : list (list N);
  ft_nvel : option N;
  ft_land : list land;
  ft_generic : option generic }.

(** The tests of lines 85-87, 95, 110, 116. *)
Definition is_plain (ty : N) : bool := (ty mod 10 =? 0) || (ty mod 10 =? 1) || (ty mod 10 =? 2).
Definition is_barrier (ty : N) : bool := ty mod 10 =? 4.

(** ** Reading *)
(** unordered_map::insert leaves an entry that is there (the assertions are for debugging). *)
Definition insert {A : Type} (l : list (N * A)) (k : N) (v : A) : list (N * A) :=
  if existsb (fun e => fst e =? k) l then l else l ++ [(k, v)].

(** lines 20-33: name and data keep their values from pass to pass. *)
Definition node_vars := (option N * (option double * option double * option double))%type.
Definition read_node (st : stream * node_vars * list (N * point3)) (_ : nat) : outcome (stream * node_vars * list (N * point3)) :=
  let '(s, (id, (x, y, z)), l) := st in
  let (s1, v) := read_uint s in let (s2, a) := read_double s1 in let (s3, b) := read_double s2 in let (s4, c) := read_double s3 in
  let id := store id v in let x := store x a in let y := store y b in let z := store z c in
  do k <- of_index id ; do px <- of_index x ; do py <- of_index y ; do pz <- of_index z ;
  Ok (skip_line s4, (id, (x, y, z)), insert l k (px, py, pz)).
(** lines 35-48 *)
Definition elem_vars := (option N * (option N * option N * option N * option N))%type.
Definition read_element (st : stream * elem_vars * list (N * (N * N * N * N))) (_ : nat) :
    outcome (stream * elem_vars * list (N * (N * N * N * N))) :=
  let '(s, (id, (a, b, c, d)), l) := st in
  let (s1, v) := read_uint s in
  let (s2, va) := read_uint s1 in let (s3, vb) := read_uint s2 in let (s4, vc) := read_uint s3 in let (s5, vd) := read_uint s4 in
  let id := store id v in let a := store a va in let b := store b vb in let c := store c vc in let d := store d vd in
  do k <- of_index id ; do pa <- of_index a ; do pb <- of_index b ; do pc <- of_index c ; do pd <- of_index d ;
  Ok (skip_line s5, (id, (a, b, c, d)), insert l k (pa, pb, pc, pd)).

(** A number and the rest of its line. *)
Definition read_count (s : stream) : stream * option N := let (s1, v) := read_uint s in (skip_line s1, v).
(** lines 61-64, 89-92, 111-114, 117-120, 138-141: entries of a vector made of zeros. *)
Fixpoint read_list (n : nat) (s : stream) : stream * list N :=
  match n with
  | O => (s, [])
  | S k => let (s1, v) := read_count s in let (s2, l) := read_list k s1 in (s2, keep 0 v :: l)
  end.
(** lines 56-65, 133-142: the size keeps its value from pass to pass. *)
Fixpoint read_lists (k : nat) (n : option N) (s : stream) : outcome (stream * list (list N)) :=
  match k with
  | O => Ok (s, [])
  | S k =>
      let (s1, v) := read_count s in
      let n := store n v in
      do c <- of_index n ;
      let (s2, l) := read_list (N.to_nat c) s1 in
      do r <- read_lists k n s2 ;
      Ok (fst r, l :: snd r)
  end.
(** lines 101-108 *)
Definition zero : double := Double false 0 0.
Fixpoint read_bars (n : nat) (s : stream) : stream * list bar :=
  match n with
  | O => (s, [])
  | S k =>
      let (s1, a) := read_uint s in let (s2, b) := read_uint s1 in
      let (s3, x) := read_double s2 in let (s4, y) := read_double s3 in let (s5, z) := read_double s4 in
      let (s6, l) := read_bars k (skip_line s5) in
      (s6, Bar (keep 0 a) (keep 0 b) (keep zero x) (keep zero y) (keep zero z) :: l)
  end.
(** lines 80-125 *)
Fixpoint read_lands (k : nat) (n : option N) (s : stream) : outcome (stream * list land) :=
  match k with
  | O => Ok (s, [])
  | S k =>
      let (s1, v) := read_uint s in
      let n := store n v in
      let (s2, t) := read_uint s1 in
      let t := keep 0 t in
      let s3 := skip_line s2 in
      do c <- of_index n ;
      if is_plain t || (t =? 77) || (t =? 88) then
        let (s4, l) := read_list (N.to_nat c) s3 in
        do r <- read_lands k n s4 ;
        Ok (fst r, Plain t l :: snd r)
      else if is_barrier t then
        let (s4, l) := read_bars (N.to_nat c) s3 in
        do r <- read_lands k n s4 ;
        Ok (fst r, Barrier t l :: snd r)
      else Throw
  end.
(** lines 128-144 *)
Definition read_generic (s : stream) : outcome (option generic) :=
  let (s1, line) := getline s in
  let line := keep [] line in
  if existsb (fun c => negb (c =? blank)) line then
    let (_, n) := read_uint (open line) in
    let (s2, total) := read_count s1 in
    do n <- of_index n ;
    do r <- read_lists (N.to_nat n) None s2 ;
    Ok (Some (Generic total (snd r)))
  else Ok None.
(** lines 3-147, for a file that exists. *)
Definition read_fort (t : text) : outcome fort :=
  let (s1, name) := read_word (open t) in
  let (s2, ne) := read_uint (skip_line s1) in
  let (s3, nn) := read_count s2 in
  do nn <- of_index nn ;
  do r <- ofold read_node (seq 0 (N.to_nat nn)) (s3, (None, (None, None, None)), []) ;
  let '(s4, _, nodes) := r in
  do ne <- of_index ne ;
  do r <- ofold read_element (seq 0 (N.to_nat ne)) (s4, (None, (None, None, None, None)), []) ;
  let '(s5, _, elements) := r in
  let (s6, nope) := read_count s5 in
  let (s7, neta) := read_count s6 in
  do nope <- of_index nope ;
  do r <- read_lists (N.to_nat nope) None s7 ;
  let (s8, nbdv) := (r : stream * list (list N)) in
  let (s9, nbou) := read_count s8 in
  let (s10, nvel) := read_count s9 in
  do nbou <- of_index nbou ;
  do r <- read_lands (N.to_nat nbou) None s10 ;
  let (s11, lands) := (r : stream * list land) in
  do g <- read_generic s11 ;
  Ok (Fort (keep [] name) nodes elements neta nbdv nvel lands g).

(** ** Writing *)
Definition numbered {A : Type} (l : list A) : list (nat * A) := combine (seq 0 (List.length l)) l.
(** lines 157-163 *)
Definition print_node (n : N * point3) : text :=
  let '(id, (x, y, z)) := n in
  dec id ++ setw 22 (print_double x) ++ setw 22 (print_double y) ++ setw 22 (print_double z) ++ [newline].
(** lines 165-171 *)
Definition print_element (e : N * (N * N * N * N)) : text :=
  let '(id, (a, b, c, d)) := e in
  dec id ++ setw 12 (dec a) ++ setw 12 (dec b) ++ setw 12 (dec c) ++ setw 12 (dec d) ++ [newline].
Definition print_ids (l : list N) : text := flat_map (fun i => dec i ++ [newline]) l.
(** lines 176-179, 207-210; n + 1 is an unsigned sum *)
Definition print_list (label : string) (nl : nat * list N) : text :=
  dec (N.of_nat (List.length (snd nl))) ++ lit label ++ dec (N.of_nat (S (fst nl)) mod 4294967296) ++ [blank; newline] ++ print_ids (snd nl).
(** lines 194-195: the precision 15 set while writing a node is still there (so there must be
    a node; otherwise it is 6, which is not modelled). *)
Definition print_bar (b : bar) : text :=
  dec (b_front b) ++ [blank] ++ dec (b_back b) ++ [blank] ++ print_double (b_height b) ++ [blank] ++ print_double (b_sub b) ++ [blank] ++
  print_double (b_super b) ++ [newline].
(** lines 186-201 *)
Definition land_type (l : land) : N := match l with Plain t _ | Barrier t _ => t end.
Definition land_size (l : land) : nat := match l with Plain _ l => List.length l | Barrier _ l => List.length l end.
Definition print_land (nl : nat * land) : text :=
  dec (N.of_nat (land_size (snd nl))) ++ [blank] ++ dec (land_type (snd nl)) ++ lit " = Number of nodes for land boundary " ++
  dec (N.of_nat (S (fst nl)) mod 4294967296) ++ [newline] ++
  match snd nl with Plain _ l => print_ids l | Barrier _ l => flat_map print_bar l end.
(** A value that may be missing: reading it then is undefined. *)
Definition print_member (n : option N) (label : string) : outcome text := do n <- of_index n ; Ok (dec n ++ lit label ++ [newline]).
Definition print_total {A : Type} (l : list A) (label : string) : text := dec (N.of_nat (List.length l)) ++ lit label ++ [newline].
(** lines 150-212.  Without a generic section in the file read, NGEN and NNGN have no value. *)
Definition write_fort (f : fort) : outcome text :=
  do neta <- print_member (ft_neta f) " = Total number of open boundary nodes" ;
  do nvel <- print_member (ft_nvel f) " = Total number of open boundary nodes" ;
  do g <- of_index (ft_generic f) ;
  do nngn <- print_member (gn_total g) " = Total number of generic boundary nodes" ;
  Ok (ft_name f ++ [newline] ++
      dec (N.of_nat (List.length (ft_elements f))) ++ lit "    " ++ dec (N.of_nat (List.length (ft_nodes f))) ++ [newline] ++
      flat_map print_node (ft_nodes f) ++
      flat_map print_element (ft_elements f) ++
      print_total (ft_open f) " = Number of open boundaries" ++ neta ++
      flat_map (print_list " = Number of nodes for open boundary ") (numbered (ft_open f)) ++
      print_total (ft_land f) " = Number of land Boundaries" ++ nvel ++
      flat_map print_land (numbered (ft_land f)) ++
      print_total (gn_lists g) " = Number of generic boundaries" ++ nngn ++
      flat_map (print_list " = Number of nodes for generic boundary ") (numbered (gn_lists g))).

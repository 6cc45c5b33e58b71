(** The file of the quadrilateral mesh generator,
    /repo/mesh_generators/quad_mesh_generator.cpp lines 162-276.  Coordinates are given. *)
From Coq Require Import String ZArith NArith List Bool.
From Verif Require Import Outcome ModelStream ModelMeta ModelMesh ModelQuad ModelFort.
Import ListNotations.
Local Open Scope N_scope.

(** operator<< of a double after std::fixed << std::setprecision(12) (line 164). *)
Definition print_fixed (d : double) : text :=
  let (a, b) := frac (d_man d) 2 (d_exp d) in
  let n := nearest (a * 10 ^ 12) b in
  let f := dec (n mod 10 ^ 12) in
  (if d_neg d then [45] else []) ++ dec (n / 10 ^ 12) ++ [46] ++ repeat 48 (12 - List.length f) ++ f.
(** lines 168-174 *)
Definition quad_node (n : N * point3) : text :=
  let '(id, (x, y, z)) := n in
  dec id ++ [blank] ++ print_fixed x ++ [blank] ++ print_fixed y ++ [blank] ++ print_fixed z ++ [blank; newline].
(** lines 176-183 *)
Definition quad_element (e : element) : text :=
  let '(id, (a, b, c)) := e in
  dec id ++ [blank] ++ dec 3 ++ [blank] ++ dec a ++ [blank] ++ dec b ++ [blank] ++ dec c ++ [blank; newline].
(** lines 221-232: i counts the lists written *)
Definition quad_list (nl : nat * list N) : text :=
  dec (N.of_nat (List.length (snd nl))) ++ lit " = Number of nodes for open boundary " ++ dec (N.of_nat (S (fst nl))) ++ [newline] ++ print_ids (snd nl).
(** lines 197-214, 218-219 and 234-235: lists of a kind and their nodes *)
Definition nodes_in (lists : list (list N)) : N := u32 (fold_left (fun a l => a + N.of_nat (List.length l)) lists 0).
(** lines 237-272, with the codes and labels of lines 241, 249, 257, 265; written as
    ModelFort.print_land does *)
Definition quad_lands (types : list N) (lists : list (list N)) : list land :=
  flat_map (fun tl => match land_code (fst tl) with Some c => [Plain c (snd tl)] | None => [] end) (combine types lists).
Definition land_lists (ls : list land) : list (list N) := map (fun l => match l with Plain _ ns => ns | Barrier _ bs => map b_front bs end) ls.
Definition write_quad (nodes : list (N * point3)) (els : list element) (types : list N) (m n : N) : text :=
  let tides := open_lists types (boundary_nodes m n) in
  let lands := quad_lands types (boundary_nodes m n) in
  lit "quadrilateral" ++ [newline] ++
  dec (u32 (2 * m * n)) ++ lit "    " ++ dec (u32 ((m + 1) * (n + 1))) ++ [newline] ++
  flat_map quad_node nodes ++ flat_map quad_element els ++
  print_total tides " = Number of open boundaries" ++
  dec (nodes_in tides) ++ lit " = Total number of open boundary nodes" ++ [newline] ++
  flat_map quad_list (numbered tides) ++
  print_total lands " = Number of land boundaries" ++
  dec (nodes_in (land_lists lands)) ++ lit " = Total number of land boundary nodes" ++ [newline] ++
  flat_map print_land (numbered lands) ++
  lit "0 = Number of generic boundaries" ++ [newline] ++ lit "0 = Total number of generic boundary nodes" ++ [newline].

(** The part of a mesh read that the solver's mesh construction uses (ModelMesh.adcirc). *)
Definition adcirc_of (f : fort) : adcirc :=
  Adcirc (map (fun e => let '(id, (_, a, b, c)) := e in (id, (a, b, c))) (ft_elements f)) (ft_open f)
    (map (fun l => match l with Plain t ns => Segment t ns None | Barrier t bs => Segment t (map b_front bs) (Some (map b_back bs)) end) (ft_land f))
    (match ft_generic f with Some g => gn_lists g | None => [] end).

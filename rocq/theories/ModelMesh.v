(** Mesh topology: ADCIRC boundary lookup, mesh metadata construction, raw
    boundaries, creation of interfaces and boundaries.
    Unsigned 32-bit ids are N; coordinates are not part of this file. *)
From Coq Require Import NArith List Bool Arith.
From Verif Require Import Outcome.
Import ListNotations.
Local Open Scope N_scope.

(** utilities/edge_types.hpp lines 4-6. *)
Definition INTERNAL : N := 128.
Definition DISTRIBUTED_OFFSET : N := 64.
Definition DISTRIBUTED : N := 192.
(** utilities/edge_types.hpp lines 8-22; uchar arithmetic is modulo 256. *)
Definition is_internal (e : N) : bool := (INTERNAL <=? e) && (e <? DISTRIBUTED).
Definition is_distributed (e : N) : bool := DISTRIBUTED <=? e.
Definition is_boundary (e : N) : bool := e <? INTERNAL.
Definition distributed (e : N) : N := N.modulo (e + DISTRIBUTED_OFFSET) 256.

(** problem/SWE/swe_definitions.hpp lines 61-69. *)
Definition bt_land : N := 0.
Definition bt_tide : N := 1.
Definition bt_flow : N := 2.
Definition bt_function : N := 3.
Definition bt_outflow : N := 4.
Definition bt_internal : N := INTERNAL.
Definition bt_levee : N := INTERNAL + 1.

(** general_definitions.hpp line 230. *)
Definition DEFAULT_ID : N := 4294967295.

(** ** adcirc_format.cpp *)
(** One land-boundary segment: IBTYPE, NBVV and, for barriers, IBCONN (the
    weir parameters are not modelled). *)
Record segment := Segment { sg_type : N; sg_nbvv : list N; sg_ibconn : option (list N) }.
(** Elements are listed in the (unspecified) iteration order of the
    unordered_map; each has an id and three node ids. *)
Record adcirc := Adcirc {
  ad_elements : list (N * (N * N * N));
  ad_nbdv : list (list N);
  ad_segs : list segment;
  ad_nbgn : list (list N) }.

(** adcirc_format.cpp lines 80-118: accepted boundary type codes. *)
Definition reader_accepts (ib : N) : bool :=
  (ib mod 10 =? 0) || (ib mod 10 =? 1) || (ib mod 10 =? 2) || (ib mod 10 =? 4) || (ib =? 77) || (ib =? 88).
(** lines 84-91: barriers and only barriers get an IBCONN list, as long as NBVV. *)
Definition reader_segment (s : segment) : bool :=
  reader_accepts (sg_type s) &&
  match sg_ibconn s with
  | Some c => (sg_type s mod 10 =? 4) && Nat.eqb (length c) (length (sg_nbvv s))
  | None => negb (sg_type s mod 10 =? 4)
  end.

(** adcirc_format.cpp lines 312-336.  The iterators are represented by the
    list still to be searched and the element before it in this call
    ([None] when it == cbegin). *)
Fixpoint has_edge_from (prev : option N) (l : list N) (p0 p1 : N) : bool :=
  match l with
  | [] => false
  | x :: r =>
      if x =? p0 then
        match r with
        | y :: _ => if y =? p1 then true
                    else if match prev with Some q => q =? p1 | None => false end then true
                    else has_edge_from None r p0 p1
        | [] => if match prev with Some q => q =? p1 | None => false end then true
                else has_edge_from None r p0 p1
        end
      else has_edge_from (Some x) r p0 p1
  end.
Definition has_edge (l : list N) (p0 p1 : N) : bool := has_edge_from None l p0 p1.

(** adcirc_format.cpp lines 338-354.  *cbegin() and *(cend()-1) on an empty
    vector are undefined. *)
Definition pair_is (p0 p1 a b : N) : bool :=
  (N.min p0 p1 =? N.min a b) && (N.max p0 p1 =? N.max a b).
Fixpoint is_levee_end (segs : list segment) (p0 p1 : N) : outcome bool :=
  match segs with
  | [] => Ok false
  | s :: r =>
      if sg_type s mod 10 =? 4 then
        do c <- of_at (sg_ibconn s);
        do a <- of_index (hd_error (sg_nbvv s));
        do b <- of_index (hd_error c);
        if pair_is p0 p1 a b then Ok true
        else do a' <- of_index (hd_error (rev (sg_nbvv s)));
             do b' <- of_index (hd_error (rev c));
             if pair_is p0 p1 a' b' then Ok true else is_levee_end r p0 p1
      else is_levee_end r p0 p1
  end.

(** adcirc_format.cpp lines 221-244. *)
Fixpoint seg_type (segs : list segment) (p0 p1 : N) : outcome (option N) :=
  match segs with
  | [] => Ok None
  | s :: r =>
      let t := sg_type s in
      let v := sg_nbvv s in
      if t mod 10 =? 0 then if has_edge v p0 p1 then Ok (Some bt_land) else seg_type r p0 p1
      else if t mod 10 =? 2 then if has_edge v p0 p1 then Ok (Some bt_flow) else seg_type r p0 p1
      else if t mod 10 =? 4 then
        if has_edge v p0 p1 then Ok (Some bt_levee)
        else do c <- of_at (sg_ibconn s);
             if has_edge c p0 p1 then Ok (Some bt_levee) else seg_type r p0 p1
      else if t =? 77 then if has_edge v p0 p1 then Ok (Some bt_function) else seg_type r p0 p1
      else if t =? 88 then if has_edge v p0 p1 then Ok (Some bt_outflow) else seg_type r p0 p1
      else seg_type r p0 p1
  end.

(** adcirc_format.cpp lines 214-258. *)
Definition get_ibtype (m : adcirc) (p0 p1 : N) : outcome N :=
  if existsb (fun l => has_edge l p0 p1) (ad_nbdv m) then Ok bt_tide
  else
    do o <- seg_type (ad_segs m) p0 p1;
    match o with
    | Some t => Ok t
    | None =>
        if existsb (fun l => has_edge l p0 p1) (ad_nbgn m) then Ok bt_land
        else do e <- is_levee_end (ad_segs m) p0 p1;
             if e then Ok bt_land else Throw
    end.

(** adcirc_format.cpp lines 269-286 (and 288-305 with the lists exchanged):
    search of one side [l] of a barrier whose other side is [m]. *)
Definition side_lookup (l m : list N) (p0 p1 : N) : outcome (option (N * N)) :=
  let n := length l in
  let L i := of_index (nth_error l i) in
  let M i := of_index (nth_error m i) in
  let interior :=
    (fix go (nodes : list nat) : outcome (option (N * N)) :=
       match nodes with
       | [] => Ok None
       | i :: r =>
           do x <- L i;
           if x =? p0 then
             do y <- L (i + 1)%nat;
             if y =? p1 then do a <- M (i + 1)%nat; do b <- M i; Ok (Some (a, b))
             else do z <- L (i - 1)%nat;
                  if z =? p1 then do a <- M (i - 1)%nat; do b <- M i; Ok (Some (a, b))
                  else go r
           else go r
       end) in
  do l0 <- L 0%nat;
  do first <- (if l0 =? p0 then do l1 <- L 1%nat; Ok (l1 =? p1) else Ok false);
  if first : bool then do a <- M 1%nat; do b <- M 0%nat; Ok (Some (a, b))
  else
    do mid <- interior (seq 1 (n - 2));
    match mid with
    | Some r => Ok (Some r)
    | None =>
        do ln <- L (n - 1)%nat;
        do last <- (if ln =? p0
                    then if Nat.ltb n 2 then UB else do lp <- L (n - 2)%nat; Ok (lp =? p1)
                    else Ok false);
        if last : bool then do a <- M (n - 2)%nat; do b <- M (n - 1)%nat; Ok (Some (a, b)) else Ok None
    end.

(** adcirc_format.cpp lines 260-310. *)
Fixpoint get_internal_node_pair (segs : list segment) (p0 p1 : N) : outcome (N * N) :=
  match segs with
  | [] => Throw
  | s :: r =>
      match sg_ibconn s with
      | None => get_internal_node_pair r p0 p1
      | Some c =>
          do o <- side_lookup (sg_nbvv s) c p0 p1;
          match o with
          | Some q => Ok q
          | None =>
              do o' <- side_lookup c (sg_nbvv s) p0 p1;
              match o' with Some q => Ok q | None => get_internal_node_pair r p0 p1 end
          end
      end
  end.

(** ** mesh_metadata.cpp lines 18-85 *)
Definition face_nodes (t : N * N * N) (k : nat) : N * N :=
  let '(n0, n1, n2) := t in
  match k with 0%nat => (n1, n2) | 1%nat => (n2, n0) | _ => (n0, n1) end.

(** lines 39-40 and 78-79. *)
Definition edge_key (a b : N) : N := N.lor (N.shiftl (N.min a b) 32) (N.max a b).

Definition face := (N * nat)%type.
Definition dict := list (N * (face * face)).

Fixpoint dict_find (d : dict) (k : N) : option (face * face) :=
  match d with [] => None | (k', v) :: r => if k' =? k then Some v else dict_find r k end.
Fixpoint dict_set (d : dict) (k : N) (v : face * face) : dict :=
  match d with
  | [] => []
  | (k', v') :: r => if k' =? k then (k', v) :: r else (k', v') :: dict_set r k v
  end.

(** lines 42-47. *)
Definition dict_add (d : dict) (kf : N * face) : dict :=
  let '(k, f) := kf in
  match dict_find d k with
  | Some (a, _) => dict_set d k (a, f)
  | None => d ++ [(k, (f, (DEFAULT_ID, 0%nat)))]
  end.

(** lines 35-40: all faces in the order they are visited. *)
Definition elt_faces (e : N * (N * N * N)) : list (N * face) :=
  map (fun k => let '(a, b) := face_nodes (snd e) k in (edge_key a b, (fst e, k))) [0; 1; 2]%nat.
Definition all_faces (els : list (N * (N * N * N))) : list (N * face) := flat_map elt_faces els.
Definition edge_dictionary (els : list (N * (N * N * N))) : dict :=
  fold_left dict_add (all_faces els) [].

(** Element table: neighbour and boundary type of each face.
    ElementMetaData(3) value-initialises both to 0 (mesh_metadata.hpp 28). *)
Definition etable := N -> option (nat -> N * N).
Definition et_init (els : list (N * (N * N * N))) : etable :=
  fun i => if existsb (fun e => fst e =? i) els then Some (fun _ => (0, 0)) else None.
(** elements.at(id).neighbor_ID[face] = nb; elements.at(id).boundary_type[face] = bt *)
Definition et_set (t : etable) (f : face) (nb bt : N) : outcome etable :=
  match t (fst f) with
  | None => Throw
  | Some g =>
      Ok (fun i => if i =? fst f then Some (fun k => if Nat.eqb k (snd f) then (nb, bt) else g k) else t i)
  end.

(** (neighbor_ID[k], boundary_type[k]) of element e, for the face (e, k). *)
Definition et_get (t : etable) (f : face) : option (N * N) :=
  match t (fst f) with Some g => Some (g (snd f)) | None => None end.

(** mesh_file.elements.at(id) *)
Definition elt_at (els : list (N * (N * N * N))) (i : N) : outcome (N * N * N) :=
  match find (fun e => fst e =? i) els with Some e => Ok (snd e) | None => Throw end.

(** lines 51-84: body of the loop over the dictionary. *)
Definition process_edge (m : adcirc) (d : dict) (t : etable) (kv : N * (face * face)) : outcome etable :=
  let '(_, (fa, fb)) := kv in
  if negb (fst fb =? DEFAULT_ID) then
    do t1 <- et_set t fa (fst fb) bt_internal;
    et_set t1 fb (fst fa) bt_internal
  else
    do nodes <- elt_at (ad_elements m) (fst fa);
    let '(p0, p1) := face_nodes nodes (snd fa) in
    do bt <- get_ibtype m p0 p1;
    if is_internal bt then
      do q <- get_internal_node_pair (ad_segs m) p0 p1;
      match dict_find d (edge_key (fst q) (snd q)) with
      | Some (g, _) => et_set t fa (fst g) bt
      | None => Throw
      end
    else et_set t fa DEFAULT_ID bt.

(** Lines 18-85.  [order] is the (unspecified) iteration order of the
    dictionary.  Duplicate element ids are excluded by the reader's
    assertion (adcirc_format.cpp line 41). *)
Definition mesh_metadata (m : adcirc) (order : dict) : outcome etable :=
  ofold (process_edge m (edge_dictionary (ad_elements m))) order (et_init (ad_elements m)).

(** ** Raw boundaries *)
(** std::map<std::pair<uint,uint>, RawBoundary>: association list sorted by
    key; the payload is the face.  [rmap] is the map for one type code. *)
Definition key_ltb (a b : N * N) : bool :=
  (fst a <? fst b) || ((fst a =? fst b) && (snd a <? snd b)).
Definition key_eqb (a b : N * N) : bool := (fst a =? fst b) && (snd a =? snd b).
Definition rmap (V : Type) := list ((N * N) * V).
(** std::map::emplace: no effect when the key is present. *)
Fixpoint rm_emplace {V : Type} (m : rmap V) (k : N * N) (v : V) : rmap V :=
  match m with
  | [] => [(k, v)]
  | (k', v') :: r =>
      if key_ltb k k' then (k, v) :: m
      else if key_eqb k k' then m
      else (k', v') :: rm_emplace r k v
  end.
Fixpoint rm_find {V : Type} (m : rmap V) (k : N * N) : option V :=
  match m with [] => None | (k', v) :: r => if key_eqb k k' then Some v else rm_find r k end.
Fixpoint rm_erase {V : Type} (m : rmap V) (k : N * N) : rmap V :=
  match m with [] => [] | (k', v) :: r => if key_eqb k k' then r else (k', v) :: rm_erase r k end.

(** raw_boundaries: std::map<uchar, rmap>, as a function from type codes. *)
Definition rawmap := N -> rmap face.
(** geometry/element.hpp lines 282-296 for one face. *)
Definition raw_add (rb : rawmap) (e : N) (k : nat) (info : N * N) : rawmap :=
  let '(nb, bt) := info in
  let key := if is_internal bt then (e, nb) else (e, N.of_nat k) in
  fun t => if t =? bt then rm_emplace (rb t) key (e, k) else rb t.
(** geometry/element.hpp 275-297, initialize_mesh.hpp line 65. *)
Definition create_raw (ids : list N) (t : etable) : outcome rawmap :=
  ofold (fun rb e =>
    match t e with
    | None => Throw
    | Some g => Ok (fold_left (fun rb k => raw_add rb e k (g k)) [0; 1; 2]%nat rb)
    end) ids (fun _ => []).

(** swe_pre_create_intface.hpp lines 18-31 (and 42-75): visit the map in key
    order, look the reversed key up in what is left, create the interface if
    it is found, erase the visited entry. *)
Fixpoint create_interfaces {V : Type} (m : rmap V) : list (V * V) :=
  match m with
  | [] => []
  | (k, v) :: r =>
      match rm_find m (snd k, fst k) with
      | Some v' => (v, v') :: create_interfaces r
      | None => create_interfaces r
      end
  end.

(** swe_pre_create_bound.hpp lines 16-114: which type codes are consumed. *)
Definition bound_consumed (bt : N) : bool :=
  (bt =? bt_land) || (bt =? bt_tide) || (bt =? bt_flow) || (bt =? bt_function).
(** swe_pre_create_intface.hpp lines 15 and 37. *)
Definition intface_consumed (bt : N) : bool := (bt =? bt_internal) || (bt =? bt_levee).
(** swe_pre_create_dbound.hpp lines 17-18. *)
Definition dbound_consumed (bt : N) : bool :=
  (bt =? distributed bt_internal) || (bt =? distributed bt_levee).

(** initialize_mesh.hpp lines 67-76 for a run with one submesh (no rank
    boundaries, so create_distributed_boundaries consumes nothing): after the
    processed types are emptied, any face left makes the program throw.
    Missing tide/flow data also throws (swe_pre_create_bound.hpp 53, 85); that
    is not part of this function. *)
Definition initialize_serial (rb : rawmap) : outcome unit :=
  if forallb (fun n => let t := N.of_nat n in
       bound_consumed t || intface_consumed t || match rb t with [] => true | _ => false end) (seq 0 256)
  then Ok tt else Throw.

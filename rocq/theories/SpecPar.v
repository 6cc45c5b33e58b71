(** When a list of submeshes is a decomposition of a mesh, and when the state of the
    submeshes is that of the whole mesh. *)
From Coq Require Import Reals NArith List Bool Arith Permutation.
From Verif Require Import Num ModelSWE ModelStep ModelComm ModelPar SpecSWE SpecStep SpecStage SpecComm.
Import ListNotations.
Open Scope R_scope.

Definition sides_of (f : intface) : list (nat * nat) := [(i_in f, i_bin f); (i_ex f, i_bex f)].
(** The faces on the rank boundaries of a submesh, as (element, face). *)
Definition cut_sides (su : submesh) : list (nat * nat) :=
  flat_map (fun rb => map (fun d => (df_elt d, df_id d)) (rb_faces rb)) (su_rankbs su).
(** Positions (rank boundary, face) of a submesh. *)
Definition positions (su : submesh) : list (nat * nat) :=
  flat_map (fun r => map (pair r) (seq 0 (length (rb_faces (nth r (su_rankbs su) (RankB 0 0 [])))))) (seq 0 (length (su_rankbs su))).

(** [d] and [d'] are the inner and the outer side of the cut interface [f]; levee
    data are given on each side for the Gauss points of that side. *)
Definition sides_match (ngp : nat) (f : intface) (d d' : dface) : Prop :=
  (df_elt d, df_id d) = (i_in f, i_bin f) /\ (df_elt d', df_id d') = (i_ex f, i_bex f) /\
  match i_kind f with
  | Internal => df_kind d = Internal /\ df_kind d' = Internal
  | Levee data => exists a a', df_kind d = Levee a /\ df_kind d' = Levee a' /\
      forall gp, (gp < ngp)%nat -> a gp = data gp /\ a' gp = data (ngp - 1 - gp)%nat
  end.
(** The two sides of a cut face agree on its shape; bathymetry on both sides of an
    ordinary interface agrees and is not scaled. *)
Definition conforming (m : mesh) (f : intface) : Prop :=
  opposite (normal m (i_in f) (i_bin f)) (normal m (i_ex f) (i_bex f)) /\
  half_side (m_nodes m (i_ex f)) (i_bex f) = half_side (m_nodes m (i_in f)) (i_bin f) /\
  (i_kind f = Internal -> forall gp, (gp < length (m_rule1 m))%nat ->
     let a := m_faux m (i_in f) (i_bin f) gp in
     let a' := m_faux m (i_ex f) (i_bex f) (length (m_rule1 m) - 1 - gp)%nat in
     sp a = 1 /\ sp a' = 1 /\ bath a' = bath a).

Definition unit_at (subs : list submesh) (i : nat) : submesh := nth i subs (SubMesh [] [] [] [] []).
Definition rankb_at (subs : list submesh) (i r : nat) : rankb := nth r (su_rankbs (unit_at subs i)) (RankB 0 0 []).

(** [cuts] are the interfaces of the mesh that lie between submeshes. *)
Record decomposes (m : mesh) (subs : list submesh) (cuts : list intface) : Prop := Decomposes {
  dc_elts : Permutation (flat_map su_elts subs) (seq 0 (m_n m));
  dc_intfaces : Permutation (flat_map su_intfaces subs ++ cuts) (m_intfaces m);
  dc_bounds : Permutation (flat_map su_bounds subs) (m_bounds m);
  dc_cuts : Permutation (flat_map cut_sides subs) (flat_map sides_of cuts);
  dc_own : forall su, In su subs ->
    (forall f, In f (su_intfaces su) -> In (i_in f) (su_elts su) /\ In (i_ex f) (su_elts su)) /\
    (forall b, In b (su_bounds su) -> In (b_elt b) (su_elts su)) /\
    (forall s, In s (cut_sides su) -> In (fst s) (su_elts su));
  dc_visit : forall su, In su subs -> Permutation (su_visit su) (positions su);
  dc_partner : forall i r, (i < length subs)%nat -> (r < length (su_rankbs (unit_at subs i)))%nat ->
    let rb := rankb_at subs i r in
    let rb' := rankb_at subs (rb_unit rb) (rb_index rb) in
    (rb_unit rb < length subs)%nat /\ (rb_index rb < length (su_rankbs (unit_at subs (rb_unit rb))))%nat /\
    length (rb_faces rb') = length (rb_faces rb) /\
    forall j d d', nth_error (rb_faces rb) j = Some d -> nth_error (rb_faces rb') j = Some d' ->
      exists f, In f cuts /\ (sides_match (length (m_rule1 m)) f d d' \/ sides_match (length (m_rule1 m)) f d' d) }.

(** The buffers fit in 32-bit offsets, and have the sizes given to them at the start. *)
Definition sizes_fit_of (sch : scheme) (m : mesh) (subs : list submesh) : Prop :=
  forall i r, (i < length subs)%nat -> (r < length (su_rankbs (unit_at subs i)))%nat ->
    fits sch (map (fun _ => N.of_nat (length (m_rule1 m))) (rb_faces (rankb_at subs i r))).
Definition buffers_sized_of (sch : scheme) (m : mesh) (subs : list submesh) (us : nat -> ustate) : Prop :=
  forall i r, (i < length subs)%nat -> (r < length (su_rankbs (unit_at subs i)))%nat ->
    map (fun b => N.of_nat (length b)) (u_send (us i) r) =
    snd (layout sch (map (fun _ => N.of_nat (length (m_rule1 m))) (rb_faces (rankb_at subs i r)))).

Notation sizes_fit := (sizes_fit_of RKDG).
Notation buffers_sized := (buffers_sized_of RKDG).

(** Both states hold the same data about element [e]. *)
Definition same_element (a b : mstate) (e : nat) : Prop :=
  ms_q a e = ms_q b e /\ ms_rhs a e = ms_rhs b e /\ ms_sol a e = ms_sol b e /\ ms_wet a e = ms_wet b e /\ ms_cd a e = ms_cd b e.
(** Each unit holds, for its elements, what the whole-mesh state [st] holds. *)
Definition distributes (subs : list submesh) (us : nat -> ustate) (st : mstate) : Prop :=
  forall i e, (i < length subs)%nat -> In e (su_elts (unit_at subs i)) -> same_element (u_st (us i)) st e.

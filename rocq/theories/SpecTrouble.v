(** What the troubled cell indicator should compute. *)
From Coq Require Import Reals List Bool Arith.
From Verif Require Import ModelSWE ModelShape SpecShape SpecStepper ModelStep ModelTrouble.
Import ListNotations.
Open Scope R_scope.

(** One side of a face shared with another element: the element and its face, a
    wet flag, the quadrature factor, the outward normal, the state and the depth
    inside and the depth beyond at each Gauss point. *)
Record fside := FSide { s_elt : nat; s_id : nat; s_live : bool; s_J : R; s_n : vec2 R;
  s_q : nat -> vec3 R; s_h : nat -> R; s_out : nat -> R }.

Definition total {A : Type} (l : list A) (f : A -> R) : R := fold_right (fun x s => f x + s) 0 l.

Section Spec.
  Context (m : mesh) (dbs : list dface) (k : nat) (st : mstate).
  Let depth (e b gp : nat) : R := ze (q_face m st k e b gp) + bath (m_faux m e b gp).
  Let mirror (gp : nat) : nat := (length (m_rule1 m) - gp - 1)%nat.
  Definition face_sides : list fside :=
    flat_map (fun f =>
      let live := ms_wet st (i_in f) || ms_wet st (i_ex f) in
      let J := GetSurfaceJ (m_nodes m (i_in f)) (i_bin f) in
      let n := normal m (i_in f) (i_bin f) in
      [FSide (i_in f) (i_bin f) live J n (q_face m st k (i_in f) (i_bin f)) (depth (i_in f) (i_bin f)) (fun gp => depth (i_ex f) (i_bex f) (mirror gp));
       FSide (i_ex f) (i_bex f) live J (V2 (- nx n) (- ny n)) (q_face m st k (i_ex f) (i_bex f)) (depth (i_ex f) (i_bex f)) (fun gp => depth (i_in f) (i_bin f) (mirror gp))]) (m_intfaces m) ++
    map (fun d => FSide (d_elt d) (d_id d) (ms_wet st (d_elt d)) (GetSurfaceJ (m_nodes m (d_elt d)) (d_id d)) (normal m (d_elt d) (d_id d))
      (q_face m st k (d_elt d) (d_id d)) (depth (d_elt d) (d_id d)) (fun gp => d_h d (mirror gp))) dbs.
  Definition over_face (s : fside) (u : nat -> R) : R := s_J s * rsum (length (m_rule1 m)) (fun gp => fst (nth gp (m_rule1 m) (0, 0)) * u gp).

  (** A face is an inflow face when the discharge through it, given as a vector by
      [disc], is negative. *)
  Definition counts (disc : vec3 R -> R * R) (e : nat) (s : fside) : bool :=
    Nat.eqb (s_elt s) e && s_live s &&
    (if Rlt_dec (over_face s (fun gp => nx (s_n s) * fst (disc (s_q s gp)) + ny (s_n s) * snd (disc (s_q s gp)))) 0 then true else false).
  Definition jumps (disc : vec3 R -> R * R) (e : nat) : R :=
    total face_sides (fun s => if counts disc e s then Rabs (over_face s (fun gp => s_h s gp - s_out s gp)) else 0).
  Definition inflow_length (disc : vec3 R -> R * R) (e : nat) : R :=
    total face_sides (fun s => if counts disc e s then dist (m_nodes m e ((s_id s + 1) mod 3)%nat) (m_nodes m e ((s_id s + 2) mod 3)%nat) else 0).
  (** The largest depth at a vertex. *)
  Definition top_depth (e : nat) (H : R) : Prop := 0 < H /\ (forall v, (v < 3)%nat -> ze_vrtx m k st e v + m_bath m e v <= H) /\
    exists v, (v < 3)%nat /\ H = ze_vrtx m k st e v + m_bath m e v.

  (** A path of [n] steps through elements of the mesh, each a neighbour of the last. *)
  Inductive path (neigh : nat -> list nat) : nat -> nat -> nat -> Prop :=
  | path_0 : forall e, (e < m_n m)%nat -> path neigh 0 e e
  | path_S : forall n e f g, path neigh n e f -> In g (neigh f) -> (g < m_n m)%nat -> path neigh (S n) e g.
End Spec.

(** The discharge; and the two rows the code takes. *)
Definition discharge (q : vec3 R) : R * R := (qx q, qy q).
Definition first_rows (q : vec3 R) : R * R := (ze q, qx q).

(** The same water described twice: same mesh geometry, depths, discharges and wet
    flags; the level from which elevation is measured may differ. *)
Definition same_water (m m' : mesh) (k : nat) (st st' : mstate) : Prop :=
  m_n m = m_n m' /\ m_p m = m_p m' /\ m_nodes m = m_nodes m' /\ m_rule1 m = m_rule1 m' /\ m_intfaces m = m_intfaces m' /\
  (forall e, ms_wet st e = ms_wet st' e) /\
  (forall e b gp, (gp < length (m_rule1 m))%nat -> ze (q_face m st k e b gp) + bath (m_faux m e b gp) = ze (q_face m' st' k e b gp) + bath (m_faux m' e b gp) /\
    discharge (q_face m st k e b gp) = discharge (q_face m' st' k e b gp)) /\
  (forall e v, (v < 3)%nat -> ze_vrtx m k st e v + m_bath m e v = ze_vrtx m' k st' e v + m_bath m' e v).

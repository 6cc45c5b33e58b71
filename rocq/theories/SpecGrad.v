(** What slopes at barycentres and their reconstruction are to compute. *)
From Coq Require Import Reals List Bool Arith.
From Verif Require Import ModelShape ModelBasis ModelStep SpecShape SpecStepper SpecStage.
Import ListNotations.
Open Scope R_scope.

(** An affine field with slope [g]. *)
Definition affine (k : R) (g : pt) (x : pt) : R := k + vdot g x.
Definition bary (n : nodes) : pt := ((fst (n 0%nat) + fst (n 1%nat) + fst (n 2%nat)) / 3, (snd (n 0%nat) + snd (n 1%nat) + snd (n 2%nat)) / 3).
(** Middle of the face opposite to vertex [b]. *)
Definition mid_face (n : nodes) (b : nat) : pt :=
  let p := n ((b + 1) mod 3)%nat in let q := n ((b + 2) mod 3)%nat in ((fst p + fst q) / 2, (snd p + snd q) / 2).

(** ** The mesh *)
(** What lies across face [b] of element [e]. *)
Inductive beyond (m : mesh) (e b : nat) : option nat -> Prop :=
| beyond_in : forall f, In f (m_intfaces m) -> i_in f = e -> i_bin f = b -> beyond m e b (Some (i_ex f))
| beyond_ex : forall f, In f (m_intfaces m) -> i_ex f = e -> i_bex f = b -> beyond m e b (Some (i_in f))
| beyond_bd : forall d, In d (m_bounds m) -> b_elt d = e -> b_id d = b -> beyond m e b None.
(** Where a value across the face is taken: the barycentre there, or the middle of the face. *)
Definition site (m : mesh) (e b : nat) (o : option nat) : pt :=
  match o with Some e' => bary (m_nodes m e') | None => mid_face (m_nodes m e) b end.

(** Faces of neighbours are the same segment. *)
Definition joined (m : mesh) : Prop := forall f, In f (m_intfaces m) ->
  let n := m_nodes m (i_in f) in let n' := m_nodes m (i_ex f) in
  n ((i_bin f + 1) mod 3)%nat = n' ((i_bex f + 2) mod 3)%nat /\ n ((i_bin f + 2) mod 3)%nat = n' ((i_bex f + 1) mod 3)%nat.
(** No two triangles overlap. *)
Definition inner (a b c x : pt) : Prop := exists u v w, 0 < u /\ 0 < v /\ 0 < w /\ u + v + w = 1 /\ x = comb a b c u v w.
Definition apart (m : mesh) : Prop := forall e e' x, (e < m_n m)%nat -> (e' < m_n m)%nat -> e <> e' ->
  inner (m_nodes m e 0%nat) (m_nodes m e 1%nat) (m_nodes m e 2%nat) x ->
  inner (m_nodes m e' 0%nat) (m_nodes m e' 1%nat) (m_nodes m e' 2%nat) x -> False.
Record triangulation (m : mesh) : Prop := Triangulation {
  tr_faces : faces_once m;
  tr_orient : forall e, (e < m_n m)%nat -> 0 < orient (m_nodes m e 0%nat) (m_nodes m e 1%nat) (m_nodes m e 2%nat);
  tr_joined : joined m;
  tr_apart : apart m }.
(** The points [x] around [c] are not all on one line through [c]. *)
Definition spread (c : pt) (x : nat -> pt) : Prop := exists b b', (b < 3)%nat /\ (b' < 3)%nat /\ orient c (x b) (x b') <> 0.

(** ** Least squares: misfit of the slope [g] to the differences [d] towards the points [x]. *)
Definition misfit (c : pt) (x : nat -> pt) (d : nat -> R) (g : pt) : R :=
  (vdot g (vsub (x 0%nat) c) - d 0%nat) ^ 2 + (vdot g (vsub (x 1%nat) c) - d 1%nat) ^ 2 + (vdot g (vsub (x 2%nat) c) - d 2%nat) ^ 2.
Definition best (c : pt) (x : nat -> pt) (d : nat -> R) (g : pt) : Prop :=
  forall g', misfit c x d g <= misfit c x d g' /\ (misfit c x d g' = misfit c x d g -> g' = g).

(** A solver of two equations in two unknowns. *)
Definition solves2 (solve : mat2 -> point -> point) : Prop := forall A r, a00 A * a11 A - a01 A * a10 A <> 0 ->
  a00 A * fst (solve A r) + a01 A * snd (solve A r) = fst r /\ a10 A * fst (solve A r) + a11 A * snd (solve A r) = snd r.
(** [x] is reached from [c] by non-negative steps towards [y] and [z]. *)
Definition in_cone (c y z x : pt) (s t : R) : Prop := 0 <= s /\ 0 <= t /\
  vsub x c = (s * fst (vsub y c) + t * fst (vsub z c), s * snd (vsub y c) + t * snd (vsub z c)).

(** ** Averages at nodes *)
Definition at_node (ids : nat -> nat -> nat) (g e : nat) : R :=
  (if Nat.eqb (ids e 0%nat) g then 1 else 0) + (if Nat.eqb (ids e 1%nat) g then 1 else 0) + (if Nat.eqb (ids e 2%nat) g then 1 else 0).
Definition node_mean (ids : nat -> nat -> nat) (s : nat -> R) (els : list nat) (g : nat) : R :=
  fold_right Rplus 0 (map (fun e => at_node ids g e * s e) els) / fold_right Rplus 0 (map (at_node ids g) els).

(** ** Fields on a mesh *)
(** Vertices of the master triangle. *)
Definition corner (v : nat) : pt := match v with 0%nat => (-1, -1) | 1%nat => (1, -1) | _ => (-1, 1) end.
(** Values at the vertices of the elements of an affine field. *)
Definition affine_at (m : mesh) (k : R) (g : pt) (lin : nat -> nat -> R) : Prop :=
  forall e v, (e < m_n m)%nat -> (v < 3)%nat -> lin e v = affine k g (m_nodes m e v).
Definition constant_at (m : mesh) (k : R) (lin : nat -> nat -> R) : Prop :=
  forall e v, (e < m_n m)%nat -> (v < 3)%nat -> lin e v = k.
(** Coefficients of the affine field: no higher functions, and its values at the vertices. *)
Definition affine_field (m : mesh) (k : R) (g : pt) (u : nat -> nat -> R) : Prop :=
  forall e, (e < m_n m)%nat -> (forall i, (3 <= i < dubiner_ndof (m_p m))%nat -> u e i = 0) /\
  forall v, (v < 3)%nat -> rsum (dubiner_ndof (m_p m)) (fun i => u e i * GetPhi i (corner v)) = affine k g (m_nodes m e v).
(** Value across a face of vertex values [lin]: the mean over the element there, or over the
    ends of the face. *)
Definition mean3 (l : nat -> R) : R := (l 0%nat + l 1%nat + l 2%nat) / 3.
Definition across (lin : nat -> nat -> R) (e b : nat) (o : option nat) : R :=
  match o with Some e' => mean3 (lin e') | None => (lin e ((b + 1) mod 3)%nat + lin e ((b + 2) mod 3)%nat) / 2 end.

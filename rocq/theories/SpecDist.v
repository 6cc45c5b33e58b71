(** Specification of the distributed interface files. *)
From Coq Require Import NArith List Bool Permutation.
From Verif Require Import Num Outcome ModelMesh ModelPart SpecPart ModelDist.
Import ListNotations.
Open Scope N_scope.

(** Face k of element e leads to element n. *)
Definition face_at {P : Type} (m : mesh P) (e k n : N) : Prop :=
  exists x, In (e, x) (m_elements m) /\ nth_error (e_neigh x) (N.to_nat k) = Some n /\ n <> DEFAULT_ID.

(** Types agree with neighbours, neighbours are mutual and meet in one face. *)
Definition neigh_ok {P : Type} (m : mesh P) : Prop :=
  (forall e x k n t, In (e, x) (m_elements m) -> nth_error (e_neigh x) k = Some n -> nth_error (e_type x) k = Some t ->
     t < 256 /\ (n <> DEFAULT_ID <-> is_internal t = true)) /\
  (forall e k n, face_at m e k n -> exists k', face_at m n k' e) /\
  (forall e k k' n, face_at m e k n -> face_at m e k' n -> k = k').

(** (size, c) partitions m into submeshes (what C17 establishes). *)
Definition partitioned {P : Type} (m : mesh P) (nr : N) (size : N -> N) (c : subs P) : Prop :=
  (forall e, In e (map fst (m_elements m)) -> exists r l, holds nr size c e r l /\
     forall r' l', holds nr size c e r' l' -> r' = r /\ l' = l) /\
  (forall r l, r < nr -> l < size r -> submesh_faithful m nr size c r l).

Definition flip (b : dbentry) : dbentry := DBEntry (b_eex b) (b_fex b) (b_ein b) (b_fin b) (b_p b).
Definition k_ex (g : rank_boundary) : N * N := (k_loc_ex g, k_sub_ex g).

(** What submesh (r, l) must be told: one group per neighbouring submesh, each with
    exactly the faces cut between the two, every face once. *)
Definition boundaries_of {P : Type} (m : mesh P) (nr : N) (size : N -> N) (c : subs P) (p r l : N) (ks : list rank_boundary) : Prop :=
  NoDup (map k_ex ks) /\
  (forall g, In g ks -> k_loc_in g = r /\ k_sub_in g = l /\ k_loc_ex g < nr /\ k_sub_ex g < size (k_loc_ex g) /\ k_ex g <> (r, l) /\
     k_faces g <> [] /\ NoDup (map (fun b => (b_ein b, b_fin b)) (k_faces g)) /\
     forall e k n k' q, In (DBEntry e k n k' q) (k_faces g) <->
       q = p /\ holds nr size c e r l /\ holds nr size c n (k_loc_ex g) (k_sub_ex g) /\ face_at m e k n /\ face_at m n k' e) /\
  (forall e k n r' l', holds nr size c e r l -> holds nr size c n r' l' -> (r', l') <> (r, l) -> face_at m e k n ->
     exists g, In g ks /\ k_ex g = (r', l')).

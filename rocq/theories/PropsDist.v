(** Properties of the distributed interface files: C18. *)
From Coq Require Import ZArith NArith List Bool Arith Permutation Reals QArith Lia.
From Verif Require Import Num Outcome ModelMesh ModelPart SpecPart LemmasPart3 ModelDist SpecDist LemmasDist LemmasDist2 LemmasDist3.
Import ListNotations.
Open Scope N_scope.

Theorem C18_files_complete : forall (P : Type) (m : mesh P) nr size c p of os,
  mesh_ok m -> neigh_ok m -> partitioned m nr size c -> (forall r l, r < nr -> l < size r -> r + nr * l < 2 ^ 32) ->
  (forall l, Permutation (of l) l) -> (forall l, Permutation (os l) l) ->
  forall r l, r < nr -> l < size r -> exists ks, dist_boundaries m nr size c p of os r l = Ok ks /\ boundaries_of m nr size c p r l ks.
Proof. exact (fun P m nr size c p of os => dist_boundaries_ok m nr size c p of os). Qed.
Print Assumptions C18_files_complete.

(** Both sides list the common faces in the same order. *)
Theorem C18_files_match : forall (P : Type) (m : mesh P) nr size c p of os,
  mesh_ok m -> neigh_ok m -> partitioned m nr size c -> (forall r l, r < nr -> l < size r -> r + nr * l < 2 ^ 32) ->
  (forall l, Permutation (of l) l) -> (forall l, Permutation (os l) l) ->
  forall r l r' l' ks ks' g, r < nr -> l < size r -> r' < nr -> l' < size r' ->
  dist_boundaries m nr size c p of os r l = Ok ks -> dist_boundaries m nr size c p of os r' l' = Ok ks' ->
  In g ks -> k_ex g = (r', l') -> exists g', In g' ks' /\ k_ex g' = (r, l) /\ k_faces g' = map flip (k_faces g).
Proof. exact (fun P m nr size c p of os => dist_boundaries_pair m nr size c p of os). Qed.
Print Assumptions C18_files_match.

(** From the mesh to the files. *)
Theorem C18_partition_to_files : forall (P : Type) (m : mesh P) (weights : list (N * list R)) rb np nn rpl mesh_part sbmsh_part oe op p of os,
  partition_inputs m weights np nn rpl mesh_part sbmsh_part oe op -> neigh_ok m ->
  (forall l, Permutation (of l) l) -> (forall l, Permutation (os l) l) ->
  exists size c, partition_mesh m weights rb np nn rpl mesh_part sbmsh_part oe op = Ok (size, c) /\
    ((forall r l, r < nn * rpl -> l < size r -> r + nn * rpl * l < 2 ^ 32) ->
     forall r l, r < nn * rpl -> l < size r -> exists ks, dist_boundaries m (nn * rpl) size c p of os r l = Ok ks /\ boundaries_of m (nn * rpl) size c p r l ks).
Proof.
  intros P m weights rb np nn rpl mp sp oe op p of os Hi Hn Hof Hos. destruct (partition_ok P m weights rb np nn rpl mp sp oe op Hi) as (size & c & E & A & _ & _ & F).
  exists size, c. split; [exact E|]. intros Hc. apply dist_boundaries_ok; try assumption; [apply Hi | split; assumption].
Qed.
Print Assumptions C18_partition_to_files.

(** Four triangles in a strip 7 - 3 - 9 - 4, split into {7, 9} and {3, 4}. *)
Definition strip4 : mesh N := Mesh
  [(7, Elt [1;2;3] [DEFAULT_ID;3;DEFAULT_ID] [0;INTERNAL;0]);
   (3, Elt [2;4;3] [7;9;DEFAULT_ID] [INTERNAL;INTERNAL;0]);
   (9, Elt [4;3;5] [3;4;DEFAULT_ID] [INTERNAL;INTERNAL;1]);
   (4, Elt [4;5;6] [DEFAULT_ID;DEFAULT_ID;9] [2;2;INTERNAL])]
  [(1, 10); (2, 20); (3, 30); (4, 40); (5, 50); (6, 60)].
Definition strip_bounds (r : N) : outcome (list rank_boundary) :=
  do s <- partition_mesh (NT := Num_Q) strip4 (map (fun x => (fst x, [1%Q])) (m_elements strip4)) true 2 2 1 [1;1;0;0] [1;0] (fun l => l) (@rev _) ;
  dist_boundaries strip4 2 (fst s) (snd s) 5 (@rev _) (fun l => l) r 0.
Example strip_bounds_ex :
  strip_bounds 0 = Ok [RankBoundary 0 0 1 0 [DBEntry 4 2 9 1 5; DBEntry 3 1 9 0 5; DBEntry 3 0 7 1 5]] /\
  strip_bounds 1 = Ok [RankBoundary 1 0 0 0 [DBEntry 9 1 4 2 5; DBEntry 9 0 3 1 5; DBEntry 7 1 3 0 5]].
Proof. vm_compute. auto. Qed.

(** Two elements that meet in two faces: both are cut, one is listed. *)
Definition twin : mesh N := Mesh
  [(1, Elt [1;2;3] [2;2;DEFAULT_ID] [INTERNAL;INTERNAL;0]); (2, Elt [1;2;4] [1;1;DEFAULT_ID] [INTERNAL;INTERNAL;0])]
  [(1, 0); (2, 0); (3, 0); (4, 0)].
Definition twin_subs : subs N := fun r l =>
  match r with
  | 0 => Sub [(1, Elt [1;2;3] [2;2;DEFAULT_ID] [distributed INTERNAL;distributed INTERNAL;0])] [(1, 0); (2, 0); (3, 0)]
  | _ => Sub [(2, Elt [1;2;4] [1;1;DEFAULT_ID] [distributed INTERNAL;distributed INTERNAL;0])] [(1, 0); (2, 0); (4, 0)]
  end.
Theorem C18_double_neighbour_refuted : exists (m : mesh N) nr size c ks,
  mesh_ok m /\ holds nr size c 1 0 0 /\ holds nr size c 2 1 0 /\ face_at m 1 0 2 /\ face_at m 1 1 2 /\
  dist_boundaries m nr size c 1 (fun l => l) (fun l => l) 0 0 = Ok ks /\
  forall g b, In g ks -> In b (k_faces g) -> b_fin b <> 0.
Proof.
  exists twin, 2, (fun _ => 1), twin_subs, [RankBoundary 0 0 1 0 [DBEntry 1 1 2 1 1]].
  split; [|split; [|split; [|split; [|split; [|split]]]]].
  - split; [repeat constructor; cbn; intuition discriminate|]. split; [cbn; intuition discriminate|].
    intros e x [E|[E|[]]]; injection E as <- <-; (split; [reflexivity|]; split; [reflexivity|]; split; cbn).
    + intros v [<-|[<-|[<-|[]]]]; discriminate.
    + intros n [<-|[<-|[<-|[]]]] D; auto.
    + intros v [<-|[<-|[<-|[]]]]; discriminate.
    + intros n [<-|[<-|[<-|[]]]] D; auto.
  - split; [reflexivity|]. split; [reflexivity|]. cbn. auto.
  - split; [reflexivity|]. split; [reflexivity|]. cbn. auto.
  - eexists. split; [left; reflexivity|]. split; [reflexivity | discriminate].
  - eexists. split; [left; reflexivity|]. split; [reflexivity | discriminate].
  - vm_compute. reflexivity.
  - intros g b [<-|[]] [<-|[]]. discriminate.
Qed.
Print Assumptions C18_double_neighbour_refuted.

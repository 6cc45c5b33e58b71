(** A lake at rest: constant elevation, no discharge. *)
From Coq Require Import Reals List Bool Arith Permutation.
From Verif Require Import ModelSWE ModelShape SpecShape ModelBasis SpecBasis SpecStepper ModelStep ModelInit.
From Coquelicot Require Import Coquelicot.
Import ListNotations.
Open Scope R_scope.

(** Quadrature rules that integrate all polynomials of degree d. *)
Definition exact1 (d : nat) (rule : list (R * R)) : Prop := forall k, (k <= d)%nat ->
  is_RInt (fun x => x ^ k) (-1) 1 (rsum (length rule) (fun gp => fst (nth gp rule (0, 0)) * snd (nth gp rule (0, 0)) ^ k)).
Definition exact2 (d : nat) (rule : list (R * point)) : Prop := forall i j, (i + j <= d)%nat ->
  is_triangle_int (fun x y => x ^ i * y ^ j) (rsum (length rule) (fun gp =>
    fst (nth gp rule (0, (0, 0))) * (fst (snd (nth gp rule (0, (0, 0)))) ^ i * snd (snd (nth gp rule (0, (0, 0)))) ^ j))).
(** No point on the line z2 = 1 except the vertex. *)
Definition off_line (rule : list (R * point)) : Prop := forall gp, (gp < length rule)%nat ->
  snd (snd (nth gp rule (0, (0, 0)))) <> 1 \/ snd (nth gp rule (0, (0, 0))) = (-1, 1).
Definition symmetric_points (rule : list (R * R)) : Prop := forall gp, (gp < length rule)%nat ->
  snd (nth (length rule - gp - 1) rule (0, 0)) = - snd (nth gp rule (0, 0)) /\ Rabs (snd (nth gp rule (0, 0))) <= 1.

(** The (element, face) pairs of a mesh. *)
Definition sides (fs : list intface) (bs : list bound) : list (nat * nat) :=
  flat_map (fun f => [(i_in f, i_bin f); (i_ex f, i_bex f)]) fs ++ map (fun b => (b_elt b, b_id b)) bs.

(** A mesh of proper triangles where every face of every element occurs once; the
    two sides of an interface are the same segment run through in opposite
    directions (for levees up to a translation), with the same bathymetry unless
    there is a levee. *)
Record conforming (i : input) : Prop := Conforming {
  cf_order : (1 <= in_p i <= 298)%nat;
  cf_rule2 : exact2 (2 * in_p i) (in_rule2 i);
  cf_rule1 : exact1 (2 * in_p i + 1) (in_rule1 i);
  cf_off : off_line (in_rule2 i);
  cf_sym : symmetric_points (in_rule1 i);
  cf_triangles : forall e, (e < in_n i)%nat -> 0 < orient (in_nodes i e 0%nat) (in_nodes i e 1%nat) (in_nodes i e 2%nat);
  cf_faces : Permutation (sides (in_intfaces i) (in_bounds i)) (list_prod (seq 0 (in_n i)) (seq 0 3));
  cf_segments : forall f, In f (in_intfaces i) ->
    let n := in_nodes i (i_in f) in let n' := in_nodes i (i_ex f) in
    vsub (n ((i_bin f + 2) mod 3)%nat) (n ((i_bin f + 1) mod 3)%nat) = vsub (n' ((i_bex f + 1) mod 3)%nat) (n' ((i_bex f + 2) mod 3)%nat);
  cf_bath : forall f, In f (in_intfaces i) -> i_kind f = Internal ->
    let z := in_z i (i_in f) in let z' := in_z i (i_ex f) in
    z ((i_bin f + 2) mod 3)%nat = z' ((i_bex f + 1) mod 3)%nat /\ z ((i_bin f + 1) mod 3)%nat = z' ((i_bex f + 2) mod 3)%nat }.

(** No forcing at elevation [c]: boundaries that answer the resting state with
    itself, no function source, no spherical projection. *)
Record unforced (i : input) (c : R) : Prop := Unforced {
  uf_bounds : forall b, In b (in_bounds i) -> match b_bc b with Land => True | Exterior ex => forall t gp n, ex t gp n (V3 c 0 0) = V3 c 0 0 end;
  uf_source : in_fs i = None;
  uf_plane : in_sph i = None }.

(** Coefficients of the resting state. *)
Definition resting (p : nat) (c : R) (q : coeffs) : Prop := forall var dof, (var < 3)%nat -> (dof < dubiner_ndof p)%nat ->
  q var dof = if (Nat.eqb var 0 && Nat.eqb dof 0)%bool then c else 0.
(** Every vertex is under more than [d] of water. *)
Definition submerged (i : input) (c d : R) : Prop := forall e v, (e < in_n i)%nat -> (v < 3)%nat -> d < c + in_z i e v.

(** Positions on a sphere and what the geographic input should mean. *)
From Coq Require Import Reals List Bool Arith.
From Verif Require Import ModelShape ModelStep ModelInit SpecShape.
Import ListNotations.
Open Scope R_scope.

(** Angles: degrees in radians with the twelve digits of the code, and exactly. *)
Definition rad (x : R) : R := x * (314159265359 / 100000000000 / 180).
Definition true_rad (x : R) : R := x * (PI / 180).
(** Lengths on a sphere of radius [r]: along a meridian and along the parallel at [lat]. *)
Definition meridian_arc (r dlat : R) : R := r * rad dlat.
Definition parallel_arc (r lat dlon : R) : R := r * cos (rad lat) * rad dlon.
(** Point reached from longitude [lon] after [s] metres along the parallel at [lat]. *)
Definition along_parallel (r lat lon s : R) : R := lon + s / (r * cos (rad lat)) / rad 1.
(** Safely away from the poles. *)
Definition below_pole (lat : R) : Prop := Rabs lat <= 90 - 1 / 100000000000.
(** Twice the rotation rate of the earth. *)
Definition two_omega : R := 145842 / 1000000000.

(** Mean of three values, and the nodes of a triangle given by longitude and latitude. *)
Definition mean3 (f : nat -> R) : R := (f 0%nat + f 1%nat + f 2%nat) / 3.

(** The rows of a file before the first unreadable line; the last row of a node counts,
    nodes without a row have zero. *)
Fixpoint readable {A} (l : list (option A)) : list A :=
  match l with Some a :: r => a :: readable r | _ => [] end.
Definition last_value (rows : list (nat * R)) (k : nat) : R :=
  match find (fun r => Nat.eqb (fst r) k) (rev rows) with Some r => snd r | None => 0 end.

(** The meshes' interfaces have their two nodes in common, in opposite order. *)
Definition matched (i : input) : Prop := forall f, In f (in_intfaces i) -> (i_bin f < 3)%nat /\ (i_bex f < 3)%nat /\
  in_nodes i (i_in f) ((i_bin f + 1) mod 3)%nat = in_nodes i (i_ex f) ((i_bex f + 2) mod 3)%nat /\
  in_nodes i (i_in f) ((i_bin f + 2) mod 3)%nat = in_nodes i (i_ex f) ((i_bex f + 1) mod 3)%nat.
(** Height on the map of Gauss point [gp] of face [b] of element [e]. *)
Definition face_y (i : input) (e b gp : nat) : R :=
  snd (on_segment (in_nodes i e ((b + 1) mod 3)%nat) (in_nodes i e ((b + 2) mod 3)%nat) (snd (nth gp (in_rule1 i) (0, 0)))).
(** Length on the map per length on the sphere, eastwards, at height y of the map of a
    sphere of radius r that is true at latitude lat_o. *)
Definition distortion (r lat_o y : R) : R := cos (rad lat_o) / cos (y / r).
(** Friction data of one element for nodal coefficients [n]. *)
Definition friction (g : R) (n : nat -> R) (ids : nat -> nat) : list R * R :=
  ([n (ids 0%nat); n (ids 1%nat); n (ids 2%nat)], g * (mean3 (fun v => n (ids v)) * mean3 (fun v => n (ids v)))).

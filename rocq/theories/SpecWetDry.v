(** Reference notions for wetting and drying.  The mean of a modal expansion over
    its element is its first coefficient (theorem C27_cell_mean). *)
From Coq Require Import Reals Arith.
From Verif Require Import ModelShape ModelBasis ModelWetDry.
Open Scope R_scope.

Definition cell_mean (u : nat -> R) : R := u 0%nat.

Definition master_vertex (v : nat) : point :=
  match v with 0%nat => (-1, -1) | 1%nat => (1, -1) | _ => (-1, 1) end.
(** Value at a vertex of the linear part of an expansion. *)
Definition vertex_value (u : nat -> R) (v : nat) : R :=
  u 0%nat * GetPhi 0 (master_vertex v) + u 1%nat * GetPhi 1 (master_vertex v) + u 2%nat * GetPhi 2 (master_vertex v).

Definition vertex_depth (bath : nat -> R) (s : elt_wd) (v : nat) : R := vertex_value (e_q s 0%nat) v + bath v.
(** Mean depth for linear bathymetry. *)
Definition mean_depth (bath : nat -> R) (s : elt_wd) : R :=
  cell_mean (e_q s 0%nat) + (bath 0%nat + bath 1%nat + bath 2%nat) / 3.

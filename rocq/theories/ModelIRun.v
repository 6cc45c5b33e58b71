(** The stopping test of the implicit HDG solver, serial and distributed. *)
From Coq Require Import Reals List Bool Arith.
From Verif Require Import Num ModelSWE ModelStep ModelIHDG ModelIPar.
Import ListNotations.
Open Scope R_scope.

Section Stop.
  Context (m : mesh).
  (** Entries of the global vector for one edge: 3 j + a holds coefficient [j] of variable
      [a] (reshape with SO::ColumnMajor, ihdg_swe_proc_serial_sol_glob_prob.hpp lines 131-173). *)
  Definition edge_entries (f : coeffs) : list R :=
    flat_map (fun j => map (fun a => f a j) (seq 0 3)) (seq 0 (S (m_p m))).
  (** The serial vector, interfaces and then boundaries. *)
  Definition serial_vector (dqh : nat -> coeffs) : list R :=
    flat_map (fun k => edge_entries (dqh k)) (seq 0 (length (m_intfaces m) + length (m_bounds m))).
  (** Edges whose entries a unit numbers, in the order of
      ihdg_swe_pre_init_global_prob.hpp lines 106-136: its interfaces and boundaries, and of
      the distributed edges those numbered here, which are those with the basis along the
      element (swe_pre_create_edge_dbound.hpp lines 29-33 and here lines 124, 219 make the
      same test). *)
  Definition numbered_by (un : iunit) : list nat :=
    un_ints un ++ un_bnds un ++ map de_edge (filter de_ccw (un_dist un)).
  (** The vector of all units in the order of the units. *)
  Definition par_vector (us : list iunit) (dqhs : nat -> nat -> coeffs) : list R :=
    flat_map (fun u => flat_map (fun k => edge_entries (dqhs u k)) (numbered_by (nth u us (IUnit [] [] [] [])))) (seq 0 (length us)).
End Stop.
(** Euclidean norm by length below 1e-8: ihdg_swe_proc_serial_sol_glob_prob.hpp lines
    187-193; ihdg_swe_proc_ompi_sol_glob_prob.hpp lines 307-319, where PETSc's VecNorm and
    VecGetSize give the norm and the length of the vector of all ranks to each of them. *)
Definition vec_norm (v : list R) : R := sqrt (fold_right (fun x s => x * x + s) 0 v).
Definition converged (v : list R) : bool := Rltb (vec_norm v / INR (length v)) (1 / 100000000).

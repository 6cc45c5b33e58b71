(** Newton update of the implicit HDG solver by static condensation.

    Code: source/problem/SWE/discretization_IHDG/kernels_processor/
      ihdg_swe_proc_serial_sol_glob_prob.hpp  (serial_solve_global_problem)
      ihdg_swe_proc_ompi_sol_glob_prob.hpp    (ompi_solve_global_problem)

    Matrices and vectors are functions of their indices; every use carries its
    dimensions.  Elements, boundaries and edges are C++ references, here indices
    (element number, bound_id) into a table.  [inverse] (Eigen) and the sparse
    solvers (Eigen::SparseLU, PETSc KSP) are library code: they are parameters.
    With Blaze the serial solver prints a message and calls abort()
    (use_blaze.hpp lines 234-245), so only the Eigen variant is modelled. *)
From Coq Require Import ZArith List Arith Bool Lia.
From Verif Require Import Num Outcome ModelSWE.
Import ListNotations.
Local Open Scope num_scope.

Section Cond.
  Context {T : Type} {N : Num T}.

  Fixpoint nsum (n : nat) (f : nat -> T) : T := match n with O => $0 | S m => nsum m f + f m end.
  Definition mm (k : nat) (A B : nat -> nat -> T) : nat -> nat -> T := fun i j => nsum k (fun l => A i l * B l j).
  Definition mv (k : nat) (A : nat -> nat -> T) (v : nat -> T) : nat -> T := fun i => nsum k (fun l => A i l * v l).

  (** problem_data_structure: data.boundary[bound_id].{delta_hat_local, delta_global,
      global_dof_indx}. *)
  Record bdata := BData { b_hat : nat -> nat -> T; b_glob : nat -> nat -> T; b_dofs : list nat }.
  (** elt.data: get_ndof(), internal.delta_local, internal.rhs_local, get_nbound(),
      boundary[], state[stage + 1].q (variable, dof). *)
  Record elt := Elt { e_ndof : nat; e_delta : nat -> nat -> T; e_rhs : nat -> T;
                      e_nbound : nat; e_bnd : nat -> bdata; e_q : nat -> nat -> T }.
  (** edge.edge_data: get_ndof(), edge_internal.{delta_hat_global, rhs_global,
      global_dof_indx}, edge_state.q_hat. *)
  Record edge := Edge { d_ndof : nat; d_delta : nat -> nat -> T; d_rhs : nat -> T; d_dofs : list nat;
                        d_qhat : nat -> nat -> T }.
  (** One side of an edge: element and bound_id. *)
  Definition slot : Type := nat * nat.

  (** mesh and mesh_skeleton; [s_size] is rows(delta_hat_global), [s_rhs] the content of
      global_data.rhs_global on entry. *)
  Record skeleton := Skel { s_nelt : nat; s_elt : nat -> elt;
    s_int : list (slot * slot * edge); s_bnd : list (slot * edge); s_size : nat; s_rhs : nat -> T }.

  Section Blocks.
    Context (els : nat -> elt) (inv : nat -> nat -> nat -> T).
    Definition bnd_of (s : slot) : bdata := e_bnd (els (fst s)) (snd s).
    Definition ldim (s : slot) : nat := (3 * e_ndof (els (fst s)))%nat.

    (** boundary.delta_global * internal.delta_local_inv * boundary_con.delta_hat_local. *)
    Definition side_block (s : slot) (b : nat) : nat -> nat -> T :=
      mm (ldim s) (mm (ldim s) (b_glob (bnd_of s)) (inv (fst s))) (b_hat (bnd_of (fst s, b))).
    (** the same with a leading minus sign on delta_global, lines 55, 74, 115. *)
    Definition side_block_neg (s : slot) (b : nat) : nat -> nat -> T :=
      mm (ldim s) (mm (ldim s) (fun i j => - b_glob (bnd_of s) i j) (inv (fst s))) (b_hat (bnd_of (fst s, b))).
    (** boundary.delta_global * internal.delta_local_inv * internal.rhs_local. *)
    Definition side_rhs (s : slot) : nat -> T :=
      mv (ldim s) (mm (ldim s) (b_glob (bnd_of s)) (inv (fst s))) (e_rhs (els (fst s))).

    (** lines 41-46 and 59-64: one triplet per entry of a block. *)
    Definition block (rows cols : list nat) (f : nat -> nat -> T) : list (nat * nat * T) :=
      flat_map (fun i => map (fun j => (nth i rows 0%nat, nth j cols 0%nat, f i j)) (seq 0 (length cols)))
               (seq 0 (length rows)).

    (** lines 48-65 (and 67-84, 108-125): couplings with the other boundaries of the element. *)
    Definition off_diagonal (s : slot) (ed : edge) : list (nat * nat * T) :=
      flat_map (fun b => if Nat.eqb b (snd s) then []
                         else block (d_dofs ed) (b_dofs (bnd_of (fst s, b))) (side_block_neg s b))
               (seq 0 (e_nbound (els (fst s)))).

    (** lines 32-37 and 95-97. *)
    Definition int_delta (s1 s2 : slot) (ed : edge) : nat -> nat -> T :=
      fun i j => d_delta ed i j - (side_block s1 (snd s1) i j + side_block s2 (snd s2) i j).
    Definition int_rhs (s1 s2 : slot) (ed : edge) : nat -> T :=
      fun i => d_rhs ed i - (side_rhs s1 i + side_rhs s2 i).
    Definition bnd_delta (s : slot) (ed : edge) : nat -> nat -> T :=
      fun i j => d_delta ed i j - side_block s (snd s) i j.
    Definition bnd_rhs (s : slot) (ed : edge) : nat -> T := fun i => d_rhs ed i - side_rhs s i.

    Definition int_triplets (s1 s2 : slot) (ed : edge) : list (nat * nat * T) :=
      block (d_dofs ed) (d_dofs ed) (int_delta s1 s2 ed) ++ off_diagonal s1 ed ++ off_diagonal s2 ed.
    Definition bnd_triplets (s : slot) (ed : edge) : list (nat * nat * T) :=
      block (d_dofs ed) (d_dofs ed) (bnd_delta s ed) ++ off_diagonal s ed.
  End Blocks.

  (** subvector(rhs_global, global_dof_indx[0], global_dof_indx.size()) = v, lines 39, 99:
      undefined for an empty index list or a range beyond the vector. *)
  Definition set_sub (size : nat) (w : nat -> T) (dofs : list nat) (v : nat -> T) : outcome (nat -> T) :=
    match dofs with
    | [] => UB
    | off :: _ => if Nat.leb (off + length dofs) size
                  then Ok (fun r => if Nat.leb off r && Nat.ltb r (off + length dofs) then v (r - off)%nat else w r)
                  else UB
    end.

  (** lines 21-126. *)
  Definition assemble (sk : skeleton) (inv : nat -> nat -> nat -> T) : outcome ((nat -> T) * list (nat * nat * T)) :=
    do a <- ofold (fun a (e : slot * slot * edge) =>
        let '(s1, s2, ed) := e in
        do w <- set_sub (s_size sk) (fst a) (d_dofs ed) (int_rhs (s_elt sk) inv s1 s2 ed) ;
        Ok (w, snd a ++ int_triplets (s_elt sk) inv s1 s2 ed)) (s_int sk) (s_rhs sk, []) ;
    ofold (fun a (e : slot * edge) =>
        let '(s, ed) := e in
        do w <- set_sub (s_size sk) (fst a) (d_dofs ed) (bnd_rhs (s_elt sk) inv s ed) ;
        Ok (w, snd a ++ bnd_triplets (s_elt sk) inv s ed)) (s_bnd sk) a.

  (** get_sparse_matrix, use_eigen.hpp line 62: Eigen's setFromTriplets adds up the values of
      repeated positions; positions outside the matrix are undefined. *)
  Definition entry (ts : list (nat * nat * T)) (r c : nat) : T :=
    fold_left (fun s t => if Nat.eqb (fst (fst t)) r && Nat.eqb (snd (fst t)) c then s + snd t else s) ts $0.
  Definition in_range (size : nat) (ts : list (nat * nat * T)) : bool :=
    forallb (fun t => Nat.ltb (fst (fst t)) size && Nat.ltb (snd (fst t)) size) ts.

  (** reshape<double, 3, ColumnMajor>: entry (variable, dof) of a vector. *)
  Definition reshape3 (v : nat -> T) : nat -> nat -> T := fun var dof => v (var + 3 * dof)%nat.

  Record result := Res { r_q : nat -> nat -> nat -> T; r_int : list (nat -> nat -> T);
                         r_bnd : list (nat -> nat -> T); r_conv : bool }.

  (** lines 146-147, 164: internal.rhs_local -= boundary.delta_hat_local * del_q_hat. *)
  Definition sub_hat (els : nat -> elt) (n : nat) (x : nat -> T) (rl : nat -> nat -> T) (s : slot) : nat -> nat -> T :=
    upd rl (fst s) (fun m => rl (fst s) m - mv n (b_hat (bnd_of els s)) x m).

  (** del_q_hat, lines 144 and 162 (the assembly has already read global_dof_indx[0]). *)
  Definition del_qhat (x : nat -> T) (ed : edge) : nat -> T := fun j => x (hd 0%nat (d_dofs ed) + j)%nat.
  Definition new_qhat (dx : edge -> nat -> T) (ed : edge) : nat -> nat -> T :=
    fun var dof => d_qhat ed var dof + reshape3 (dx ed) var dof.

  (** lines 132-188, shared by both versions up to how an edge finds its part of the
      solution ([dx]); the norm is taken over the [size] entries of the solution. *)
  Definition back_substitute (els : nat -> elt) (inv : nat -> nat -> nat -> T) (ints : list (slot * slot * edge))
      (bnds : list (slot * edge)) (dx : edge -> nat -> T) : nat -> nat -> nat -> T :=
    let rl0 := fun K => e_rhs (els K) in
    let rl1 := fold_left (fun rl (e : slot * slot * edge) =>
                  let '(s1, s2, ed) := e in
                  sub_hat els (length (d_dofs ed)) (dx ed) (sub_hat els (length (d_dofs ed)) (dx ed) rl s1) s2) ints rl0 in
    let rl2 := fold_left (fun rl (e : slot * edge) => sub_hat els (length (d_dofs (snd e))) (dx (snd e)) rl (fst e)) bnds rl1 in
    fun K var dof => e_q (els K) var dof + reshape3 (mv (3 * e_ndof (els K)) (inv K) (rl2 K)) var dof.

  (** lines 182-188. *)
  Definition converged (size : nat) (x : nat -> T) : bool :=
    nsqrt (nsum size (fun r => x r * x r)) / nofZ (BinInt.Z.of_nat size) <? $1 / $100000000.

  Definition serial_solve_global_problem (inverse : nat -> (nat -> nat -> T) -> nat -> nat -> T)
      (solve_sle : nat -> (nat -> nat -> T) -> (nat -> T) -> nat -> T) (sk : skeleton) : outcome result :=
    let inv := fun K => inverse (3 * e_ndof (s_elt sk K))%nat (e_delta (s_elt sk K)) in
    do a <- assemble sk inv ;
    let '(rhs, ts) := a in
    if in_range (s_size sk) ts then
      let x := solve_sle (s_size sk) (entry ts) rhs in
      Ok (Res (back_substitute (s_elt sk) inv (s_int sk) (s_bnd sk) (del_qhat x))
              (map (fun e => new_qhat (del_qhat x) (snd e)) (s_int sk))
              (map (fun e => new_qhat (del_qhat x) (snd e)) (s_bnd sk))
              (converged (s_size sk) x))
    else UB.

  (** ** Distributed version.  All submeshes of all ranks contribute to one PETSc matrix and
      vector with ADD_VALUES, starting from zero (MatZeroEntries/VecZeroEntries, lines
      321-322).  delta_hat_global_flat is the row-major image of the block, which is the
      layout MatSetValues expects, so a call adds one value per entry.  An edge between two
      submeshes appears in both of them, as a "distributed" edge with its own part of the
      block and right-hand side.  Elements are numbered through all submeshes. *)
  Record unit_edges := Unit { u_ints : list (slot * slot * edge); u_bnds : list (slot * edge); u_dists : list (slot * edge) }.

  (** VecSetValues(..., ADD_VALUES). *)
  Definition add_sub (w : nat -> T) (dofs : list nat) (v : nat -> T) : nat -> T :=
    fold_left (fun w i => upd w (nth i dofs 0%nat) (w (nth i dofs 0%nat) + v i)) (seq 0 (length dofs)) w.

  (** lines 135-280. *)
  Definition ompi_assemble (els : nat -> elt) (inv : nat -> nat -> nat -> T) (us : list unit_edges)
      : (nat -> T) * list (nat * nat * T) :=
    fold_left (fun a u =>
      let one := fun a (e : slot * edge) =>
        (add_sub (fst a) (d_dofs (snd e)) (bnd_rhs els inv (fst e) (snd e)), snd a ++ bnd_triplets els inv (fst e) (snd e)) in
      let a1 := fold_left (fun a (e : slot * slot * edge) =>
        let '(s1, s2, ed) := e in
        (add_sub (fst a) (d_dofs ed) (int_rhs els inv s1 s2 ed), snd a ++ int_triplets els inv s1 s2 ed)) (u_ints u) a in
      fold_left one (u_dists u) (fold_left one (u_bnds u) a1)) us (fun _ => $0, []).

  Record ompi_result := ORes { o_q : nat -> nat -> nat -> T; o_int : list (list (nat -> nat -> T));
    o_bnd : list (list (nat -> nat -> T)); o_dist : list (list (nat -> nat -> T)); o_conv : bool }.

  (** global_data.solution holds the entries of the solution listed by the edges of this
      rank; sol_offset points at the edge's part (C33_solution_offsets), so an edge reads the
      solution at its own global_dof_indx. *)
  Definition del_qhat_ompi (x : nat -> T) (ed : edge) : nat -> T := fun j => x (nth j (d_dofs ed) 0%nat).

  (** Lines 326-393 run submesh by submesh; an element belongs to one submesh, so handling all
      interfaces before all boundaries and distributed edges gives the same updates in exact
      arithmetic.  A position outside the matrix is an error return of PETSc which the code ignores; it is
      reported as UB here. *)
  Definition ompi_solve_global_problem (inverse : nat -> (nat -> nat -> T) -> nat -> nat -> T)
      (ksp_solve : nat -> (nat -> nat -> T) -> (nat -> T) -> nat -> T) (size : nat) (els : nat -> elt)
      (us : list unit_edges) : outcome ompi_result :=
    let inv := fun K => inverse (3 * e_ndof (els K))%nat (e_delta (els K)) in
    let '(rhs, ts) := ompi_assemble els inv us in
    if in_range size ts then
      let x := ksp_solve size (entry ts) rhs in
      let dx := del_qhat_ompi x in
      Ok (ORes (back_substitute els inv (flat_map u_ints us) (flat_map u_bnds us ++ flat_map u_dists us) dx)
               (map (fun u => map (fun e => new_qhat dx (snd e)) (u_ints u)) us)
               (map (fun u => map (fun e => new_qhat dx (snd e)) (u_bnds u)) us)
               (map (fun u => map (fun e => new_qhat dx (snd e)) (u_dists u)) us)
               (converged size x))
    else UB.
End Cond.
Arguments bdata T : clear implicits.
Arguments elt T : clear implicits.
Arguments edge T : clear implicits.
Arguments skeleton T : clear implicits.
Arguments result T : clear implicits.
Arguments unit_edges T : clear implicits.
Arguments ompi_result T : clear implicits.

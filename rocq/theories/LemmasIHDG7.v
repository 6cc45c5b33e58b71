(** The trace equations of the Newton system. *)
From Coq Require Import Reals List Bool Arith Lra Lia.
From Coquelicot Require Import Coquelicot.
From Verif Require Import Num ModelSWE ModelShape ModelBasis ModelJac SpecJac LemmasJac LemmasJac2 SpecStepper LemmasSWE LemmasRK LemmasBasis2 LemmasBasis3
  LemmasBasis4 ModelStep LemmasStep ModelIHDG SpecIHDG LemmasIHDG1 LemmasIHDG2 LemmasIHDG3 LemmasIHDG4 LemmasIHDG5 LemmasIHDG6.
Import ListNotations.
Open Scope R_scope.

Section System.
  Context (m : mesh) (eaux : nat -> nat -> aux3 R) (g dt theta t : R) (qp rp : nat -> coeffs) (s0 : newton).
  Notation sys := (fun q qh => newton_system m eaux g dt theta t qp rp q qh s0).
  Notation ni := (length (m_intfaces m)).
  Notation nb := (length (m_bounds m)).

  Lemma lambda_ext : forall e b u u' a i, (forall gp, (gp < ngp1 m)%nat -> u gp = u' gp) -> edge_lambda m e b u a i = edge_lambda m e b u' a i.
  Proof. intros e b u u' a i X. unfold edge_lambda. apply vmsum_ext. intros gp H. rewrite X by exact H. reflexivity. Qed.
  Lemma lambda_add : forall e b u u' a i, edge_lambda m e b (fun gp => vadd (u gp) (u' gp)) a i = edge_lambda m e b u a i + edge_lambda m e b u' a i.
  Proof.
    intros e b u u' a i. unfold edge_lambda. rewrite !vmsum_rsum, <- rsum_plus. apply rsum_ext. intros gp _. rewrite vget_add. ring.
  Qed.

  (** Trace integrals in the trace coefficients. *)
  Lemma lam_trace : forall (F : nat -> vec3 R -> vec3 R) (D : nat -> mat3) e b qh ed a i v j, (v < 3)%nat -> (j < nedof m)%nat ->
    (forall gp, (gp < ngp1 m)%nat -> vgrad (fun w => vget (F gp w) a) (u_edge m qh ed gp) (mget (D gp) a)) ->
    partial (fun q' => edge_lambda m e b (fun gp => F gp (u_edge m q' ed gp)) a i) qh ed v j (lambda_lambda m e b j i D a v).
  Proof.
    intros F D e b qh ed a i v j Hv Hj G.
    refine (part_ext _ _ _ _ _ _ _ _ (trace_sum m (ngp1 m) (fun gp => gp) (fun gp w => vget (F gp w) a) _ (fun gp => lambda_fact m e b gp i) qh ed v j Hv Hj G)
      (fun _ => eq_refl) _).
    unfold lambda_lambda. apply vmsum_ext. intros gp _. ring.
  Qed.
  Lemma lambda_lambda_comm : forall e b i j D a v, lambda_lambda m e b i j D a v = lambda_lambda m e b j i D a v.
  Proof. intros. unfold lambda_lambda, lambda_fact. apply vmsum_ext. intros gp _. ring. Qed.
  Lemma lambda_lambda_add : forall e b i j D D' a v,
    lambda_lambda m e b i j (fun gp => madd (D gp) (D' gp)) a v = lambda_lambda m e b i j D a v + lambda_lambda m e b i j D' a v.
  Proof. intros. unfold lambda_lambda. rewrite !vmsum_rsum, <- rsum_plus. apply rsum_ext. intros gp _. rewrite mget_add. ring. Qed.
  Lemma lambda_lambda_ext : forall e b i j D D' a v, (forall gp, mget (D gp) a v = mget (D' gp) a v) ->
    lambda_lambda m e b i j D a v = lambda_lambda m e b i j D' a v.
  Proof. intros e b i j D D' a v X. unfold lambda_lambda. apply vmsum_ext. intros gp _. rewrite X. reflexivity. Qed.
  (** Trace integrals in the element coefficients. *)
  Lemma lam_face : forall (F : nat -> vec3 R -> vec3 R) (D : nat -> mat3) e b f q x a i v j, (v < 3)%nat -> (j < ndof m)%nat ->
    (forall gp, (gp < ngp1 m)%nat -> vgrad (fun w => vget (F gp w) a) (u_face m q x f gp) (mget (D gp) a)) ->
    partial (fun q' => edge_lambda m e b (fun gp => F gp (u_face m q' x f gp)) a i) q x v j (phi_lambda_in m e b f j i D a v).
  Proof.
    intros F D e b f q x a i v j Hv Hj G.
    refine (part_ext _ _ _ _ _ _ _ _ (coef_sum m (ngp1 m) (fun gp => BoundaryToMasterCoordinates f (z1 m gp)) (fun gp w => vget (F gp w) a) _
      (fun gp => lambda_fact m e b gp i) q x v j Hv Hj G) (fun _ => eq_refl) _).
    unfold phi_lambda_in. apply vmsum_ext. intros gp _. ring.
  Qed.
  Lemma lam_face_mirror : forall (F : nat -> vec3 R -> vec3 R) (D : nat -> mat3) e b f q x a i v j, (v < 3)%nat -> (j < ndof m)%nat ->
    (forall gp, (gp < ngp1 m)%nat -> vgrad (fun w => vget (F gp w) a) (u_face m q x f (mirror m gp)) (mget (D gp) a)) ->
    partial (fun q' => edge_lambda m e b (fun gp => F gp (u_face m q' x f (mirror m gp))) a i) q x v j
      (phi_lambda_ex m e b f j i (fun gp => D (mirror m gp)) a v).
  Proof.
    intros F D e b f q x a i v j Hv Hj G.
    refine (part_ext _ _ _ _ _ _ _ _ (coef_sum m (ngp1 m) (fun gp => BoundaryToMasterCoordinates f (z1 m (mirror m gp))) (fun gp w => vget (F gp w) a) _
      (fun gp => lambda_fact m e b gp i) q x v j Hv Hj G) (fun _ => eq_refl) _).
    unfold phi_lambda_ex. rewrite (vmsum_mirror m). apply vmsum_ext. intros gp H. cbv beta. rewrite mirror_mirror by exact H. ring.
  Qed.
  Lemma lam_face_other : forall (F : nat -> vec3 R -> vec3 R) (pm : nat -> nat) e b f q x y a i v j, x <> y ->
    partial (fun q' => edge_lambda m e b (fun gp => F gp (u_face m q' x f (pm gp))) a i) q y v j 0.
  Proof.
    intros F pm e b f q x y a i v j N. apply part_same. intros s. apply lambda_ext. intros gp _. unfold u_face. rewrite expand_other by exact N. reflexivity.
  Qed.

  (** Interface equations. *)
  Lemma grhs_int_form : forall q qh ed a i, (ed < ni)%nat -> nw_grhs (sys q qh) ed a i =
    let f := the_int m ed in let n := normal m (i_in f) (i_bin f) in
    -1 * (edge_lambda m (i_in f) (i_bin f) (fun gp => Fpt g (eaux ed gp) n 1 (u_face m q (i_in f) (i_bin f) gp) (u_edge m qh ed gp)) a i +
          edge_lambda m (i_in f) (i_bin f) (fun gp => Fpt g (eaux ed gp) n (-1) (u_face m q (i_ex f) (i_bex f) (mirror m gp)) (u_edge m qh ed gp)) a i).
  Proof.
    intros q qh ed a i H. cbv zeta. rewrite <- lambda_add. rewrite grhs_int by exact H.
    rewrite (lambda_ext _ _ (int_kern_rhs m eaux g q qh ed) (fun gp => vadd (Fpt g (eaux ed gp) (normal m (i_in (the_int m ed)) (i_bin (the_int m ed))) 1 (u_face m q (i_in (the_int m ed)) (i_bin (the_int m ed)) gp) (u_edge m qh ed gp))
      (Fpt g (eaux ed gp) (normal m (i_in (the_int m ed)) (i_bin (the_int m ed))) (-1) (u_face m q (i_ex (the_int m ed)) (i_bex (the_int m ed)) (mirror m gp)) (u_edge m qh ed gp)))).
    - ring.
    - intros gp _. unfold int_kern_rhs. cbv zeta. rewrite F_in_pt. reflexivity.
  Qed.
  Lemma hglob_int_form : forall q qh ed i a j b, (ed < ni)%nat -> nw_hglob (sys q qh) ed i a j b =
    let f := the_int m ed in let n := normal m (i_in f) (i_bin f) in
    lambda_lambda m (i_in f) (i_bin f) j i (fun gp => dFpt g (eaux ed gp) n 1 (u_face m q (i_in f) (i_bin f) gp) (u_edge m qh ed gp)) a b +
    lambda_lambda m (i_in f) (i_bin f) j i (fun gp => dFpt g (eaux ed gp) n (-1) (u_face m q (i_ex f) (i_bex f) (mirror m gp)) (u_edge m qh ed gp)) a b.
  Proof.
    intros q qh ed i a j b H. cbv beta zeta. rewrite hglob_int by exact H. rewrite lambda_lambda_comm, <- lambda_lambda_add.
    apply lambda_lambda_ext. intros gp. unfold int_kern_hat. cbv zeta. rewrite !mget_add, dF_in_pt. reflexivity.
  Qed.
  Lemma global_trace_int : forall q qh ed a i v j, 0 < g -> (ed < ni)%nat -> (a < 3)%nat -> (v < 3)%nat -> (j < nedof m)%nat ->
    deep_edge m eaux qh ed -> flowing m eaux qh ed ->
    partial (fun q' => nw_grhs (sys q q') ed a i) qh ed v j (- nw_hglob (sys q qh) ed i a j v).
  Proof.
    intros q qh ed a i v j Hg He Ha Hv Hj Dp Fl. pose proof (flow_int m eaux qh ed He Fl) as Fn.
    refine (part_ext _ _ _ _ _ _ _ _ (part_scal _ _ _ _ (-1) _ _ (part_plus _ _ _ _ _ _ _ _
      (lam_trace _ _ _ _ qh ed a i v j Hv Hj (fun gp H => Fpt_hat g (eaux ed gp) _ 1 _ _ a Hg (Dp gp H) (Fn gp H) Ha))
      (lam_trace _ _ _ _ qh ed a i v j Hv Hj (fun gp H => Fpt_hat g (eaux ed gp) _ (-1) _ _ a Hg (Dp gp H) (Fn gp H) Ha)))) _ _).
    - intros q'. symmetry. apply grhs_int_form. exact He.
    - rewrite hglob_int_form by exact He. cbv zeta. ring.
  Qed.

  (** Boundary equations. *)
  Definition bd_rhs (q qh : nat -> coeffs) (ed gp : nat) : vec3 R := snd (bd_kern m eaux g t q qh ed gp).
  Lemma global_trace_bnd : forall q qh ed a i v j, 0 < g -> (ni <= ed < ni + nb)%nat -> (a < 3)%nat -> (v < 3)%nat -> (j < nedof m)%nat ->
    deep_edge m eaux qh ed -> (is_open (b_bc (the_bnd m ed)) = true -> noncritical_edge m eaux g qh ed) ->
    partial (fun q' => nw_grhs (sys q q') ed a i) qh ed v j (- nw_hglob (sys q qh) ed i a j v).
  Proof.
    intros q qh ed a i v j Hg He Ha Hv Hj Dp Nc.
    set (b := the_bnd m ed) in *. set (n := normal m (b_elt b) (b_id b)).
    assert (P : partial (fun q' => edge_lambda m (b_elt b) (b_id b) (fun gp => snd (bd_kern m eaux g t q q' ed gp)) a i) qh ed v j
      (lambda_lambda m (b_elt b) (b_id b) j i (fun gp => snd (fst (bd_kern m eaux g t q qh ed gp))) a v)).
    { unfold bd_kern. fold b. cbv zeta. fold n.
      apply (lam_trace (fun gp w => snd (bc_kernels g t (b_bc b) n gp (u_face m q (b_elt b) (b_id b) gp) w (with_depth (eaux ed gp) w)))); [exact Hv|exact Hj|].
      intros gp H. unfold bc_kernels. destruct (b_bc b) as [|ex]; cbn [snd fst].
      - apply land_hat_grad. exact Ha.
      - refine (open_hat_grad g (eaux ed gp) n _ _ _ a Hg (Dp gp H) _ Ha).
        specialize (Nc eq_refl gp H). unfold trace_un, edge_normal in Nc. rewrite side_bnd in Nc by lia. exact Nc. }
    refine (part_ext _ _ _ _ _ _ _ _ (part_scal _ _ _ _ (-1) _ _ P) _ _).
    - intros q'. rewrite grhs_bnd by exact He. fold b. ring.
    - rewrite hglob_bnd by exact He. fold b. ring.
  Qed.

  (** The trace unknowns of other edges. *)
  Lemma edge_other' : forall qh ed ed' v j s gp, ed' <> ed -> u_edge m (bump qh ed v j s) ed' gp = u_edge m qh ed' gp.
  Proof. intros. apply edge_other. assumption. Qed.
  Theorem global_trace_other : forall q qh ed ed' a i v j, (ed' < ni + nb)%nat -> ed' <> ed ->
    partial (fun q' => nw_grhs (sys q q') ed' a i) qh ed v j 0.
  Proof.
    intros q qh ed ed' a i v j H N. apply part_same. intros s. destruct (Nat.ltb_spec ed' ni) as [L|L].
    - rewrite !grhs_int_form by exact L. cbv zeta. f_equal. f_equal; apply lambda_ext; intros gp _; rewrite edge_other by exact N; reflexivity.
    - rewrite !grhs_bnd by lia. f_equal. apply lambda_ext. intros gp _. unfold bd_kern, a_edge. cbv zeta. rewrite edge_other by exact N. reflexivity.
  Qed.

  (** The element unknowns. *)
  Lemma global_local_int : forall q qh ed e f a i v j, conforming m -> (ed < ni)%nat -> In (e, f) (sides m ed) ->
    (a < 3)%nat -> (v < 3)%nat -> (j < ndof m)%nat ->
    partial (fun q' => nw_grhs (sys q' qh) ed a i) q e v j (- nw_glob (sys q qh) e f i a j v).
  Proof.
    intros q qh ed e f a i v j C He I Ha Hv Hj. pose proof (int_distinct m ed C He) as Ne. rewrite side_int in I by exact He.
    set (n := normal m (i_in (the_int m ed)) (i_bin (the_int m ed))).
    destruct I as [E|[E|[]]]; inversion E; subst e f.
    - refine (part_ext _ _ _ _ _ _ _ _ (part_scal _ _ _ _ (-1) _ _ (part_plus _ _ _ _ _ _ _ _
        (lam_face (fun gp w => Fpt g (eaux ed gp) n 1 w (u_edge m qh ed gp)) _ (i_in (the_int m ed)) (i_bin (the_int m ed)) (i_bin (the_int m ed)) q (i_in (the_int m ed)) a i v j Hv Hj
          (fun gp H => Fpt_side g (eaux ed gp) n 1 (u_edge m qh ed gp) _ a Ha))
        (lam_face_other (fun gp w => Fpt g (eaux ed gp) n (-1) w (u_edge m qh ed gp)) (mirror m) (i_in (the_int m ed)) (i_bin (the_int m ed)) (i_bex (the_int m ed))
          q (i_ex (the_int m ed)) (i_in (the_int m ed)) a i v j (not_eq_sym Ne)))) _ _).
      + intros q'. symmetry. apply grhs_int_form. exact He.
      + rewrite glob_in by assumption. unfold in_glob, tau_mat, tau_at, a_edge. cbv zeta. fold n. ring.
    - refine (part_ext _ _ _ _ _ _ _ _ (part_scal _ _ _ _ (-1) _ _ (part_plus _ _ _ _ _ _ _ _
        (lam_face_other (fun gp w => Fpt g (eaux ed gp) n 1 w (u_edge m qh ed gp)) (fun gp => gp) (i_in (the_int m ed)) (i_bin (the_int m ed)) (i_bin (the_int m ed))
          q (i_in (the_int m ed)) (i_ex (the_int m ed)) a i v j Ne)
        (lam_face_mirror (fun gp w => Fpt g (eaux ed gp) n (-1) w (u_edge m qh ed gp)) _ (i_in (the_int m ed)) (i_bin (the_int m ed)) (i_bex (the_int m ed)) q (i_ex (the_int m ed)) a i v j Hv Hj
          (fun gp H => Fpt_side g (eaux ed gp) n (-1) (u_edge m qh ed gp) _ a Ha)))) _ _).
      + intros q'. symmetry. apply grhs_int_form. exact He.
      + rewrite glob_ex by assumption. unfold ex_glob, tau_mat, tau_at, a_edge. cbv zeta. fold n. ring.
  Qed.
  Lemma global_local_bnd : forall q qh ed e f a i v j, conforming m -> (ni <= ed < ni + nb)%nat -> In (e, f) (sides m ed) ->
    prescribed (b_bc (the_bnd m ed)) -> (a < 3)%nat -> (v < 3)%nat -> (j < ndof m)%nat ->
    partial (fun q' => nw_grhs (sys q' qh) ed a i) q e v j (- nw_glob (sys q qh) e f i a j v).
  Proof.
    intros q qh ed e f a i v j C He I Pr Ha Hv Hj. rewrite side_bnd in I by lia. destruct I as [E|[]]; inversion E; subst e f.
    set (b := the_bnd m ed) in *. set (n := normal m (b_elt b) (b_id b)).
    assert (P : partial (fun q' => edge_lambda m (b_elt b) (b_id b) (fun gp => snd (bd_kern m eaux g t q' qh ed gp)) a i) q (b_elt b) v j
      (phi_lambda_in m (b_elt b) (b_id b) (b_id b) j i (fun gp => fst (fst (bd_kern m eaux g t q qh ed gp))) a v)).
    { unfold bd_kern. fold b. cbv zeta. fold n.
      apply (lam_face (fun gp w => snd (bc_kernels g t (b_bc b) n gp w (u_edge m qh ed gp) (a_edge m eaux qh ed gp)))); [exact Hv|exact Hj|].
      intros gp H. unfold bc_kernels. destruct (b_bc b) as [|ex]; cbn [snd fst].
      - apply land_side_grad. exact Ha.
      - refine (grad_ext _ _ _ _ _ (open_side_grad g (eaux ed gp) n (u_edge m qh ed gp) (ex t gp n (V3 0 0 0)) _ a Ha) _ (fun _ _ => eq_refl)).
        intros w. rewrite (Pr t gp n w (V3 0 0 0)). reflexivity. }
    refine (part_ext _ _ _ _ _ _ _ _ (part_scal _ _ _ _ (-1) _ _ P) _ _).
    - intros q'. rewrite grhs_bnd by exact He. fold b. ring.
    - unfold b. rewrite glob_bnd by assumption. unfold bd_glob. cbv zeta. ring.
  Qed.
  Theorem global_local_other : forall q qh ed e a i v j, (ed < ni + nb)%nat -> (forall f, ~ In (e, f) (sides m ed)) ->
    partial (fun q' => nw_grhs (sys q' qh) ed a i) q e v j 0.
  Proof.
    intros q qh ed e a i v j H I. apply part_same. intros s. destruct (Nat.ltb_spec ed ni) as [L|L].
    - rewrite side_int in I by exact L.
      assert (N1 : i_in (the_int m ed) <> e) by (intros <-; apply (I (i_bin (the_int m ed))); left; reflexivity).
      assert (N2 : i_ex (the_int m ed) <> e) by (intros <-; apply (I (i_bex (the_int m ed))); right; left; reflexivity).
      rewrite !grhs_int_form by exact L. cbv zeta. f_equal. f_equal; apply lambda_ext; intros gp _; unfold u_face; rewrite expand_other by assumption; reflexivity.
    - rewrite side_bnd in I by exact L.
      assert (N1 : b_elt (the_bnd m ed) <> e) by (intros <-; apply (I (b_id (the_bnd m ed))); left; reflexivity).
      rewrite !grhs_bnd by lia. f_equal. apply lambda_ext. intros gp _. unfold bd_kern. cbv zeta. unfold u_face. rewrite expand_other by assumption. reflexivity.
  Qed.
  (** Open boundary whose exterior state is affine in the interior state. *)
  Lemma mget_mmul : forall A B a b, mget (mmul A B) a b = mget A a 0 * mget B 0 b + mget A a 1 * mget B 1 b + mget A a 2 * mget B 2 b.
  Proof. intros A B [|[|a]] [|[|b]]; reflexivity. Qed.
  Lemma open_affine_grad : forall (av : aux3 R) n u (E : mat3) c q a, (a < 3)%nat ->
    vgrad (fun w => vget (open_rhs g u (with_depth av u) n w (vadd (mvec E w) c)) a) q
      (mget (msub (get_Aplus g u (with_depth av u) n) (mmul (get_Aminus g u (with_depth av u) n) E)) a).
  Proof.
    intros av n u E c q a Ha.
    set (A := get_Aplus g u (with_depth av u) n). set (B := get_Aminus g u (with_depth av u) n).
    assert (L0 : (0 < 3)%nat) by lia. assert (L1 : (1 < 3)%nat) by lia. assert (L2 : (2 < 3)%nat) by lia.
    pose proof (grad_plus _ _ _ _ _ (grad_plus _ _ _ _ _ (grad_scal (mget (msub A (mmul B E)) a 0) _ _ _ (grad_get 0 q L0)) (grad_scal (mget (msub A (mmul B E)) a 1) _ _ _ (grad_get 1 q L1)))
      (grad_plus _ _ _ _ _ (grad_scal (mget (msub A (mmul B E)) a 2) _ _ _ (grad_get 2 q L2))
        (grad_const (vget (open_rhs g u (with_depth av u) n (V3 0 0 0) (vadd (mvec E (V3 0 0 0)) c)) a) q))) as K.
    refine (grad_ext _ _ _ _ _ K _ _).
    - intros w. unfold open_rhs. fold A B. rewrite !vget_sub, !vget_mvec, !vget_sub, !vget_add, !vget_mvec, !mget_sub, !mget_mmul. cbn [vget ze qx qy]. ring.
    - intros v Hv. destruct v as [|[|[|v]]]; [| | |lia]; unfold kron; cbn [Nat.eqb]; ring.
  Qed.
  Lemma phi_in_sub : forall e b f j i D D' a v,
    phi_lambda_in m e b f j i (fun gp => msub (D gp) (D' gp)) a v = phi_lambda_in m e b f j i D a v - phi_lambda_in m e b f j i D' a v.
  Proof.
    intros e b f j i D D' a v. unfold phi_lambda_in. rewrite !vmsum_rsum.
    replace (rsum (ngp1 m) _ - rsum (ngp1 m) _) with (rsum (ngp1 m) (fun gp => mget (D gp) a v * (GetPhi j (BoundaryToMasterCoordinates f (z1 m gp)) * lambda_fact m e b gp i)) +
      (-1) * rsum (ngp1 m) (fun gp => mget (D' gp) a v * (GetPhi j (BoundaryToMasterCoordinates f (z1 m gp)) * lambda_fact m e b gp i))) by ring.
    rewrite <- rsum_scal, <- rsum_plus. apply rsum_ext. intros gp _. rewrite mget_sub. ring.
  Qed.
  Theorem global_local_open : forall q qh ed ex E c a i v j, conforming m -> (ni <= ed < ni + nb)%nat ->
    let b := the_bnd m ed in let n := normal m (b_elt b) (b_id b) in
    b_bc b = Exterior ex -> (forall gp w, ex t gp n w = vadd (mvec (E gp) w) (c gp)) -> (a < 3)%nat -> (v < 3)%nat -> (j < ndof m)%nat ->
    partial (fun q' => nw_grhs (sys q' qh) ed a i) q (b_elt b) v j
      (- nw_glob (sys q qh) (b_elt b) (b_id b) i a j v +
       phi_lambda_in m (b_elt b) (b_id b) (b_id b) j i (fun gp => mmul (get_Aminus g (u_edge m qh ed gp) (a_edge m eaux qh ed gp) n) (E gp)) a v).
  Proof.
    intros q qh ed ex E c a i v j C He b n Bc Ex Ha Hv Hj.
    assert (P : partial (fun q' => edge_lambda m (b_elt b) (b_id b) (fun gp => snd (bd_kern m eaux g t q' qh ed gp)) a i) q (b_elt b) v j
      (phi_lambda_in m (b_elt b) (b_id b) (b_id b) j i (fun gp => msub (get_Aplus g (u_edge m qh ed gp) (a_edge m eaux qh ed gp) n)
         (mmul (get_Aminus g (u_edge m qh ed gp) (a_edge m eaux qh ed gp) n) (E gp))) a v)).
    { unfold bd_kern. fold b. cbv zeta. fold n.
      apply (lam_face (fun gp w => snd (bc_kernels g t (b_bc b) n gp w (u_edge m qh ed gp) (a_edge m eaux qh ed gp)))); [exact Hv|exact Hj|].
      intros gp H. rewrite Bc. cbn [bc_kernels snd]. 
      refine (grad_ext _ _ _ _ _ (open_affine_grad (eaux ed gp) n (u_edge m qh ed gp) (E gp) (c gp) _ a Ha) _ (fun _ _ => eq_refl)).
      intros w. rewrite (Ex gp w). reflexivity. }
    refine (part_ext _ _ _ _ _ _ _ _ (part_scal _ _ _ _ (-1) _ _ P) _ _).
    - intros q'. rewrite grhs_bnd by exact He. fold b. ring.
    - rewrite phi_in_sub. pose proof (glob_bnd m eaux g dt theta t qp rp s0 q qh ed i a j v C He) as G. cbv beta in G |- *. fold b in G. rewrite G. unfold bd_glob, bd_kern. fold b. cbv zeta. fold n. rewrite Bc. cbn [bc_kernels fst]. ring.
  Qed.
End System.

(** The Newton system under [well_defined]. *)
From Coq Require Import Reals List Bool Arith Lra Lia.
From Coquelicot Require Import Coquelicot.
From Verif Require Import Num ModelSWE ModelShape ModelBasis ModelJac SpecJac LemmasJac LemmasJac2 SpecStepper LemmasSWE LemmasRK LemmasBasis2 LemmasBasis3
  LemmasBasis4 ModelStep LemmasStep ModelIHDG SpecIHDG LemmasIHDG1 LemmasIHDG2 LemmasIHDG3 LemmasIHDG4 LemmasIHDG5 LemmasIHDG6 LemmasIHDG7.
Import ListNotations.
Open Scope R_scope.

Lemma wd_elt : forall m eaux q qh e, well_defined m eaux q qh = true -> (e < m_n m)%nat -> smooth_elt m q e.
Proof.
  intros m eaux q qh e W He gp Hg. unfold well_defined in W. apply andb_prop in W. destruct W as [W _].
  rewrite forallb_forall in W. specialize (W e ltac:(apply in_seq; lia)). rewrite forallb_forall in W.
  specialize (W gp ltac:(apply in_seq; lia)). apply andb_prop in W. destruct W as [W1 W2]. split; [|exact W2].
  destruct (Rltb_spec 0 (hh (a_elt m q e gp))) as [L|L]; [exact L|discriminate].
Qed.
Lemma wd_edge : forall m eaux q qh ed, well_defined m eaux q qh = true -> (ed < nedges m)%nat -> deep_edge m eaux qh ed.
Proof.
  intros m eaux q qh ed W He gp Hg. unfold well_defined in W. apply andb_prop in W. destruct W as [_ W].
  rewrite forallb_forall in W. specialize (W ed ltac:(apply in_seq; lia)). rewrite forallb_forall in W.
  specialize (W gp ltac:(apply in_seq; lia)).
  destruct (Rltb_spec 0 (hh (a_edge m eaux qh ed gp))) as [L|L]; [exact L|discriminate].
Qed.

Section System.
  Context (m : mesh) (eaux : nat -> nat -> aux3 R) (g dt theta t : R) (qp rp : nat -> coeffs) (s0 : newton).
  Notation sys := (fun q qh => newton_system m eaux g dt theta t qp rp q qh s0).

  Lemma jac_local : forall q qh e e' a i v j, well_defined m eaux q qh = true -> (e < m_n m)%nat -> off_threshold m q e ->
    (a < 3)%nat -> (v < 3)%nat -> (j < ndof m)%nat ->
    partial (fun q' => nw_rhs (sys q' qh) e a i) q e' v j
      (if (e =? e')%nat then - nw_delta (sys q qh) e i a j v + (1 - theta) * phi_phi m e j i (slope_mat m g e) a v else 0).
  Proof.
    intros q qh e e' a i v j W He Off Ha Hv Hj.
    apply (local_local m eaux g dt theta t qp rp s0 q qh e e' a i v j); try assumption. exact (wd_elt m eaux q qh e W He).
  Qed.
  Lemma flat_phi_phi : forall e i j a v, flat m e -> phi_phi m e j i (slope_mat m g e) a v = 0.
  Proof.
    intros e i j a v F. unfold phi_phi. rewrite vmsum_rsum. apply rsum_const0. intros gp H. unfold slope_mat. rewrite (F gp H).
    cbn [nx ny]. rewrite Rmult_0_r. destruct a as [|[|a]], v as [|[|v]]; cbn [mget m00 m01 m02 m10 m11 m12 m20 m21 m22]; ring.
  Qed.
  Lemma jac_local_flat : forall q qh e a i v j, well_defined m eaux q qh = true -> (e < m_n m)%nat -> off_threshold m q e -> flat m e ->
    (a < 3)%nat -> (v < 3)%nat -> (j < ndof m)%nat ->
    partial (fun q' => nw_rhs (sys q' qh) e a i) q e v j (- nw_delta (sys q qh) e i a j v).
  Proof.
    intros q qh e a i v j W He Off F Ha Hv Hj. pose proof (jac_local q qh e e a i v j W He Off Ha Hv Hj) as K.
    rewrite Nat.eqb_refl, flat_phi_phi, Rmult_0_r, Rplus_0_r in K by exact F. exact K.
  Qed.
  Lemma jac_local_trace : forall q qh ed e a i v j, 0 < g -> conforming m -> symmetric_weights m -> well_defined m eaux q qh = true ->
    (e < m_n m)%nat -> (ed < nedges m)%nat -> flowing m eaux qh ed -> (a < 3)%nat -> (v < 3)%nat -> (j < nedof m)%nat ->
    (forall f, In (e, f) (sides m ed) -> partial (fun q' => nw_rhs (sys q q') e a i) qh ed v j (- nw_hat (sys q qh) e f i a j v)) /\
    ((forall f, ~ In (e, f) (sides m ed)) -> partial (fun q' => nw_rhs (sys q q') e a i) qh ed v j 0).
  Proof.
    intros q qh ed e a i v j Hg C Sy W He Hd Fl Ha Hv Hj. pose proof (wd_edge m eaux q qh ed W Hd) as Dp. split.
    - intros f I. apply (local_trace m eaux g dt theta t qp rp s0); assumption.
    - intros I. apply (local_trace_other m eaux g dt theta t qp rp s0); assumption.
  Qed.
  Lemma jac_trace_local : forall q qh ed e a i v j, conforming m -> (ed < nedges m)%nat ->
    (a < 3)%nat -> (v < 3)%nat -> (j < ndof m)%nat ->
    (forall f, In (e, f) (sides m ed) -> prescribed_edge m ed -> partial (fun q' => nw_grhs (sys q' qh) ed a i) q e v j (- nw_glob (sys q qh) e f i a j v)) /\
    ((forall f, ~ In (e, f) (sides m ed)) -> partial (fun q' => nw_grhs (sys q' qh) ed a i) q e v j 0).
  Proof.
    intros q qh ed e a i v j C Hd Ha Hv Hj. unfold nedges, nint in Hd. split.
    - intros f I P. unfold prescribed_edge, edge_bc in P. destruct (Nat.ltb_spec ed (length (m_intfaces m))) as [L|L].
      + apply (global_local_int m eaux g dt theta t qp rp s0); assumption.
      + apply (global_local_bnd m eaux g dt theta t qp rp s0); try assumption. lia.
    - intros I. apply (global_local_other m eaux g dt theta t qp rp s0); assumption.
  Qed.
  Lemma jac_trace_open : forall q qh ed ex E c a i v j, conforming m -> (ed < nedges m)%nat -> edge_bc m ed = Some (Exterior ex) ->
    (forall gp w, ex t gp (edge_normal m ed) w = vadd (mvec (E gp) w) (c gp)) -> (a < 3)%nat -> (v < 3)%nat -> (j < ndof m)%nat ->
    forall e f, In (e, f) (sides m ed) ->
    partial (fun q' => nw_grhs (sys q' qh) ed a i) q e v j (- nw_glob (sys q qh) e f i a j v +
      phi_lambda_in m e f f j i (fun gp => mmul (get_Aminus g (u_edge m qh ed gp) (a_edge m eaux qh ed gp) (edge_normal m ed)) (E gp)) a v).
  Proof.
    intros q qh ed ex E c a i v j C Hd Bc Ex Ha Hv Hj e f I. unfold nedges, nint in Hd. unfold edge_bc in Bc.
    destruct (Nat.ltb_spec ed (length (m_intfaces m))) as [L|L]; [discriminate|]. inversion Bc as [B].
    unfold edge_normal in *. rewrite side_bnd in I, Ex |- * by exact L. destruct I as [X|[]]. inversion X; subst e f.
    cbn [nth fst snd] in *.
    apply (global_local_open m eaux g dt theta t qp rp s0 q qh ed ex E c a i v j C); try assumption. lia.
  Qed.
  Lemma jac_trace : forall q qh ed ed' a i v j, 0 < g -> well_defined m eaux q qh = true -> (ed' < nedges m)%nat -> smooth_edge m eaux g qh ed' ->
    (a < 3)%nat -> (v < 3)%nat -> (j < nedof m)%nat ->
    partial (fun q' => nw_grhs (sys q q') ed' a i) qh ed v j (if (ed' =? ed)%nat then - nw_hglob (sys q qh) ed i a j v else 0).
  Proof.
    intros q qh ed ed' a i v j Hg W Hd Sm Ha Hv Hj. pose proof (wd_edge m eaux q qh ed' W Hd) as Dp. unfold nedges, nint in Hd.
    destruct (Nat.eqb_spec ed' ed) as [->|N].
    - unfold smooth_edge, edge_bc in Sm. destruct (Nat.ltb_spec ed (length (m_intfaces m))) as [L|L].
      + apply (global_trace_int m eaux g dt theta t qp rp s0); assumption.
      + apply (global_trace_bnd m eaux g dt theta t qp rp s0); try assumption. lia.
    - apply (global_trace_other m eaux g dt theta t qp rp s0); assumption.
  Qed.
End System.

Lemma rest_friction : forall m eaux q qh e gp, (e < m_n m)%nat -> (gp < ngp2 m)%nat -> s_bottom_friction (m_src m e) = true ->
  qx (u_elt m q e gp) = 0 -> qy (u_elt m q e gp) = 0 -> well_defined m eaux q qh = false.
Proof.
  intros m eaux q qh e gp He Hg F X Y. destruct (well_defined m eaux q qh) eqn:W; [|reflexivity]. exfalso.
  destruct (wd_elt m eaux q qh e W He gp Hg) as [_ D]. unfold dsource_defined in D. rewrite F, X, Y in D. cbn [negb orb] in D.
  unfold Rdiv in D. rewrite !Rmult_0_l in D. unfold ModelJac.hypot in D.
  rewrite Rmult_0_l, Rplus_0_r, sqrt_0 in D. destruct (Rltb_spec 0 0) as [L|L]; [lra|discriminate].
Qed.

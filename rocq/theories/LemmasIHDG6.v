(** The Newton blocks in the trace unknowns, and the trace equations. *)
From Coq Require Import Reals List Bool Arith Lra Lia.
From Coquelicot Require Import Coquelicot.
From Verif Require Import Num ModelSWE ModelShape ModelBasis ModelJac SpecJac LemmasJac LemmasJac2 SpecStepper LemmasSWE LemmasRK LemmasBasis2 LemmasBasis3
  LemmasBasis4 ModelStep LemmasStep ModelIHDG SpecIHDG LemmasIHDG1 LemmasIHDG2 LemmasIHDG3 LemmasIHDG4 LemmasIHDG5.
Import ListNotations.
Open Scope R_scope.

Lemma rsum_one : forall n k (X : R), rsum n (fun i => if (i =? k)%nat then X else 0) = if (k <? n)%nat then X else 0.
Proof.
  induction n as [|n IH]; intros k X; cbn [rsum]; [reflexivity|]. rewrite IH.
  destruct (Nat.eqb_spec n k) as [->|N].
  - rewrite Nat.ltb_irrefl. assert (E : (k <? S k)%nat = true) by (apply Nat.ltb_lt; lia). rewrite E. ring.
  - destruct (Nat.ltb_spec k n), (Nat.ltb_spec k (S n)); try lia; ring.
Qed.

Section System.
  Context (m : mesh) (eaux : nat -> nat -> aux3 R) (g dt theta t : R) (qp rp : nat -> coeffs) (s0 : newton).
  Notation sys := (fun q qh => newton_system m eaux g dt theta t qp rp q qh s0).
  Notation ni := (length (m_intfaces m)).
  Notation nb := (length (m_bounds m)).

  Definition deep_edge (qh : nat -> coeffs) (ed : nat) : Prop := forall gp, (gp < ngp1 m)%nat -> 0 < hh (a_edge m eaux qh ed gp).
  Definition flow_n (qh : nat -> coeffs) (ed : nat) (n : vec2 R) : Prop := forall gp, (gp < ngp1 m)%nat ->
    un_of (u_edge m qh ed gp) (a_edge m eaux qh ed gp) n <> 0.

  Lemma mirror_lt : forall gp, (gp < ngp1 m)%nat -> (mirror m gp < ngp1 m)%nat.
  Proof. intros gp H. unfold mirror. lia. Qed.
  Lemma mirror_mirror : forall gp, (gp < ngp1 m)%nat -> mirror m (mirror m gp) = gp.
  Proof. intros gp H. unfold mirror. lia. Qed.
  Lemma vmsum_mirror : forall f, vmsum (ngp1 m) f = vmsum (ngp1 m) (fun gp => f (mirror m gp)).
  Proof.
    intros f. rewrite !vmsum_rsum. rewrite <- (rsum_rev (ngp1 m) f). apply rsum_ext. intros gp H. unfold mirror. f_equal; lia.
  Qed.

  (** Flux integrals in the trace. *)
  Lemma trace_in : forall q qh ed n e_len b_len b e a i v j, 0 < g -> (a < 3)%nat -> (v < 3)%nat -> (j < nedof m)%nat ->
    deep_edge qh ed -> flow_n qh ed n ->
    partial (fun q' => integration_face m e_len b_len b (fun gp => F_in m eaux g q' ed gp n (u_face m q e b gp)) a i) qh ed v j
      (phi_lambda_in m e_len b_len b i j (fun gp => dF_in m eaux g qh ed gp n (u_face m q e b gp)) a v).
  Proof.
    intros q qh ed n e_len b_len b e a i v j Hg Ha Hv Hj Dp Fl.
    refine (part_ext _ _ _ _ _ _ _ _ (trace_sum m (ngp1 m) (fun gp => gp) (fun gp w => vget (Fpt g (eaux ed gp) n 1 (u_face m q e b gp) w) a) _
      (fun gp => GetPhi i (BoundaryToMasterCoordinates b (z1 m gp)) * (w1 m gp * GetSurfaceJ (m_nodes m e_len) b_len)) qh ed v j Hv Hj
      (fun gp H => Fpt_hat g (eaux ed gp) n 1 _ _ a Hg (Dp gp H) (Fl gp H) Ha)) _ _).
    - intros q'. unfold integration_face. apply vmsum_ext. intros gp _. rewrite F_in_pt. reflexivity.
    - unfold phi_lambda_in, lambda_fact. apply vmsum_ext. intros gp _. rewrite dF_in_pt. ring.
  Qed.
  Lemma trace_ex : forall q qh ed n e_len b_len b e a i v j, 0 < g -> (a < 3)%nat -> (v < 3)%nat -> (j < nedof m)%nat ->
    deep_edge qh ed -> flow_n qh ed n -> symmetric_weights m ->
    partial (fun q' => integration_face m e_len b_len b (fun gp => F_ex m eaux g q' ed (mirror m gp) n (u_face m q e b gp)) a i) qh ed v j
      (phi_lambda_ex m e_len b_len b i j (fun gp => dF_ex m eaux g qh ed (mirror m gp) n (u_face m q e b gp)) a v).
  Proof.
    intros q qh ed n e_len b_len b e a i v j Hg Ha Hv Hj Dp Fl Sy.
    refine (part_ext _ _ _ _ _ _ _ _ (trace_sum m (ngp1 m) (mirror m) (fun gp w => vget (Fpt g (eaux ed (mirror m gp)) n (-1) (u_face m q e b gp) w) a) _
      (fun gp => GetPhi i (BoundaryToMasterCoordinates b (z1 m gp)) * (w1 m gp * GetSurfaceJ (m_nodes m e_len) b_len)) qh ed v j Hv Hj
      (fun gp H => Fpt_hat g (eaux ed (mirror m gp)) n (-1) _ _ a Hg (Dp _ (mirror_lt gp H)) (Fl _ (mirror_lt gp H)) Ha)) (fun _ => eq_refl) _).
    unfold phi_lambda_ex, lambda_fact. apply vmsum_ext. intros gp H. rewrite dF_ex_pt.
    assert (W : w1 m (mirror m gp) = w1 m gp) by (exact (Sy gp H)). rewrite W. ring.
  Qed.
  Lemma trace_face_other : forall (F : (nat -> coeffs) -> nat -> vec3 R) qh ed a i v j e_len b_len b,
    (forall s gp, (gp < ngp1 m)%nat -> F (bump qh ed v j s) gp = F qh gp) ->
    partial (fun q' => integration_face m e_len b_len b (F q') a i) qh ed v j 0.
  Proof.
    intros F qh ed a i v j e_len b_len b X. apply part_same. intros s. unfold integration_face. apply vmsum_ext. intros gp H. rewrite X by exact H. reflexivity.
  Qed.
  Lemma F_in_other : forall qh ed ed' v j s gp n qs, ed' <> ed -> F_in m eaux g (bump qh ed v j s) ed' gp n qs = F_in m eaux g qh ed' gp n qs.
  Proof. intros. rewrite !F_in_pt, edge_other by assumption. reflexivity. Qed.
  Lemma F_ex_other : forall qh ed ed' v j s gp n qs, ed' <> ed -> F_ex m eaux g (bump qh ed v j s) ed' gp n qs = F_ex m eaux g qh ed' gp n qs.
  Proof. intros. rewrite !F_ex_pt, edge_other by assumption. reflexivity. Qed.

  Lemma int_trace_other : forall q qh ed ed' e a i v j, ed' <> ed -> partial (fun q' => int_rhs m eaux g theta q q' ed' e a i) qh ed v j 0.
  Proof.
    intros q qh ed ed' e a i v j N. apply part_same. intros s. unfold int_rhs. cbv zeta. f_equal; f_equal; f_equal; apply face_ext; intros gp.
    - apply F_in_other. exact N.
    - apply F_ex_other. exact N.
  Qed.
  Lemma bnd_trace_other : forall q qh ed ed' e a i v j, ed' <> ed -> partial (fun q' => bnd_rhs m eaux g theta q q' ed' e a i) qh ed v j 0.
  Proof.
    intros q qh ed ed' e a i v j N. apply part_same. intros s. unfold bnd_rhs. cbv zeta. f_equal; f_equal; apply face_ext; intros gp.
    apply F_in_other. exact N.
  Qed.
  Definition int_hat (q qh : nat -> coeffs) (ed e i a j v : nat) : R :=
    on e (i_in (the_int m ed)) (in_hat m eaux g theta q qh ed i a j v) + on e (i_ex (the_int m ed)) (ex_hat m eaux g theta q qh ed i a j v).
  Lemma int_trace : forall q qh ed e a i v j, 0 < g -> (a < 3)%nat -> (v < 3)%nat -> (j < nedof m)%nat ->
    deep_edge qh ed -> flow_n qh ed (normal m (i_in (the_int m ed)) (i_bin (the_int m ed))) -> symmetric_weights m ->
    partial (fun q' => int_rhs m eaux g theta q q' ed e a i) qh ed v j (- int_hat q qh ed e i a j v).
  Proof.
    intros q qh ed e a i v j Hg Ha Hv Hj Dp Fl Sy. unfold int_rhs, int_hat, in_hat, ex_hat. cbv zeta.
    set (f := the_int m ed) in *. set (n := normal m (i_in f) (i_bin f)) in *.
    assert (S : forall x P D, partial P qh ed v j D -> partial (fun q' => on e x (- (1 - theta) * P q')) qh ed v j (- on e x ((1 - theta) * D))).
    { intros x P D H. refine (part_ext _ _ _ _ _ _ _ _ (part_on qh ed v j e x _ _ (part_scal _ _ _ _ (- (1 - theta)) _ _ H)) (fun _ => eq_refl) _).
      unfold on. destruct (e =? x)%nat; ring. }
    rewrite Ropp_plus_distr. apply part_plus; apply S; [apply trace_in|apply trace_ex]; assumption.
  Qed.
  Lemma bnd_trace : forall q qh ed e a i v j, 0 < g -> (a < 3)%nat -> (v < 3)%nat -> (j < nedof m)%nat ->
    deep_edge qh ed -> flow_n qh ed (normal m (b_elt (the_bnd m ed)) (b_id (the_bnd m ed))) ->
    partial (fun q' => bnd_rhs m eaux g theta q q' ed e a i) qh ed v j (- on e (b_elt (the_bnd m ed)) (bd_hat m eaux g theta q qh ed i a j v)).
  Proof.
    intros q qh ed e a i v j Hg Ha Hv Hj Dp Fl. unfold bnd_rhs, bd_hat. cbv zeta.
    set (f := the_bnd m ed) in *. set (n := normal m (b_elt f) (b_id f)) in *.
    refine (part_ext _ _ _ _ _ _ _ _ (part_on qh ed v j e (b_elt f) _ _ (part_scal _ _ _ _ (- (1 - theta)) _ _
      (trace_in q qh ed n (b_elt f) (b_id f) (b_id f) (b_elt f) a i v j Hg Ha Hv Hj Dp Fl))) (fun _ => eq_refl) _).
    unfold on. destruct (e =? _)%nat; ring.
  Qed.
  Lemma elt_rhs_partial_const : forall q qh ed e a i v j, partial (fun _ => elt_rhs m g dt theta t qp rp q e a i) qh ed v j 0.
  Proof. intros. apply part_same. reflexivity. Qed.

  Lemma flow_int : forall qh ed, (ed < ni)%nat -> flowing m eaux qh ed -> flow_n qh ed (normal m (i_in (the_int m ed)) (i_bin (the_int m ed))).
  Proof. intros qh ed H F gp Hgp. specialize (F gp Hgp). unfold trace_un, edge_normal in F. rewrite side_int in F by exact H. exact F. Qed.
  Lemma flow_bnd : forall qh ed, (ni <= ed)%nat -> flowing m eaux qh ed -> flow_n qh ed (normal m (b_elt (the_bnd m ed)) (b_id (the_bnd m ed))).
  Proof. intros qh ed H F gp Hgp. specialize (F gp Hgp). unfold trace_un, edge_normal in F. rewrite side_bnd in F by exact H. exact F. Qed.

  Lemma local_trace_sum : forall q qh ed e a i v j, 0 < g -> (e < m_n m)%nat -> (ed < ni + nb)%nat -> (a < 3)%nat -> (v < 3)%nat -> (j < nedof m)%nat ->
    deep_edge qh ed -> flowing m eaux qh ed -> symmetric_weights m ->
    partial (fun q' => nw_rhs (sys q q') e a i) qh ed v j
      (if (ed <? ni)%nat then - int_hat q qh ed e i a j v else - on e (b_elt (the_bnd m ed)) (bd_hat m eaux g theta q qh ed i a j v)).
  Proof.
    intros q qh ed e a i v j Hg He Hd Ha Hv Hj Dp Fl Sy.
    destruct (Nat.ltb_spec ed ni) as [L|L].
    - assert (P1 : forall k, (k < ni)%nat -> partial (fun q' => int_rhs m eaux g theta q q' k e a i) qh ed v j (if (k =? ed)%nat then - int_hat q qh ed e i a j v else 0)).
      { intros k _. destruct (Nat.eqb_spec k ed) as [->|N]; [apply int_trace; try assumption; apply flow_int; assumption|apply int_trace_other; exact N]. }
      assert (P2 : forall k, (k < nb)%nat -> partial (fun q' => bnd_rhs m eaux g theta q q' (ni + k) e a i) qh ed v j 0).
      { intros k _. apply bnd_trace_other. lia. }
      refine (part_ext _ _ _ _ _ _ _ _ (part_plus _ _ _ _ _ _ _ _ (part_plus _ _ _ _ _ _ _ _ (elt_rhs_partial_const q qh ed e a i v j)
        (part_sum _ _ _ _ ni _ _ P1)) (part_sum _ _ _ _ nb _ _ P2)) _ _).
      + intros q'. symmetry. apply rhs_entry. exact He.
      + rewrite rsum_one, rsum_0. apply Nat.ltb_lt in L. rewrite L. ring.
    - assert (P1 : forall k, (k < ni)%nat -> partial (fun q' => int_rhs m eaux g theta q q' k e a i) qh ed v j 0).
      { intros k Hk. apply int_trace_other. lia. }
      assert (P2 : forall k, (k < nb)%nat -> partial (fun q' => bnd_rhs m eaux g theta q q' (ni + k) e a i) qh ed v j
        (if (k =? ed - ni)%nat then - on e (b_elt (the_bnd m ed)) (bd_hat m eaux g theta q qh ed i a j v) else 0)).
      { intros k _. destruct (Nat.eqb_spec k (ed - ni)) as [E|N].
        - replace (ni + k)%nat with ed by lia. apply bnd_trace; try assumption. apply flow_bnd; assumption.
        - apply bnd_trace_other. lia. }
      refine (part_ext _ _ _ _ _ _ _ _ (part_plus _ _ _ _ _ _ _ _ (part_plus _ _ _ _ _ _ _ _ (elt_rhs_partial_const q qh ed e a i v j)
        (part_sum _ _ _ _ ni _ _ P1)) (part_sum _ _ _ _ nb _ _ P2)) _ _).
      + intros q'. symmetry. apply rhs_entry. exact He.
      + rewrite rsum_one, rsum_0. assert (L' : (ed - ni <? nb)%nat = true) by (apply Nat.ltb_lt; lia). rewrite L'. ring.
  Qed.
  Theorem local_trace : forall q qh ed e f a i v j, 0 < g -> conforming m -> (e < m_n m)%nat -> (ed < ni + nb)%nat -> In (e, f) (sides m ed) ->
    (a < 3)%nat -> (v < 3)%nat -> (j < nedof m)%nat -> deep_edge qh ed -> flowing m eaux qh ed -> symmetric_weights m ->
    partial (fun q' => nw_rhs (sys q q') e a i) qh ed v j (- nw_hat (sys q qh) e f i a j v).
  Proof.
    intros q qh ed e f a i v j Hg C He Hd I Ha Hv Hj Dp Fl Sy.
    refine (part_ext _ _ _ _ _ _ _ _ (local_trace_sum q qh ed e a i v j Hg He Hd Ha Hv Hj Dp Fl Sy) (fun _ => eq_refl) _).
    destruct (Nat.ltb_spec ed ni) as [L|L].
    - f_equal. pose proof (int_distinct m ed C L) as Ne. rewrite side_int in I by exact L. unfold int_hat. destruct I as [E|[E|[]]]; inversion E; subst e f.
      + rewrite on_same, on_other by exact Ne. rewrite hat_in by assumption. ring.
      + rewrite on_same, on_other by congruence. rewrite hat_ex by assumption. ring.
    - f_equal. rewrite side_bnd in I by exact L. destruct I as [E|[]]. inversion E; subst e f. rewrite on_same. rewrite hat_bnd; [reflexivity|exact C|lia].
  Qed.
  Theorem local_trace_other : forall q qh ed e a i v j, 0 < g -> (e < m_n m)%nat -> (ed < ni + nb)%nat -> (forall f, ~ In (e, f) (sides m ed)) ->
    (a < 3)%nat -> (v < 3)%nat -> (j < nedof m)%nat -> deep_edge qh ed -> flowing m eaux qh ed -> symmetric_weights m ->
    partial (fun q' => nw_rhs (sys q q') e a i) qh ed v j 0.
  Proof.
    intros q qh ed e a i v j Hg He Hd I Ha Hv Hj Dp Fl Sy.
    refine (part_ext _ _ _ _ _ _ _ _ (local_trace_sum q qh ed e a i v j Hg He Hd Ha Hv Hj Dp Fl Sy) (fun _ => eq_refl) _).
    destruct (Nat.ltb_spec ed ni) as [L|L].
    - rewrite side_int in I by exact L. unfold int_hat. rewrite !on_other; [ring| |].
      + intros ->. apply (I (i_bex (the_int m ed))). right. left. reflexivity.
      + intros ->. apply (I (i_bin (the_int m ed))). left. reflexivity.
    - rewrite side_bnd in I by exact L. rewrite on_other; [ring|]. intros ->. apply (I (b_id (the_bnd m ed))). left. reflexivity.
  Qed.
End System.

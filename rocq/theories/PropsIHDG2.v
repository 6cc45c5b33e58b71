(** Property theorems about the passes of the implicit HDG solver: C50. *)
From Coq Require Import Reals List Bool Arith Lra Lia.
From Verif Require Import Num ModelSWE ModelShape ModelBasis ModelJac ModelSlope SpecShape SpecStepper SpecStep ModelStep LemmasStep ModelIHDG SpecIHDG SpecIHDG2
  LemmasIHDG2 LemmasIHDG9 LemmasIHDG10 LemmasIHDG11 LemmasIHDG12 LemmasIHDG13 LemmasIHDG14.
Import ListNotations.
Open Scope R_scope.

(** A pass whose increments solve the linear system changes the totals by the linearised
    sources and boundary fluxes only; nothing is lost between elements. *)
Theorem C50_balance : forall m eaux g dt theta t qp rp s0 q qh dq dqh a,
  conforming m -> symmetric_weights m -> in_range m -> dt <> 0 -> (a < 3)%nat ->
  solves m (newton_system m eaux g dt theta t qp rp q qh s0) dq dqh ->
  total m (plus q dq) a - total m qp a = dt * (theta * rsum (m_n m) (fun e => rp e a 0%nat) +
    (1 - theta) * (volume_int m (linear_source m g t q dq) a - bsum_edges m (fun ed => edge_int m ed (linear_flux m eaux g q qh dq dqh ed) a))).
Proof. exact balance. Qed.
Print Assumptions C50_balance.

(** After any pass the trace of every land edge is the element state without its normal
    discharge, at every Gauss point. *)
Theorem C50_land : forall m eaux g dt theta t qp rp s0 q qh dq dqh ed,
  conforming m -> in_range m -> regular m -> solves m (newton_system m eaux g dt theta t qp rp q qh s0) dq dqh ->
  is_boundary m ed -> edge_bc m ed = Some Land -> land_met m (plus q dq) (plus qh dqh) ed.
Proof. exact land_after_bc. Qed.
Print Assumptions C50_land.

(** Volume of a closed basin: preserved by two or more passes, converged or not, and
    by one pass if the traces of the land edges start at the level of the element. *)
Theorem C50_closed_basin : forall m eaux g dt theta t qp rp q0 qh0 k q qh,
  conforming m -> symmetric_weights m -> in_range m -> regular m -> closed_basin m -> dt <> 0 ->
  passes m eaux g dt theta t qp rp q0 qh0 k q qh ->
  (2 <= k)%nat \/ (1 <= k)%nat /\ (forall ed, is_boundary m ed -> level_met m q0 qh0 ed) ->
  total m q 0 = total m qp 0 + dt * theta * rsum (m_n m) (fun e => rp e 0%nat 0%nat).
Proof. exact closed_passes. Qed.
Print Assumptions C50_closed_basin.

(** The second order scheme: the contribution of the previous right hand side is the
    residual of its trace equations on the interfaces. *)
Theorem C50_second_order : forall m eaux g dt theta t t' qp qh0 q0 qht k q qh,
  conforming m -> symmetric_weights m -> in_range m -> regular m -> closed_basin m -> dt <> 0 ->
  (forall ed, is_boundary m ed -> land_met m qp qh0 ed) ->
  passes m eaux g dt theta t' qp (init_rhs_prev m eaux g true t qp qh0) q0 qht k q qh ->
  (2 <= k)%nat \/ (1 <= k)%nat /\ (forall ed, is_boundary m ed -> level_met m q0 qht ed) ->
  total m q 0 = total m qp 0 - dt * theta * rsum (length (m_intfaces m)) (fun ed => edge_int m ed (jump m eaux g qp qh0 ed) 0).
Proof. exact closed_second_order. Qed.
Print Assumptions C50_second_order.

(** ** A triangle with sides 3, 4, 5 between land edges, order 0, flat bed *)
Definition basin : mesh := Mesh 1 0 (fun _ i => match i with 0%nat => (0, 0) | 1%nat => (4, 0) | _ => (0, 3) end)
  [(2, (-1 / 3, -1 / 3))] [(2, 0)] (fun _ _ => Aux 1 1 1) (fun _ _ => V2 0 0) (fun _ _ _ => Aux 1 1 1)
  (fun _ => SourceIn false 0 false 0) None [] [Bnd 0 0 Land; Bnd 0 1 Land; Bnd 0 2 Land]
  (fun _ _ => 1) (fun _ => 1) (fun _ => SlIn 1 1 1 (fun _ => (1, 0)) (fun _ => (1, 0)) (fun _ => 1) 1 (fun _ _ => 0)).
Definition basin_aux : nat -> nat -> aux3 R := fun _ _ => Aux 1 1 1.
Definition still : newton :=
  Newton (fun _ _ _ _ _ => 0) (fun _ _ _ => 0) (fun _ _ _ _ _ _ => 0) (fun _ _ _ _ _ _ => 0) (fun _ _ _ _ _ => 0) (fun _ _ _ => 0).
(** One value per element or edge. *)
Definition const (f : nat -> vec3 R) : nat -> coeffs := fun e v _ => vget (f e) v.

Lemma basin_elt : forall f e gp, u_elt basin (const f) e gp = f e.
Proof.
  intros f e gp. unfold u_elt, expand. change (ndof basin) with 1%nat. unfold vmsum. cbn [seq fold_left]. rewrite phi0. unfold const. cbn [vget].
  destruct (f e). cbn. f_equal; num_R; ring.
Qed.
Lemma basin_face : forall f e b gp, u_face basin (const f) e b gp = f e.
Proof.
  intros f e b gp. unfold u_face, expand. change (ndof basin) with 1%nat. unfold vmsum. cbn [seq fold_left]. rewrite phi0. unfold const. cbn [vget].
  destruct (f e). cbn. f_equal; num_R; ring.
Qed.
Lemma basin_leg : forall x, legendre_phi 0 x = 1.
Proof. intros x. unfold legendre_phi, jacobi_polynomial, jacobi_rows, jacobi_first. cbn. reflexivity. Qed.
Lemma basin_edge : forall f ed gp, u_edge basin (const f) ed gp = f ed.
Proof.
  intros f ed gp. unfold u_edge, nedof. cbn [basin m_p]. unfold vmsum. cbn [seq fold_left]. rewrite basin_leg. unfold const. cbn [vget].
  destruct (f ed). cbn. f_equal; num_R; ring.
Qed.
Lemma sq5 : sqrt 25 = 5. Proof. replace 25 with (5 * 5) by ring. apply sqrt_square. lra. Qed.
Lemma sq4 : sqrt 16 = 4. Proof. replace 16 with (4 * 4) by ring. apply sqrt_square. lra. Qed.
Lemma sq3 : sqrt 9 = 3. Proof. replace 9 with (3 * 3) by ring. apply sqrt_square. lra. Qed.
Lemma basin_normals : normal basin 0 0 = V2 (3 / 5) (4 / 5) /\ normal basin 0 1 = V2 (-1) 0 /\ normal basin 0 2 = V2 0 (-1).
Proof.
  unfold normal, GetSurfaceNormal, ModelShape.hypot, determinant, deformation. cbn.
  replace ((0 - 4) * (0 - 4) + (3 - 0) * (3 - 0)) with 25 by ring. replace ((0 - 0) * (0 - 0) + (0 - 3) * (0 - 3)) with 9 by ring.
  replace ((4 - 0) * (4 - 0) + (0 - 0) * (0 - 0)) with 16 by ring. rewrite sq5, sq4, sq3. rewrite Rabs_pos_eq by lra.
  repeat split; f_equal; lra.
Qed.
Lemma basin_sides : half_side (m_nodes basin 0) 0 = 5 / 2 /\ half_side (m_nodes basin 0) 1 = 3 / 2 /\ half_side (m_nodes basin 0) 2 = 2 /\ tri_area (m_nodes basin 0) = 6.
Proof.
  unfold half_side, tri_area, dist, orient, vsub. cbn.
  unfold vdot. cbn. replace ((4 - 0) * (4 - 0) + (0 - 3) * (0 - 3)) with 25 by ring. replace ((0 - 0) * (0 - 0) + (3 - 0) * (3 - 0)) with 9 by ring.
  replace ((0 - 4) * (0 - 4) + (0 - 0) * (0 - 0)) with 16 by ring. rewrite sq5, sq4, sq3. rewrite Rabs_pos_eq by lra. repeat split; lra.
Qed.
Lemma basin_ok : conforming basin /\ symmetric_weights basin /\ in_range basin /\ regular basin /\ closed_basin basin.
Proof.
  split; [|split; [|split; [|split]]].
  - split; [|constructor]. cbn. repeat constructor; cbn; intuition congruence.
  - intros gp H. cbn in H. replace gp with 0%nat by lia. reflexivity.
  - intros ed e f H I. cbn in H. destruct ed as [|[|[|ed]]]; [| | |lia]; cbn in I; destruct I as [I|[]]; injection I as <- <-; cbn; lia.
  - split; [|split].
    + intros e _. unfold orient, vsub. cbn. lra.
    + cbn. lia.
    + intros gp H. cbn in H. replace gp with 0%nat by lia. cbn. lra.
  - split; [reflexivity|]. intros b H. cbn in H. intuition (subst; reflexivity).
Qed.
Lemma basin_total : forall f a, total basin (const f) a = 6 * vget (f 0%nat) a.
Proof.
  intros f a. unfold total, volume_int. cbn [basin m_n rsum m_rule2 length nth fst]. fold basin. rewrite basin_elt.
  destruct basin_sides as (_ & _ & _ & A). cbn [basin m_nodes] in *. rewrite A. lra.
Qed.
Lemma basin_flux : forall F a, bsum_edges basin (fun ed => edge_int basin ed (F ed) a) =
  5 * vget (F 0%nat 0%nat) a + 3 * vget (F 1%nat 0%nat) a + 4 * vget (F 2%nat 0%nat) a.
Proof.
  intros F a. unfold bsum_edges, edge_int. cbn [basin m_bounds m_intfaces m_rule1 length rsum nth fst snd Nat.add sides Nat.ltb Nat.leb Nat.sub].
  destruct basin_sides as (A & B & C & _). cbn [basin m_nodes] in *.
  cbn [b_id]. rewrite A, B, C. lra.
Qed.
Lemma basin_add : forall f h e v, plus (const f) (const h) e v 0%nat = vget (vadd (f e) (h e)) v.
Proof. intros f h e v. unfold plus, cadd, const. destruct v as [|[|v]]; reflexivity. Qed.
Lemma basin_total_plus : forall f h a, (a < 3)%nat -> total basin (plus (const f) (const h)) a = 6 * (vget (f 0%nat) a + vget (h 0%nat) a).
Proof.
  intros f h a Ha. unfold total, volume_int. cbn [basin m_n rsum m_rule2 length nth fst]. fold basin. rewrite elt_add, !basin_elt, vget_add.
  destruct basin_sides as (_ & _ & _ & A). cbn [basin m_nodes] in *. rewrite A. lra.
Qed.
(** The stabilisation of a trace without normal discharge. *)
Lemma tau_still : forall q (a : aux3 R) n, qx q / hh a * nx n + qy q / hh a * ny n = 0 ->
  tau_LF 1 q a n = sqrt (1 * hh a) /\ dtau_dze_LF 1 q a n = sqrt (1 / hh a) / 2 /\ dtau_dqx_LF q a n = 0 /\ dtau_dqy_LF q a n = 0.
Proof.
  intros q a n E. unfold tau_LF, dtau_dze_LF, dtau_dqx_LF, dtau_dqy_LF, nsign. num_R. rewrite E, Rabs_R0. rewrite !(Rltb_false 0 0) by lra.
  repeat split; unfold Rdiv; ring.
Qed.
Lemma basin_solves : forall qp u uh du duh c d n,
  n = (fun ed => match ed with 0%nat => V2 (3 / 5) (4 / 5) | 1%nat => V2 (-1) 0 | _ => V2 0 (-1) end) ->
  (forall ed, (ed < 3)%nat -> ze (uh ed) + 1 = c * c /\ qx (uh ed) / (c * c) * nx (n ed) + qy (uh ed) / (c * c) * ny (n ed) = 0) -> 0 < c -> d = 1 / c / 2 ->
  (let F ed := vadd (vadd (get_Fn 1 (uh ed) (Aux 1 (c * c) 1) (n ed)) (vscale c (ModelSWE.vsub u (uh ed))))
      (vadd (vscale c du) (vadd (mvec (get_dFn_dq 1 (uh ed) (Aux 1 (c * c) 1) (n ed)) (duh ed))
        (ModelSWE.vsub (vscale (d * ze (duh ed)) (ModelSWE.vsub u (uh ed))) (vscale c (duh ed))))) in
   (forall a, (a < 3)%nat -> 6 * (vget u a + vget du a) - 6 * vget qp a = - (5 * vget (F 0%nat) a + 3 * vget (F 1%nat) a + 4 * vget (F 2%nat) a))) ->
  (forall ed, (ed < 3)%nat -> let w := vadd u du in let qn := qx w * nx (n ed) + qy w * ny (n ed) in
     vadd (uh ed) (duh ed) = V3 (ze w) (qx w - qn * nx (n ed)) (qy w - qn * ny (n ed))) ->
  solves basin (newton_system basin basin_aux 1 1 0 0 (const (fun _ => qp)) (fun _ _ _ => 0) (const (fun _ => u)) (const uh) still) (const (fun _ => du)) (const duh).
Proof.
  intros qp u uh du duh c d n Hn Hu Hc Hd B L. destruct basin_ok as (C & Sy & Rg & Re & Cl).
  assert (N : forall ed, (ed < 3)%nat -> edge_normal basin ed = n ed).
  { destruct basin_normals as (N0 & N1 & N2). subst n. intros [|[|[|ed]]] H; [exact N0|exact N1|exact N2|lia]. }
  apply solves_single; try assumption; try reflexivity; try lra.
  - intros a Ha. rewrite basin_total_plus, basin_total by exact Ha. rewrite basin_flux.
    rewrite volume_int_zero.
    2:{ intros e gp _ _. unfold linear_source. cbn [basin m_src dsource_dq s_bottom_friction]. unfold source_gp, get_source. cbn [basin m_fs option_map m_src s_bottom_friction m_db nx ny].
        rewrite vget_add. destruct a as [|[|a]]; unfold mvec; cbn [vget ze qx qy m00 m01 m02 m10 m11 m12 m20 m21 m22]; ring. }
    assert (E : forall ed, (ed < 3)%nat -> linear_flux basin basin_aux 1 (const (fun _ => u)) (const uh) (const (fun _ => du)) (const duh) ed 0 =
      vadd (vadd (get_Fn 1 (uh ed) (Aux 1 (c * c) 1) (n ed)) (vscale c (ModelSWE.vsub u (uh ed))))
      (vadd (vscale c du) (vadd (mvec (get_dFn_dq 1 (uh ed) (Aux 1 (c * c) 1) (n ed)) (duh ed))
        (ModelSWE.vsub (vscale (d * ze (duh ed)) (ModelSWE.vsub u (uh ed))) (vscale c (duh ed)))))).
    { intros ed He. destruct (Hu ed He) as [Hz Hq]. unfold linear_flux, trace_flux. rewrite N by exact He.
      unfold F_in, dF_in, tau_mat, tau_at, dtau_delq, a_edge. rewrite !basin_face, !basin_edge. unfold with_depth, basin_aux. cbn [bath sp]. rewrite Hz.
      destruct (tau_still (uh ed) (Aux 1 (c * c) 1) (n ed) Hq) as (T0 & T1 & T2 & T3). rewrite T0, T1, T2, T3. cbn [hh].
      replace (1 * (c * c)) with (c * c) by ring. rewrite sqrt_square by lra.
      replace (1 / (c * c)) with ((1 / c) * (1 / c)) by (field; lra). rewrite sqrt_square by (apply Rlt_le, Rdiv_lt_0_compat; lra). rewrite <- Hd.
      generalize (get_Fn 1 (uh ed) (Aux 1 (c * c) 1) (n ed)) (get_dFn_dq 1 (uh ed) (Aux 1 (c * c) 1) (n ed)). intros Fn dFn.
      unfold columns, mdiag, madd, msub, mscale, mvec, vadd, vscale, ModelSWE.vsub. num_R. cbn [ze qx qy m00 m01 m02 m10 m11 m12 m20 m21 m22].
      unfold madd. cbn [m00 m01 m02 m10 m11 m12 m20 m21 m22]. f_equal; ring. }
    rewrite !E by lia. cbv zeta in B. rewrite B by exact Ha. cbn [basin m_n rsum]. ring.
  - intros ed Hb gp Hgp. assert (He : (ed < 3)%nat) by (destruct Hb as [_ Hb]; exact Hb). specialize (L ed He). cbv zeta in L |- *.
    rewrite N by exact He. rewrite face_add, edge_add, !basin_face, !basin_edge. rewrite L. cbn [ze qx qy]. repeat split; reflexivity.
Qed.

(** The discharge along x decays, one pass; the volume stays. *)
Definition ex_u : vec3 R := V3 0 19 0.
Definition ex_uh (ed : nat) : vec3 R := match ed with 0%nat => V3 0 (304 / 25) (- (228 / 25)) | 1%nat => V3 0 0 0 | _ => V3 0 19 0 end.
Definition ex_du : vec3 R := V3 0 (-8) (-2).
Definition ex_duh (ed : nat) : vec3 R := match ed with 0%nat => V3 0 (- (104 / 25)) (78 / 25) | 1%nat => V3 0 0 (-2) | _ => V3 0 (-8) 0 end.
Example C50_ex : let q := const (fun _ => ex_u) in let dq := const (fun _ => ex_du) in
  passes basin basin_aux 1 1 0 0 q (fun _ _ _ => 0) q (const ex_uh) 1 (plus q dq) (plus (const ex_uh) (const ex_duh)) /\
  (forall ed, is_boundary basin ed -> level_met basin q (const ex_uh) ed) /\
  total basin q 0 = 0 /\ total basin (plus q dq) 0 = 0 /\ total basin q 1 = 114 /\ total basin (plus q dq) 1 = 66.
Proof.
  cbv zeta. split; [|split].
  - apply passes_S with (s0 := still); [apply passes_0|].
    apply (basin_solves ex_u ex_u ex_uh ex_du ex_duh 1 (1 / 2) _ eq_refl); [| lra | lra | |].
    + intros [|[|[|ed]]] H; [| | |lia]; cbn; split; field.
    + cbv zeta. intros a Ha. destruct a as [|[|[|a]]]; [| | |lia]; cbn; num_R; field.
    + cbv zeta. intros [|[|[|ed]]] H; [| | |lia]; unfold vadd; cbn; num_R; f_equal; lra.
  - intros ed Hb gp _. cbv zeta. rewrite basin_edge, basin_face. destruct ed as [|[|[|ed]]]; reflexivity.
  - rewrite !basin_total, !basin_total_plus by lia. cbn. repeat split; lra.
Qed.

(** "A pass keeps the volume of a closed basin" is false if the trace of a land edge
    does not start at the level of the element. *)
Theorem C50_first_pass_refuted : exists m eaux g dt theta t qp s0 q qh dq dqh,
  conforming m /\ symmetric_weights m /\ in_range m /\ regular m /\ closed_basin m /\ 0 < g /\ 0 < dt /\ well_defined m eaux q qh = true /\
  solves m (newton_system m eaux g dt theta t qp (fun _ _ _ => 0) q qh s0) dq dqh /\ total m (plus q dq) 0 <> total m qp 0.
Proof.
  destruct basin_ok as (C & Sy & Rg & Re & Cl).
  exists basin, basin_aux, 1, 1, 0, 0, (const (fun _ => V3 0 0 0)), still, (const (fun _ => V3 0 0 0)), (const (fun _ => V3 3 0 0)), (const (fun _ => V3 9 0 0)), (const (fun _ => V3 6 0 0)).
  do 5 (split; [assumption|]). split; [lra|]. split; [lra|]. split; [|split].
  - unfold well_defined, ngp2, ngp1, nedges, nint. cbn [basin m_n m_rule2 m_rule1 m_intfaces m_bounds length seq forallb m_src Nat.add].
    unfold a_elt, a_edge. fold basin. rewrite !basin_edge, !basin_elt. cbn. rewrite (Rltb_true 0 (0 + 1)), (Rltb_true 0 (3 + 1)) by lra. reflexivity.
  - apply (basin_solves (V3 0 0 0) (V3 0 0 0) (fun _ => V3 3 0 0) (V3 9 0 0) (fun _ => V3 6 0 0) 2 (1 / 4) _ eq_refl); [| lra | lra | |].
    + intros [|[|[|ed]]] H; [| | |lia]; cbn; split; field.
    + cbv zeta. intros a Ha. destruct a as [|[|[|a]]]; [| | |lia]; cbn; num_R; field.
    + cbv zeta. intros [|[|[|ed]]] H; [| | |lia]; unfold vadd; cbn; num_R; f_equal; lra.
  - rewrite basin_total, basin_total_plus by lia. cbn. lra.
Qed.
Print Assumptions C50_first_pass_refuted.

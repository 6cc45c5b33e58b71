(** Gradients of the implicit HDG fluxes, source and boundary kernels. *)
From Coq Require Import Reals List Bool Arith Lra Lia.
From Coquelicot Require Import Coquelicot.
From Verif Require Import Num ModelSWE ModelShape ModelBasis ModelJac SpecJac LemmasJac LemmasJac2 LemmasJac3 LemmasBasis2 LemmasBasis3
  ModelStep ModelIHDG SpecIHDG LemmasIHDG1.
Open Scope R_scope.

Lemma vget_add : forall u w a, vget (vadd u w) a = vget u a + vget w a.
Proof. intros u w [|[|a]]; reflexivity. Qed.
Lemma vget_sub : forall u w a, vget (ModelSWE.vsub u w) a = vget u a - vget w a.
Proof. intros u w [|[|a]]; reflexivity. Qed.
Lemma vget_scale : forall c w a, vget (vscale c w) a = c * vget w a.
Proof. intros c w [|[|a]]; reflexivity. Qed.
Lemma vget_mvec : forall A w a, vget (mvec A w) a = mget A a 0 * vget w 0 + mget A a 1 * vget w 1 + mget A a 2 * vget w 2.
Proof. intros A w [|[|a]]; reflexivity. Qed.
Lemma mget_add : forall A B a b, mget (madd A B) a b = mget A a b + mget B a b.
Proof. intros A B [|[|a]] [|[|b]]; reflexivity. Qed.
Lemma mget_scale : forall c A a b, mget (mscale c A) a b = c * mget A a b.
Proof. intros c A [|[|a]] [|[|b]]; reflexivity. Qed.
Lemma mget_sub : forall A B a b, mget (msub A B) a b = mget A a b - mget B a b.
Proof. intros A B a b. unfold msub. rewrite mget_add, mget_scale. ring. Qed.
Lemma mget_diag : forall t a b, (a < 3)%nat -> (b < 3)%nat -> mget (mdiag t t t) a b = t * kron a b.
Proof. intros t [|[|[|a]]] [|[|[|b]]] Ha Hb; try lia; unfold kron; cbn; ring. Qed.
Lemma mget_columns : forall x y z a b, (b < 3)%nat ->
  mget (columns x y z) a b = vget (match b with 0%nat => x | 1%nat => y | _ => z end) a.
Proof. intros x y z [|[|a]] [|[|[|b]]] Hb; try lia; reflexivity. Qed.

Section Edge.
  Context (g : R) (av : aux3 R) (n : vec2 R).
  Notation aw := (with_depth av).
  (** [sg] is 1 for the inner and -1 for the outer side. *)
  Definition Fpt (sg : R) (qs u : vec3 R) : vec3 R :=
    vadd (vscale sg (get_Fn g u (aw u) n)) (vscale (tau_LF g u (aw u) n) (ModelSWE.vsub qs u)).
  Definition dFpt (sg : R) (qs u : vec3 R) : mat3 :=
    let t := tau_LF g u (aw u) n in
    let del := ModelSWE.vsub qs u in
    madd (mscale sg (get_dFn_dq g u (aw u) n))
      (msub (columns (vscale (dtau_dze_LF g u (aw u) n) del) (vscale (dtau_dqx_LF u (aw u) n) del) (vscale (dtau_dqy_LF u (aw u) n) del))
            (mdiag t t t)).
  Lemma Fpt_hat : forall sg qs u a, 0 < g -> 0 < hh (aw u) -> un_of u (aw u) n <> 0 -> (a < 3)%nat ->
    vgrad (fun w => vget (Fpt sg qs w) a) u (mget (dFpt sg qs u) a).
  Proof.
    intros sg qs u a Hg Hh Hu Ha.
    pose proof (grad_Fn g av n u a (Rgt_not_eq _ _ Hh) Ha) as G1.
    pose proof (grad_tau g av n u Hg Hh Hu) as G2.
    pose proof (grad_plus _ _ _ _ _ (grad_scal sg _ _ _ G1)
      (grad_mult _ _ _ _ _ G2 (grad_plus _ _ _ _ _ (grad_const (vget qs a) u) (grad_scal (-1) _ _ _ (grad_get a u Ha))))) as K.
    refine (grad_ext _ _ _ _ _ K _ _).
    - intros w. unfold Fpt. rewrite vget_add, !vget_scale, vget_sub. ring.
    - intros v Hv. unfold dFpt. cbv zeta. rewrite mget_add, mget_scale, mget_sub, mget_columns, mget_diag by assumption.
      assert (E : vget (match v with 0%nat => vscale (dtau_dze_LF g u (aw u) n) (ModelSWE.vsub qs u)
        | 1%nat => vscale (dtau_dqx_LF u (aw u) n) (ModelSWE.vsub qs u)
        | _ => vscale (dtau_dqy_LF u (aw u) n) (ModelSWE.vsub qs u) end) a = dtau g av n u v * (vget qs a - vget u a)).
      { destruct v as [|[|v]]; cbn [dtau]; rewrite vget_scale, vget_sub; reflexivity. }
      rewrite E. ring.
  Qed.
  Lemma Fpt_side : forall sg u qs a, (a < 3)%nat ->
    vgrad (fun w => vget (Fpt sg w u) a) qs (mget (mdiag (tau_LF g u (aw u) n) (tau_LF g u (aw u) n) (tau_LF g u (aw u) n)) a).
  Proof.
    intros sg u qs a Ha. set (t := tau_LF g u (aw u) n).
    refine (grad_ext _ _ _ _ _ (grad_plus _ _ _ _ _ (grad_const (sg * vget (get_Fn g u (aw u) n) a) qs)
      (grad_scal t _ _ _ (grad_plus _ _ _ _ _ (grad_get a qs Ha) (grad_const (- vget u a) qs)))) _ _).
    - intros w. unfold Fpt. fold t. rewrite vget_add, !vget_scale, vget_sub. ring.
    - intros v Hv. rewrite mget_diag by assumption. ring.
  Qed.

  (** Open boundary kernel. *)
  Lemma open_hat_grad : forall q qinf u a, 0 < g -> 0 < hh (aw u) -> noncritical g u (aw u) n -> (a < 3)%nat ->
    vgrad (fun w => vget (open_rhs g w (aw w) n q qinf) a) u (mget (open_hat g u (aw u) n q qinf) a).
  Proof.
    intros q qinf u a Hg Hh Hn Ha. destruct u as [z x y]. set (u := V3 z x y) in *.
    set (Dp := fun v => match v with 0%nat => get_dAplus_dze g u (aw u) n | 1%nat => get_dAplus_dqx g u (aw u) n | _ => get_dAplus_dqy g u (aw u) n end).
    set (Dm := fun v => match v with 0%nat => get_dAminus_dze g u (aw u) n | 1%nat => get_dAminus_dqx g u (aw u) n | _ => get_dAminus_dqy g u (aw u) n end).
    pose proof (fun b Hb => grad_mat av (get_Aplus g) Dp n u (dAplus_is_derivative g (bath av) (sp av) n z x y Hg Hh Hn) a b Ha Hb) as P.
    pose proof (fun b Hb => grad_mat av (get_Aminus g) Dm n u (dAminus_is_derivative g (bath av) (sp av) n z x y Hg Hh Hn) a b Ha Hb) as M.
    assert (V : forall r b, (b < 3)%nat -> vgrad (fun w => vget r b - vget w b) u (fun v => - kron b v)).
    { intros r b Hb. refine (grad_ext _ _ _ _ _ (grad_plus _ _ _ _ _ (grad_const (vget r b) u) (grad_scal (-1) _ _ _ (grad_get b u Hb))) _ _).
      - intros w. ring.
      - intros v _. ring. }
    assert (L0 : (0 < 3)%nat) by lia. assert (L1 : (1 < 3)%nat) by lia. assert (L2 : (2 < 3)%nat) by lia.
    pose proof (grad_plus _ _ _ _ _
      (grad_plus _ _ _ _ _ (grad_plus _ _ _ _ _ (grad_mult _ _ _ _ _ (P _ L0) (V q _ L0)) (grad_mult _ _ _ _ _ (P _ L1) (V q _ L1)))
                           (grad_mult _ _ _ _ _ (P _ L2) (V q _ L2)))
      (grad_scal (-1) _ _ _
        (grad_plus _ _ _ _ _ (grad_plus _ _ _ _ _ (grad_mult _ _ _ _ _ (M _ L0) (V qinf _ L0)) (grad_mult _ _ _ _ _ (M _ L1) (V qinf _ L1)))
                           (grad_mult _ _ _ _ _ (M _ L2) (V qinf _ L2))))) as K.
    refine (grad_ext _ _ _ _ _ K _ _).
    - intros w. unfold open_rhs. rewrite vget_sub, !vget_mvec, !vget_sub. ring.
    - intros v Hv. unfold open_hat. cbv zeta. rewrite mget_add, mget_sub, mget_columns by assumption.
      assert (E : vget (match v with
        | 0%nat => ModelSWE.vsub (mvec (get_dAplus_dze g u (aw u) n) (ModelSWE.vsub q u)) (mvec (get_dAminus_dze g u (aw u) n) (ModelSWE.vsub qinf u))
        | 1%nat => ModelSWE.vsub (mvec (get_dAplus_dqx g u (aw u) n) (ModelSWE.vsub q u)) (mvec (get_dAminus_dqx g u (aw u) n) (ModelSWE.vsub qinf u))
        | _ => ModelSWE.vsub (mvec (get_dAplus_dqy g u (aw u) n) (ModelSWE.vsub q u)) (mvec (get_dAminus_dqy g u (aw u) n) (ModelSWE.vsub qinf u)) end) a
        = vget (mvec (Dp v) (ModelSWE.vsub q u)) a - vget (mvec (Dm v) (ModelSWE.vsub qinf u)) a).
      { destruct v as [|[|v]]; cbn [Dp Dm]; apply vget_sub. }
      rewrite E, !vget_mvec, !vget_sub. clear E K P M V.
      revert v Hv. intros [|[|[|v]]] Hv; try lia; unfold kron; cbn [Nat.eqb]; ring.
  Qed.
  Lemma open_side_grad : forall u qinf q a, (a < 3)%nat ->
    vgrad (fun w => vget (open_rhs g u (aw u) n w qinf) a) q (mget (get_Aplus g u (aw u) n) a).
  Proof.
    intros u qinf q a Ha. set (A := get_Aplus g u (aw u) n).
    assert (L0 : (0 < 3)%nat) by lia. assert (L1 : (1 < 3)%nat) by lia. assert (L2 : (2 < 3)%nat) by lia.
    pose proof (grad_plus _ _ _ _ _ (grad_plus _ _ _ _ _ (grad_scal (mget A a 0) _ _ _ (grad_get 0 q L0)) (grad_scal (mget A a 1) _ _ _ (grad_get 1 q L1)))
      (grad_plus _ _ _ _ _ (grad_scal (mget A a 2) _ _ _ (grad_get 2 q L2)) (grad_const (- (mget A a 0 * vget u 0 + mget A a 1 * vget u 1 + mget A a 2 * vget u 2) - vget (mvec (get_Aminus g u (aw u) n) (ModelSWE.vsub qinf u)) a) q))) as K.
    refine (grad_ext _ _ _ _ _ K _ _).
    - intros w. unfold open_rhs. fold A. rewrite vget_sub, (vget_mvec A), !vget_sub. ring.
    - intros v Hv. revert v Hv. intros [|[|[|v]]] Hv; try lia; unfold kron; cbn [Nat.eqb]; ring.
  Qed.
  (** Land kernel. *)
  Lemma land_hat_grad : forall q u a, (a < 3)%nat -> vgrad (fun w => vget (land_rhs n q w) a) u (mget (mdiag 1 1 1) a).
  Proof.
    intros q u a Ha.
    refine (grad_ext _ _ _ _ _ (grad_plus _ _ _ _ _ (grad_get a u Ha) (grad_const (vget (land_rhs n q (V3 0 0 0)) a) u)) _ _).
    - intros w. revert a Ha. intros [|[|[|a]]] Ha; try lia; cbn; ring.
    - intros v Hv. rewrite mget_diag by assumption. ring.
  Qed.
  Lemma land_side_grad : forall u q a, (a < 3)%nat -> vgrad (fun w => vget (land_rhs n w u) a) q (mget (land_delta n) a).
  Proof.
    intros u q a Ha v Hv. destruct q as [z x y]. revert a Ha v Hv.
    intros [|[|[|a]]] Ha [|[|[|v]]] Hv; try lia; unfold land_rhs, land_delta; cbn [vset vget mget ze qx qy m00 m01 m02 m10 m11 m12 m20 m21 m22]; auto_derive; try exact I; ring.
  Qed.
End Edge.

(** ** Source *)
Lemma friction_cf_value : forall p h, fst (friction_cf p h) = friction_coef p h.
Proof.
  intros p h. unfold friction_cf, friction_coef. destruct (s_manning p); [|reflexivity]. cbv zeta.
  destruct (Rltb_spec (s_g_manning_n_sq p / cube_root h) (s_Cf p)) as [L|L]; cbn [fst].
  - symmetry. apply Rmax_left. lra.
  - symmetry. apply Rmax_right. lra.
Qed.
Lemma manning_der : forall k h, 0 < h -> is_derive (fun t => k / cube_root t) h (- k / Rpower h (4 / 3) / 3).
Proof.
  intros k h Hh.
  assert (D : is_derive (fun t => k * Rpower t (-1/3)) h (- k / Rpower h (4 / 3) / 3)).
  { unfold Rpower at 1. auto_derive; [exact Hh|].
    assert (E : / h * exp (-1 / 3 * ln h) = / Rpower h (4 / 3)).
    { rewrite <- Rpower_Ropp. rewrite <- (exp_ln h Hh) at 1. rewrite <- exp_Ropp. unfold Rpower. rewrite <- exp_plus. f_equal. field. }
    replace (- k / Rpower h (4 / 3) / 3) with (- k / 3 * / Rpower h (4 / 3)) by (field; apply Rgt_not_eq; apply exp_pos).
    rewrite <- E. generalize (exp (-1 / 3 * ln h)). intros X. field. lra. }
  refine (is_derive_e _ _ _ _ _ D _ eq_refl). intros t. unfold cube_root, Rdiv. f_equal.
  rewrite <- Rpower_Ropp. f_equal. field.
Qed.
Lemma friction_coef_der : forall p h, 0 < h -> (s_manning p = true -> s_g_manning_n_sq p / cube_root h <> s_Cf p) ->
  is_derive (friction_coef p) h (snd (friction_cf p h)).
Proof.
  intros p h Hh N. unfold friction_cf. destruct (s_manning p) eqn:M.
  2:{ cbn [snd]. apply (is_derive_e (fun _ => s_Cf p) _ _ 0 0 (is_derive_c _ _)); [|reflexivity].
      intros t. unfold friction_coef. rewrite M. reflexivity. }
  specialize (N eq_refl). cbv zeta. pose proof (manning_der (s_g_manning_n_sq p) h Hh) as D.
  assert (Cn : continuous (fun t => s_g_manning_n_sq p / cube_root t) h).
  { apply (ex_derive_continuous (V := R_NormedModule)). eexists. exact D. }
  destruct (Rltb_spec (s_g_manning_n_sq p / cube_root h) (s_Cf p)) as [L|L]; cbn [snd].
  - apply (is_derive_ext_loc (fun _ => s_Cf p)); [|apply is_derive_c].
    pose proof (Cn (fun y => y < s_Cf p) (open_lt (s_Cf p) _ L)) as U.
    unfold filtermap in U. revert U. apply filter_imp. intros t Ht. unfold friction_coef. rewrite M. symmetry. apply Rmax_left. lra.
  - apply (is_derive_ext_loc (fun t => s_g_manning_n_sq p / cube_root t)); [|exact D].
    assert (L' : s_Cf p < s_g_manning_n_sq p / cube_root h) by lra.
    pose proof (Cn (fun y => s_Cf p < y) (open_gt (s_Cf p) _ L')) as U.
    unfold filtermap in U. revert U. apply filter_imp. intros t Ht. unfold friction_coef. rewrite M. symmetry. apply Rmax_right. lra.
Qed.

Lemma speed_grad : forall av u, 0 < hh (with_depth av u) -> 0 < hypot (qx u / hh (with_depth av u)) (qy u / hh (with_depth av u)) ->
  let h := hh (with_depth av u) in let s := hypot (qx u / h) (qy u / h) in
  vgrad (fun w => speed_over_depth w (hh (with_depth av w))) u
    (fun v => match v with 0%nat => -2 * s / (h * h) | 1%nat => qx u / h / (s * (h * h)) | _ => qy u / h / (s * (h * h)) end).
Proof.
  intros av [z x y] Hh Hs. cbv zeta. unfold speed_over_depth, hypot in *. cbn [with_depth hh ze qx qy] in *. set (b := bath av) in *.
  set (W := x / (z + b) * (x / (z + b)) + y / (z + b) * (y / (z + b))) in *.
  assert (HW : 0 < W).
  { destruct (Rle_lt_dec W 0) as [L|L]; [|exact L]. rewrite (sqrt_neg_0 W L) in Hs. lra. }
  assert (Sq : sqrt W * sqrt W = W) by (apply sqrt_sqrt; lra).
  set (s := sqrt W) in *.
  assert (NZ : z + b <> 0) by lra.
  intros [|[|[|v]]] Hv; try lia; cbn [vset vget ze qx qy].
  - assert (DW : is_derive (fun t => x / (t + b) * (x / (t + b)) + y / (t + b) * (y / (t + b))) z (-2 * W / (z + b))).
    { unfold W. auto_derive; [repeat split; exact NZ|]. field. exact NZ. }
    pose proof (is_derive_sqrt _ _ _ DW HW) as DS0.
    assert (DS : is_derive (fun t => sqrt (x / (t + b) * (x / (t + b)) + y / (t + b) * (y / (t + b)))) z (- s / (z + b))).
    { refine (is_derive_e _ _ _ _ _ DS0 (fun _ => eq_refl) _). change (-2 * W / (z + b) / (2 * s) = - s / (z + b)). rewrite <- Sq. field. split; lra. }
    assert (DI : is_derive (fun t => / (t + b)) z (- / ((z + b) * (z + b)))) by (auto_derive; [exact NZ|field; exact NZ]).
    refine (is_derive_e _ _ _ _ _ (is_derive_m _ _ _ _ _ DS DI) (fun _ => eq_refl) _).
    change (- s / (z + b) * / (z + b) + s * - / ((z + b) * (z + b)) = -2 * s / ((z + b) * (z + b))). field. exact NZ.
  - assert (DW : is_derive (fun t => t / (z + b) * (t / (z + b)) + y / (z + b) * (y / (z + b))) x (2 * (x / (z + b)) / (z + b))).
    { auto_derive; [exact I|]. field. exact NZ. }
    pose proof (is_derive_sqrt _ _ _ DW HW) as DS0.
    refine (is_derive_e _ _ _ _ _ (is_derive_k _ (/ (z + b)) _ _ DS0) (fun _ => eq_refl) _).
    change (2 * (x / (z + b)) / (z + b) / (2 * s) * / (z + b) = x / (z + b) / (s * ((z + b) * (z + b)))). field. split; lra.
  - assert (DW : is_derive (fun t => x / (z + b) * (x / (z + b)) + t / (z + b) * (t / (z + b))) y (2 * (y / (z + b)) / (z + b))).
    { auto_derive; [exact I|]. field. exact NZ. }
    pose proof (is_derive_sqrt _ _ _ DW HW) as DS0.
    refine (is_derive_e _ _ _ _ _ (is_derive_k _ (/ (z + b)) _ _ DS0) (fun _ => eq_refl) _).
    change (2 * (y / (z + b)) / (z + b) / (2 * s) * / (z + b) = y / (z + b) / (s * ((z + b) * (z + b)))). field. split; lra.
Qed.

(** The source at one point as a function of the state there. *)
Definition src_pt (g : R) (p : source_in) (f : vec3 R) (db : vec2 R) (av : aux3 R) (w : vec3 R) : vec3 R :=
  ModelSWE.vsub (V3 (ze f) (g * (nx db * ze w) + qx f) (g * (ny db * ze w) + qy f))
    (if s_bottom_friction p then
       vscale (friction_coef p (hh (with_depth av w)) * speed_over_depth w (hh (with_depth av w))) (V3 0 (qx w) (qy w))
     else V3 0 0 0).
Definition slope_pt (g : R) (db : vec2 R) : mat3 := M3 0 0 0 (g * nx db) 0 0 (g * ny db) 0 0.

Lemma fric_component : forall av p u, s_bottom_friction p = true -> 0 < hh (with_depth av u) ->
  dsource_defined p u (with_depth av u) = true ->
  (s_manning p = true -> s_g_manning_n_sq p / cube_root (hh (with_depth av u)) <> s_Cf p) -> forall a, (a = 1 \/ a = 2)%nat ->
  vgrad (fun w => friction_coef p (hh (with_depth av w)) * speed_over_depth w (hh (with_depth av w)) * vget w a) u
    (fun v => - mget (dsource_dq p u (with_depth av u)) a v).
Proof.
  intros av p u Hf Hh Hd Ht a Ha.
  unfold dsource_defined in Hd. rewrite Hf in Hd. cbn [negb orb] in Hd. apply andb_prop in Hd. destruct Hd as [Hd1 Hd2].
  destruct (Rltb_spec 0 (hypot (qx u / hh (with_depth av u)) (qy u / hh (with_depth av u)))) as [Hs|]; [|discriminate].
  rewrite friction_cf_value in Hd2. destruct (Req_EM_T (friction_coef p (hh (with_depth av u))) 0) as [|NC]; [discriminate|].
  pose proof (speed_grad av u Hh Hs) as G2. cbv zeta in G2.
  assert (G1 : vgrad (fun w => friction_coef p (hh (with_depth av w))) u
    (fun v => match v with 0%nat => snd (friction_cf p (hh (with_depth av u))) | _ => 0 end)).
  { intros [|[|[|v]]] Hv; try lia; cbn [vset with_depth hh ze]; try apply is_derive_c.
    assert (L : is_derive (fun s => s + bath av) (ze u) 1) by (auto_derive; [exact I|ring]).
    refine (is_derive_e _ _ _ _ _ (is_derive_o (friction_coef p) (fun s => s + bath av) (ze u) _ _ (friction_coef_der p _ Hh Ht) L) (fun _ => eq_refl) _).
    cbn [with_depth hh]. ring. }
  assert (Ha3 : (a < 3)%nat) by lia.
  refine (grad_ext _ _ _ _ _ (grad_mult _ _ _ _ _ (grad_mult _ _ _ _ _ G1 G2) (grad_get a u Ha3)) (fun _ => eq_refl) _).
  intros v Hv. unfold dsource_dq. rewrite Hf. cbv zeta. rewrite friction_cf_value.
  unfold speed_over_depth. fold (hypot (qx u / hh (with_depth av u)) (qy u / hh (with_depth av u))).
  set (s := hypot (qx u / hh (with_depth av u)) (qy u / hh (with_depth av u))) in *.
  set (h := hh (with_depth av u)) in *. set (C := friction_coef p h) in *. set (dC := snd (friction_cf p h)) in *.
  assert (Hs0 : s <> 0) by lra. assert (Hh0 : h <> 0) by lra.
  destruct Ha as [E|E]; subst a; revert v Hv; intros [|[|[|v]]] Hv; try lia; unfold kron; cbn [Nat.eqb vget mget m10 m11 m12 m20 m21 m22]; field;
    repeat split; assumption.
Qed.
Lemma source_grad : forall g p f db av u a, 0 < hh (with_depth av u) -> dsource_defined p u (with_depth av u) = true ->
  (s_bottom_friction p = true -> s_manning p = true -> s_g_manning_n_sq p / cube_root (hh (with_depth av u)) <> s_Cf p) -> (a < 3)%nat ->
  vgrad (fun w => vget (src_pt g p f db av w) a) u (fun v => mget (slope_pt g db) a v + mget (dsource_dq p u (with_depth av u)) a v).
Proof.
  intros g p f db av u a Hh Hd Ht Ha.
  set (c := match a with 0%nat => 0 | 1%nat => g * nx db | _ => g * ny db end).
  assert (B : vgrad (fun w => c * vget w 0 + vget f a) u (fun v => mget (slope_pt g db) a v)).
  { refine (grad_ext _ _ _ _ _ (grad_plus _ _ _ _ _ (grad_scal c _ _ _ (grad_get 0 u ltac:(lia))) (grad_const (vget f a) u)) (fun _ => eq_refl) _).
    intros v Hv. unfold c. revert v Hv. revert a Ha c. intros [|[|[|a]]] Ha c [|[|[|v]]] Hv; try lia; unfold kron; cbn; ring. }
  destruct (s_bottom_friction p) eqn:Hf.
  - assert (Z : a = 0%nat \/ (a = 1 \/ a = 2)%nat) by lia. destruct Z as [Z|Z].
    + refine (grad_ext _ _ _ _ _ B _ _).
      * intros w. unfold src_pt. rewrite Hf. subst a. unfold c. cbn. ring.
      * intros v Hv. subst a. unfold dsource_dq. rewrite Hf. cbv zeta. destruct v as [|[|v]]; cbn; ring.
    + refine (grad_ext _ _ _ _ _ (grad_plus _ _ _ _ _ B (grad_scal (-1) _ _ _ (fric_component av p u Hf Hh Hd (Ht eq_refl) a Z))) _ _).
      * intros w. unfold src_pt. rewrite Hf. unfold c. destruct Z as [Z|Z]; subst a; cbn [vget ze qx qy vscale ModelSWE.vsub]; num_R; ring.
      * intros v Hv. cbn beta. ring.
  - refine (grad_ext _ _ _ _ _ B _ _).
    + intros w. unfold src_pt. rewrite Hf. unfold c. revert a Ha c B. intros [|[|[|a]]] Ha c B; try lia; cbn; ring.
    + intros v Hv. unfold dsource_dq. rewrite Hf. destruct a as [|[|a]]; destruct v as [|[|v]]; cbn; ring.
Qed.
Lemma source_gp_pt : forall m g t q e gp, (gp < ngp2 m)%nat ->
  source_gp m g t q e gp = src_pt g (m_src m e) (match m_fs m with Some f => f t e gp | None => V3 0 0 0 end) (m_db m e gp) (m_aux m e gp) (u_elt m q e gp).
Proof.
  intros m g t q e gp H. unfold source_gp. rewrite source_form by exact H. unfold src_pt, unfrictioned, a_elt.
  destruct (m_fs m); reflexivity.
Qed.

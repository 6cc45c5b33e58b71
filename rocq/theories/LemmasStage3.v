(** The serial stage computes the weak form, the mass solve, the Shu-Osher
    combination and the post-processing of each element. *)
From Coq Require Import Reals QArith Qreals List Bool Arith Lia Lra Permutation FunctionalExtensionality.
From Verif Require Import Num ModelSWE Outcome ModelShape ModelBasis ModelJac ModelStepper ModelWetDry ModelSlope ModelStep SpecSWE SpecShape SpecBasis SpecJac SpecStepper SpecWetDry SpecSlope SpecStep SpecStage
  LemmasSWE LemmasRK LemmasShape LemmasJac LemmasJac3 LemmasPart LemmasBasis LemmasBasis3 LemmasWetDry LemmasSlope LemmasStep LemmasStage LemmasStage2 LemmasRest1.
Import ListNotations.
Open Scope R_scope.

Lemma on_face_model : forall b s, (b < 3)%nat -> BoundaryToMasterCoordinates b s = at_face b s.
Proof.
  intros b s H. destruct b as [|[|[|b]]]; [| | |lia]; unfold at_face, BoundaryToMasterCoordinates; cbn; f_equal; field.
Qed.
Lemma value_model : forall m q z, expand m q z = value m q z.
Proof. intros. unfold expand, value. change (ndof m) with (dubiner_ndof (m_p m)). rewrite !vmsum_rsum. reflexivity. Qed.
Lemma grad_model : forall n d, orient (n 0%nat) (n 1%nat) (n 2%nat) <> 0 ->
  physical_derivative n d = (grad_x n d, grad_y n d).
Proof.
  intros n d H. unfold physical_derivative, grad_x, grad_y, GetJinv, inverse. cbv zeta.
  change (determinant (deformation n)) with (GetJdet n). destruct (jacobian_area n) as [-> ->].
  unfold deformation. cbn [a00 a01 a10 a11]. f_equal; field; exact H.
Qed.
Lemma row_vget : forall x v, vget x v = row v x.
Proof. reflexivity. Qed.

Section Weak.
  Context (m : mesh) (c : config) (t : R) (k : nat) (st : mstate).

  Lemma face_integral_model : forall e bl b u v i, (b < 3)%nat ->
    integration_face m e bl b u v i = face_integral m (half_side (m_nodes m e) bl) b v i u.
  Proof.
    intros e bl b u v i Hb. unfold integration_face, face_integral. rewrite vmsum_rsum, <- rsum_scal. apply rsum_ext. intros gp _.
    rewrite (on_face_model b _ Hb), half_side_J. unfold z1, w1. destruct (nth gp (m_rule1 m) (0, 0)) as [w s]. cbn [fst snd]. rewrite row_vget. ring.
  Qed.
  Lemma face_integral_ext : forall hs b v i F G, (forall gp, (gp < length (m_rule1 m))%nat -> F gp = G gp) ->
    face_integral m hs b v i F = face_integral m hs b v i G.
  Proof.
    intros hs b v i F G H. unfold face_integral. f_equal. apply rsum_ext. intros gp Hgp. rewrite (H gp Hgp). reflexivity.
  Qed.
  Lemma trace_model : forall e b gp, (b < 3)%nat -> q_face m st k e b gp = face_value m k st e b gp.
  Proof. intros e b gp H. unfold q_face, face_value. rewrite value_model, (on_face_model b _ H). reflexivity. Qed.

  Lemma fold_left_ext : forall (X Y : Type) (f h : X -> Y -> X), (forall x y, f x y = h x y) -> forall l x, fold_left f l x = fold_left h l x.
  Proof. intros X Y f h E l. induction l as [|y l IH]; intros x; [reflexivity|]. cbn [fold_left]. rewrite E. apply IH. Qed.
  Lemma levee_loop : forall data wi we q_in q_ex a_in a_ex n_in n_ex F0,
    levee_flux m c data wi we q_in q_ex a_in a_ex n_in n_ex F0 = loop2 (ngp1 m) (ngp1 m) (fun gp _ _ => let '(H, cs, cp) := data gp in
      levee_point (c_g c) H cs cp wi we (q_in gp) (q_ex (ngp1 m - gp - 1)%nat) (a_in gp) (a_ex (ngp1 m - gp - 1)%nat) (n_in gp) (n_ex (ngp1 m - gp - 1)%nat)) F0.
  Proof.
    intros. unfold levee_flux, loop2. apply fold_left_ext. intros F gp. cbv zeta. destruct (data gp) as [[H cs] cp]. reflexivity.
  Qed.
  Lemma interface_flux_point : forall f gp, (i_bin f < 3)%nat -> (i_bex f < 3)%nat -> (gp < ngp1 m)%nat ->
    fst (interface_flux m c k st f) gp = fst (point_flux m c k st f gp) /\
    snd (interface_flux m c k st f) (ngp1 m - 1 - gp)%nat = snd (point_flux m c k st f gp).
  Proof.
    intros f gp Hi He Hg. unfold interface_flux, point_flux. change (length (m_rule1 m)) with (ngp1 m). cbv zeta.
    replace (ngp1 m - 1 - gp)%nat with (ngp1 m - gp - 1)%nat by lia.
    rewrite <- !trace_model by assumption. destruct (i_kind f) as [|data].
    - pose proof (internal_flux_loop (c_g c) (ms_wet st (i_in f)) (ms_wet st (i_ex f)) (ngp1 m) (q_face m st k (i_in f) (i_bin f)) (q_face m st k (i_ex f) (i_bex f))
        (m_faux m (i_in f) (i_bin f)) (m_faux m (i_ex f) (i_bex f)) (fun _ => normal m (i_in f) (i_bin f)) (fun _ => opp (normal m (i_in f) (i_bin f)))
        (fun _ => vzero, fun _ => vzero) gp Hg) as E. cbv zeta in E. unfold opp in E. unfold opp. rewrite <- E. split; reflexivity.
    - rewrite levee_loop. destruct (loop2_spec _ _ (ngp1 m) (fun gp _ _ => let '(H, cs, cp) := data gp in
        levee_point (c_g c) H cs cp (ms_wet st (i_in f)) (ms_wet st (i_ex f)) (q_face m st k (i_in f) (i_bin f) gp) (q_face m st k (i_ex f) (i_bex f) (ngp1 m - gp - 1)%nat)
        (m_faux m (i_in f) (i_bin f) gp) (m_faux m (i_ex f) (i_bex f) (ngp1 m - gp - 1)%nat) (normal m (i_in f) (i_bin f)) (opp (normal m (i_in f) (i_bin f))))
        (fun _ => vzero, fun _ => vzero) gp Hg) as [E1 E2]. rewrite E1, E2. destruct (data gp) as [[H cs] cp]. split; reflexivity.
  Qed.
  Lemma int_con_load : forall f e v i, (i_bin f < 3)%nat -> (i_bex f < 3)%nat -> int_con m c k st f e v i = - interface_load m c k st f e v i.
  Proof.
    intros f e v i Hi He. unfold int_con, interface_load. destruct (_ || _); [|ring]. cbv zeta. rewrite !face_integral_model by assumption.
    rewrite (face_integral_ext _ _ _ _ (fst (interface_flux m c k st f)) (fun gp => fst (point_flux m c k st f gp)))
      by (intros gp Hg; apply (interface_flux_point f gp Hi He Hg)).
    rewrite (face_integral_ext _ _ _ _ (snd (interface_flux m c k st f)) (fun gp => snd (point_flux m c k st f (length (m_rule1 m) - 1 - gp)))).
    - destruct (Nat.eqb e (i_in f)), (Nat.eqb e (i_ex f)); ring.
    - intros gp Hg. change (length (m_rule1 m)) with (ngp1 m) in *.
      destruct (interface_flux_point f (ngp1 m - 1 - gp)%nat Hi He ltac:(lia)) as [_ E]. rewrite <- E. f_equal. lia.
  Qed.
  Lemma bnd_con_load : forall b e v i, (b_id b < 3)%nat -> bnd_con m c t k st b e v i = - boundary_load m c t k st b e v i.
  Proof.
    intros b e v i Hb. unfold bnd_con, boundary_load. destruct (Nat.eqb_spec e (b_elt b)) as [->|]; cbn [andb]; [|ring].
    destruct (ms_wet st (b_elt b)); [|ring]. rewrite face_integral_model by exact Hb. f_equal.
    apply face_integral_ext. intros gp _. unfold boundary_flux. cbv zeta. rewrite <- trace_model by exact Hb. reflexivity.
  Qed.
  Lemma interior_model : forall e v i, orient (m_nodes m e 0%nat) (m_nodes m e 1%nat) (m_nodes m e 2%nat) <> 0 -> ms_wet st e = true ->
    vol_at m c k st e v i + integration_phi m e (source_at m c t k st e) v i = interior m c t k st e v i.
  Proof.
    intros e v i Ho W. unfold vol_at. rewrite W. cbv zeta. unfold integration_dphi, integration_phi, interior.
    rewrite !vmsum_rsum. change (length (m_rule2 m)) with (ngp2 m).
    rewrite <- rsum_scal, <- !rsum_plus. apply rsum_ext. intros gp Hg.
    rewrite area_jdet. unfold w2, z2. rewrite !(grad_model (m_nodes m e) _ Ho).
    unfold source_at. rewrite source_form by exact Hg. unfold aux_gp, q_gp, z2. cbn [hh bath].
    destruct (nth gp (m_rule2 m) (0, (0, 0))) as [w z] eqn:Ew. cbn [fst snd]. rewrite value_model.
    set (q := value m (ms_q st e k) z). set (J := Rabs (GetJdet (m_nodes m e))).
    set (gx := grad_x _ _). set (gy := grad_y _ _). set (ph := GetPhi i z).
    set (b := bath (m_aux m e gp)). set (s := sp (m_aux m e gp)).
    unfold get_F, flux_x, flux_y, source, friction, unfrictioned, pressure, vscale, ModelSWE.vsub, speed_over_depth, row, vget. cbn [bath hh sp ze qx qy fst snd nx ny].
    num_R. unfold Rdiv. set (h := / (ze q + b)).
    destruct (m_fs m) as [fs|]; cbn [option_map]; destruct (s_bottom_friction (m_src m e)); cbn [ze qx qy]; destruct v as [|[|v]]; field.
  Qed.
  Lemma weak_form_model : forall e v i, (e < m_n m)%nat ->
    orient (m_nodes m e 0%nat) (m_nodes m e 1%nat) (m_nodes m e 2%nat) <> 0 ->
    (forall f, In f (m_intfaces m) -> (i_bin f < 3)%nat /\ (i_bex f < 3)%nat) -> (forall b, In b (m_bounds m) -> (b_id b < 3)%nat) ->
    ms_rhs (rhs_kernels m c t k st) e k v i = weak_form m c t k st e v i.
  Proof.
    intros e v i He Ho Hf Hb. rewrite rhs_kernels_lists.
    destruct (rhs_lists_at m c t k st (seq 0 (m_n m)) (m_intfaces m) (m_bounds m) (seq_NoDup _ _)) as (_ & E & _).
    rewrite E by (apply in_seq; lia). unfold weak_form.
    rewrite (lsum_ext _ (m_intfaces m) _ (fun f => - interface_load m c k st f e v i)) by (intros f Hin; destruct (Hf f Hin); apply int_con_load; assumption).
    rewrite (lsum_ext _ (m_bounds m) _ (fun b => - boundary_load m c t k st b e v i)) by (intros b Hin; apply bnd_con_load, Hb, Hin).
    rewrite !lsum_opp. destruct (ms_wet st e) eqn:W.
    - rewrite (interior_model e v i Ho W). ring.
    - unfold vol_at. rewrite W. ring.
  Qed.
End Weak.

(** Proofs: stages, steps and runs at rest. *)
From Coq Require Import Reals QArith Qreals List Bool Arith Lra Lia Permutation.
From Verif Require Import Num ModelSWE SpecSWE Outcome LemmasPart ModelShape SpecShape ModelBasis SpecBasis SpecStepper LemmasRK LemmasRK2 LemmasStepper LemmasSWE LemmasShape LemmasBasis4 ModelJac ModelStepper ModelWetDry SpecWetDry LemmasWetDry ModelSlope LemmasSlope ModelStep SpecStep LemmasStep ModelInit SpecRest LemmasRest1 LemmasRest2 LemmasRest3.
Import ListNotations.
Open Scope R_scope.

Lemma lsum_perm : forall (A : Type) (f : A -> R) l l', Permutation l l' -> lsum l f = lsum l' f.
Proof.
  intros A f l l' P. induction P as [|x l l' P IH|x y l|l l' l'' P1 IH1 P2 IH2]; [reflexivity| | |congruence].
  - rewrite !lsum_cons, IH. reflexivity.
  - rewrite !lsum_cons. ring.
Qed.
Lemma lsum_prod : forall (A B : Type) (f : A * B -> R) l l', lsum (list_prod l l') f = lsum l (fun a => lsum l' (fun b => f (a, b))).
Proof.
  intros A B f l l'. induction l as [|a l IH]; [reflexivity|]. cbn [list_prod]. rewrite lsum_app, IH, lsum_cons, lsum_map. reflexivity.
Qed.
Lemma lsum_flat : forall (A B : Type) (f : B -> R) (h : A -> list B) l, lsum (flat_map h l) f = lsum l (fun a => lsum (h a) f).
Proof.
  intros A B f h l. induction l as [|a l IH]; [reflexivity|]. cbn [flat_map]. rewrite lsum_app, IH, lsum_cons. reflexivity.
Qed.

Section Still.
  Context (i : input) (C : conforming i) (cfg : config) (c : R) (U : unforced i c).
  Notation m := (init_mesh i).
  Notation g := (c_g cfg).
  Notation calm := (calm i c).
  Notation contr := (contr i cfg c).
  Notation vol := (vol i cfg c).

  Lemma aux_at : forall e gp, (e < in_n i)%nat -> (gp < length (in_rule2 i))%nat ->
    m_aux m e gp = Aux (B i e (fst (snd (gp2 i gp))) (snd (snd (gp2 i gp)))) 0 1.
  Proof.
    intros e gp He Hg. cbn [m_aux init_mesh]. unfold init_aux. rewrite (value_bath i C) by (try exact He; exact (cf_off i C gp Hg)).
    rewrite (sp_one i (uf_plane i c U)). reflexivity.
  Qed.
  Lemma db_at : forall e gp, (e < in_n i)%nat -> (gp < length (in_rule2 i))%nat ->
    m_db m e gp = V2 (fst (physical_derivative (in_nodes i e) (Bx i e, By i e))) (snd (physical_derivative (in_nodes i e) (Bx i e, By i e))).
  Proof.
    intros e gp He Hg. cbn [m_db init_mesh]. unfold init_db. rewrite !(slope_bath i C) by (try exact He; try tauto; exact (cf_off i C gp Hg)). reflexivity.
  Qed.
  Lemma q_rest : forall k st e gp, calm k st -> (e < in_n i)%nat -> q_gp m st k e gp = V3 c 0 0.
  Proof. intros k st e gp H He. unfold q_gp. apply (expand_rest i C). apply (H e He). Qed.

  Definition volF (e var dof : nat) : R :=
    integration_dphi m e fst (fun gp => V3 0 (pe i cfg c e (fst (snd (gp2 i gp))) (snd (snd (gp2 i gp)))) 0) var dof +
    integration_dphi m e snd (fun gp => V3 0 0 (pe i cfg c e (fst (snd (gp2 i gp))) (snd (snd (gp2 i gp))))) var dof.
  Definition volS (e var dof : nat) : R :=
    integration_phi m e (fun gp => V3 0 (g * (fst (physical_derivative (in_nodes i e) (Bx i e, By i e)) * c)) (g * (snd (physical_derivative (in_nodes i e) (Bx i e, By i e)) * c))) var dof.

  Lemma dphi_ext : forall e dir u u' var dof, (forall gp, (gp < length (in_rule2 i))%nat -> u gp = u' gp) ->
    integration_dphi m e dir u var dof = integration_dphi m e dir u' var dof.
  Proof. intros e dir u u' var dof H. unfold integration_dphi. apply vmsum_ext. intros gp Hg. rewrite (H gp Hg). reflexivity. Qed.
  Lemma phi_ext : forall e u u' var dof, (forall gp, (gp < length (in_rule2 i))%nat -> u gp = u' gp) ->
    integration_phi m e u var dof = integration_phi m e u' var dof.
  Proof. intros e u u' var dof H. unfold integration_phi. apply vmsum_ext. intros gp Hg. rewrite (H gp Hg). reflexivity. Qed.

  Lemma volume_rest : forall k st e, calm k st -> (e < in_n i)%nat ->
    exists M, volume_kernel m cfg k st e = set_rhs st e k M /\ forall var dof, M var dof = volF e var dof.
  Proof.
    intros k st e H He. unfold volume_kernel. rewrite (proj2 (H e He)). eexists. split; [reflexivity|]. intros var dof. unfold cadd, volF.
    f_equal; apply dphi_ext; intros gp Hg; unfold aux_gp; rewrite (aux_at e gp He Hg), (q_rest k st e gp H He); unfold get_F, vscale, pe, pressure;
      num_R; cbn [fst snd ze qx qy bath hh sp]; apply vec3_eq; cbn [ze qx qy]; unfold Rdiv; ring.
  Qed.
  Lemma friction_rest : forall p a l Cf src gp, snd (fold_left (friction_body p (fun _ => V3 c 0 0) a) l (Cf, src)) gp = src gp.
  Proof.
    intros p a l. induction l as [|x l IH]; intros Cf src gp; [reflexivity|]. cbn [fold_left friction_body]. rewrite IH. cbn [qx qy]. unfold upd.
    destruct (Nat.eqb_spec gp x) as [->|]; [|reflexivity]. rewrite !Rmult_0_r, !Rminus_0_r. destruct (src x); reflexivity.
  Qed.
  Lemma friction_q : forall p q q' a l, (forall gp, In gp l -> q gp = q' gp) -> forall s, fold_left (friction_body p q a) l s = fold_left (friction_body p q' a) l s.
  Proof.
    intros p q q' a l. induction l as [|x l IH]; intros E s; [reflexivity|]. cbn [fold_left].
    replace (friction_body p q a s x) with (friction_body p q' a s x) by (unfold friction_body; destruct s; rewrite (E x (or_introl eq_refl)); reflexivity).
    apply IH. intros gp Hg. apply E. right. exact Hg.
  Qed.
  Lemma source_rest : forall t k st e, calm k st -> (e < in_n i)%nat ->
    exists M, source_kernel m cfg t k st e = set_rhs st e k (cadd (ms_rhs st e k) M) /\ forall var dof, M var dof = volS e var dof.
  Proof.
    intros t k st e H He. unfold source_kernel. rewrite (proj2 (H e He)). eexists. split; [reflexivity|]. intros var dof. unfold volS.
    apply phi_ext. intros gp Hg. unfold source_at, get_source. cbn [m_fs init_mesh]. rewrite (uf_source i c U). cbn [option_map].
    assert (E : forall f : bool, (if f then snd (fold_left (friction_body (m_src m e) (q_gp m st k e) (aux_gp m st k e)) (seq 0 (ngp2 m)) (s_Cf (m_src m e), fun gp => V3 0 (g * (nx (m_db m e gp) * ze (q_gp m st k e gp))) (g * (ny (m_db m e gp) * ze (q_gp m st k e gp)))))
        else fun gp => V3 0 (g * (nx (m_db m e gp) * ze (q_gp m st k e gp))) (g * (ny (m_db m e gp) * ze (q_gp m st k e gp)))) gp =
        V3 0 (g * (nx (m_db m e gp) * ze (q_gp m st k e gp))) (g * (ny (m_db m e gp) * ze (q_gp m st k e gp)))).
    { intros [|]; [|reflexivity]. rewrite (friction_q _ _ (fun _ => V3 c 0 0)) by (intros; apply (q_rest k st e _ H He)). apply friction_rest. }
    refine (eq_trans (E (s_bottom_friction (m_src m e))) _). rewrite (db_at e gp He Hg), (q_rest k st e gp H He). reflexivity.
  Qed.

  Lemma calm_set : forall k st e M, calm k st -> calm k (set_rhs st e k M).
  Proof. intros k st e M H. apply (calm_same i c k _ st); [apply same_set_rhs|exact H]. Qed.
  Lemma rhs_set : forall st e k M e' var dof, ms_rhs (set_rhs st e k M) e' k var dof = if Nat.eqb e' e then M var dof else ms_rhs st e' k var dof.
  Proof.
    intros st e k M e' var dof. unfold set_rhs. cbn [ms_rhs]. destruct (Nat.eqb_spec e' e) as [->|N]; [rewrite !upd_same|rewrite upd_other by exact N]; reflexivity.
  Qed.
  Lemma volume_all : forall k st j, calm k st -> (j <= in_n i)%nat ->
    let st' := fold_left (volume_kernel m cfg k) (seq 0 j) st in
    calm k st' /\ forall e var dof, (e < j)%nat -> ms_rhs st' e k var dof = volF e var dof.
  Proof.
    intros k st j H. induction j as [|j IH]; intros Hj; [split; [exact H|lia]|]. rewrite seq_S, fold_left_app. cbn [fold_left]. rewrite Nat.add_0_l.
    destruct (IH ltac:(lia)) as [I1 I2]. set (s := fold_left _ _ _) in *. cbv zeta. destruct (volume_rest k s j I1 ltac:(lia)) as [M [-> E]].
    split; [apply calm_set, I1|]. intros e var dof He. rewrite rhs_set. destruct (Nat.eqb_spec e j) as [->|]; [apply E|apply I2; lia].
  Qed.
  Lemma source_all : forall t k st j, calm k st -> (j <= in_n i)%nat ->
    let st' := fold_left (source_kernel m cfg t k) (seq 0 j) st in
    calm k st' /\ (forall e var dof, (e < j)%nat -> ms_rhs st' e k var dof = ms_rhs st e k var dof + volS e var dof) /\
    (forall e var dof, (j <= e)%nat -> ms_rhs st' e k var dof = ms_rhs st e k var dof).
  Proof.
    intros t k st j H. induction j as [|j IH]; intros Hj; [split; [exact H|split; [lia|reflexivity]]|]. rewrite seq_S, fold_left_app. cbn [fold_left]. rewrite Nat.add_0_l.
    destruct (IH ltac:(lia)) as [I1 [I2 I3]]. set (s := fold_left _ _ _) in *. cbv zeta. destruct (source_rest t k s j I1 ltac:(lia)) as [M [-> E]].
    split; [apply calm_set, I1|]. split; intros e var dof He; rewrite rhs_set.
    - destruct (Nat.eqb_spec e j) as [->|]; [|apply I2; lia]. unfold cadd. rewrite E, I3 by lia. reflexivity.
    - destruct (Nat.eqb_spec e j) as [->|]; [lia|apply I3; lia].
  Qed.
  Definition at_side (e var dof : nat) (s : nat * nat) : R := if Nat.eqb e (fst s) then contr e (snd s) var dof else 0.
  Lemma interface_all : forall k l st, incl l (in_intfaces i) -> calm k st ->
    let st' := fold_left (interface_kernel m cfg k) l st in
    calm k st' /\ forall e var dof, (var < 3)%nat -> ms_rhs st' e k var dof = ms_rhs st e k var dof - lsum (flat_map (fun f => [(i_in f, i_bin f); (i_ex f, i_bex f)]) l) (at_side e var dof).
  Proof.
    intros k l. induction l as [|f l IH]; intros st Hl H; [split; [exact H|intros; unfold lsum; cbn; ring]|]. cbn [fold_left].
    assert (Hf : In f (in_intfaces i)) by (apply Hl; left; reflexivity). destruct (intface_in i C f Hf) as (H1 & H2 & H3 & H4).
    assert (H' : calm k (interface_kernel m cfg k st f)) by (apply (calm_same i c k _ st); [apply interface_same|exact H]).
    destruct (IH _ (fun x Hx => Hl x (or_intror Hx)) H') as [I1 I2]. split; [exact I1|]. intros e var dof Hv. rewrite I2 by exact Hv. cbn [flat_map]. rewrite lsum_app, !lsum_cons.
    unfold interface_kernel. rewrite (proj2 (H _ H1)). cbn [orb]. destruct (interface_contr i C cfg c U k st f H Hf var dof Hv) as [E1 E2]. cbv zeta in E1, E2.
    rewrite !rhs_set. unfold csub at 1. rewrite E2, !rhs_set. unfold csub. rewrite E1. unfold at_side. cbn [fst snd]. unfold lsum at 2. cbn [map fold_right].
    rewrite (Nat.eqb_sym (i_ex f) (i_in f)).
    destruct (Nat.eqb_spec e (i_ex f)) as [E|E]; destruct (Nat.eqb_spec e (i_in f)) as [F|F].
    - rewrite <- E, <- F, Nat.eqb_refl. ring.
    - rewrite <- E. destruct (Nat.eqb_spec (i_in f) e); [congruence|]. ring.
    - rewrite <- F. ring.
    - ring.
  Qed.
  Lemma boundary_all : forall t k l st, incl l (in_bounds i) -> calm k st ->
    let st' := fold_left (boundary_kernel m cfg t k) l st in
    calm k st' /\ forall e var dof, (var < 3)%nat -> ms_rhs st' e k var dof = ms_rhs st e k var dof - lsum (map (fun b => (b_elt b, b_id b)) l) (at_side e var dof).
  Proof.
    intros t k l. induction l as [|b l IH]; intros st Hl H; [split; [exact H|intros; unfold lsum; cbn; ring]|]. cbn [fold_left].
    assert (Hb : In b (in_bounds i)) by (apply Hl; left; reflexivity). destruct (bound_in i C b Hb) as [H1 H2].
    assert (H' : calm k (boundary_kernel m cfg t k st b)) by (apply (calm_same i c k _ st); [apply boundary_same|exact H]).
    destruct (IH _ (fun x Hx => Hl x (or_intror Hx)) H') as [I1 I2]. split; [exact I1|]. intros e var dof Hv. rewrite I2 by exact Hv. cbn [map]. rewrite lsum_cons.
    unfold boundary_kernel. rewrite (proj2 (H _ H1)). rewrite rhs_set. unfold csub. rewrite (boundary_contr i C cfg c U t k st b H Hb var dof Hv).
    unfold at_side at 2. cbn [fst snd]. destruct (Nat.eqb_spec e (b_elt b)) as [->|]; ring.
  Qed.
  Lemma sides_sum : forall e var dof, (e < in_n i)%nat ->
    lsum (sides (in_intfaces i) (in_bounds i)) (at_side e var dof) = contr e 0 var dof + contr e 1 var dof + contr e 2 var dof.
  Proof.
    intros e var dof He. rewrite (lsum_perm _ _ _ _ (cf_faces i C)), lsum_prod, lsum_seq.
    rewrite (rsum_ext _ _ (upd (fun _ => 0) e (contr e 0 var dof + contr e 1 var dof + contr e 2 var dof))).
    - rewrite rsum_upd by exact He. rewrite rsum_0. ring.
    - intros a Ha. unfold at_side. cbn [fst snd]. unfold upd. rewrite (Nat.eqb_sym a e). destruct (Nat.eqb_spec e a) as [<-|].
      + unfold lsum. cbn [seq map fold_right]. ring.
      + unfold lsum. cbn [seq map fold_right]. ring.
  Qed.

  Lemma rhs_zero : forall t k st, calm k st -> forall e var dof, (e < in_n i)%nat -> (var < 3)%nat -> (dof < dofs i)%nat ->
    ms_rhs (rhs_kernels m cfg t k st) e k var dof = 0.
  Proof.
    intros t k st H e var dof He Hv Hd. unfold rhs_kernels. cbn [m_n m_intfaces m_bounds init_mesh].
    destruct (volume_all k st (in_n i) H (le_n _)) as [V1 V2]. set (s1 := fold_left (volume_kernel m cfg k) _ _) in *.
    destruct (source_all t k s1 (in_n i) V1 (le_n _)) as [S1 [S2 _]]. set (s2 := fold_left (source_kernel m cfg t k) _ _) in *.
    destruct (interface_all k (in_intfaces i) s2 (incl_refl _) S1) as [I1 I2]. set (s3 := fold_left (interface_kernel m cfg k) _ _) in *.
    destruct (boundary_all t k (in_bounds i) s3 (incl_refl _) I1) as [_ B2]. rewrite B2, I2, S2, V2 by assumption.
    pose proof (sides_sum e var dof He) as Sd. unfold sides in Sd. rewrite lsum_app in Sd.
    pose proof (vol_contr i C cfg c e var dof He Hv Hd) as Vc. unfold LemmasRest3.vol in Vc. unfold volF, volS. lra.
  Qed.

  (** ** Wetting and drying, slope limiting *)
  Lemma rest_vertex : forall q v, resting (in_p i) c q -> (v < 3)%nat -> TB v (q 0%nat) = c /\ TB v (q 1%nat) = 0 /\ TB v (q 2%nat) = 0.
  Proof.
    intros q v H Hv. pose proof (dofs_3 i C) as D. unfold dofs in D.
    assert (E : forall var dof, (var < 3)%nat -> (dof < 3)%nat -> q var dof = if (Nat.eqb var 0 && Nat.eqb dof 0)%bool then c else 0) by (intros; apply H; lia).
    destruct v as [|[|[|v]]]; [| | |lia]; cbn [TB]; rewrite !E by lia; cbn [Nat.eqb andb]; repeat split; field.
  Qed.
  Lemma wd_rest : forall slot st e, (c_wd cfg = true -> submerged i c (c_h_o cfg + c_thr cfg)) -> c_wd cfg = true -> (e < in_n i)%nat ->
    resting (in_p i) c (ms_q st e slot) -> ms_wet st e = true ->
    exists st', wd_kernel m cfg slot st e = Ok st' /\ (forall e' s, ms_q st' e' s = ms_q st e' s) /\ (forall e', ms_sol st' e' = ms_sol st e') /\ (forall e', ms_wet st' e' = ms_wet st e').
  Proof.
    intros slot st e Sb W He H Hw. unfold wd_kernel. cbn [m_p m_bath m_bath_min init_mesh].
    destruct (kernel_wet (in_p i) (c_h_o cfg) (c_thr cfg) (in_z i e) (init_bath_min (in_z i e)) (proj1 (cf_order i C))
      (EltWD (ms_q st e slot) (ms_rhs st e slot) (ms_wet st e) (ms_cd st e))) as [r [E [Q [_ Wr]]]].
    - intros v Hv. unfold vertex_depth. cbn [e_q]. rewrite vv by exact Hv. rewrite (proj1 (rest_vertex _ v H Hv)). exact (Sb W e v He Hv).
    - exact Hw.
    - rewrite E. cbn [bind]. eexists. split; [reflexivity|]. cbn [ms_q ms_sol ms_wet]. split; [|split].
      + intros e' s. rewrite Q. cbn [e_q]. unfold upd. destruct (Nat.eqb_spec e' e) as [->|]; [|reflexivity]. destruct (Nat.eqb_spec s slot) as [->|]; reflexivity.
      + reflexivity.
      + intros e'. unfold upd. destruct (Nat.eqb_spec e' e) as [->|]; [|reflexivity]. rewrite Wr, Hw. reflexivity.
  Qed.
  Lemma minmod_zero : forall M nu r d, minmod M nu r 0 d = 0.
  Proof.
    intros M nu r d. unfold minmod. destruct (Rleb _ _); [reflexivity|]. destruct (Bool.eqb _ _); [|reflexivity].
    rewrite Rabs_R0, Rmin_left by apply Rabs_pos. ring.
  Qed.
  Lemma limit_row_rest : forall p s h u v q_lin old var, (forall j w, (j < 3)%nat -> (w < 3)%nat -> q_lin j w = q_lin j 0%nat) -> (var < 3)%nat ->
    limit_row p s h u v q_lin old var = Ok old.
  Proof.
    intros p s h u v q_lin old var K Hv. unfold limit_row.
    assert (Ce : forall j, (j < 3)%nat -> u_baryctr (q_lin j) = q_lin j 0%nat).
    { intros j Hj. unfold u_baryctr. cbn [vmsum]. rewrite (K j 1%nat), (K j 2%nat) by lia. unfold chi_baryctr. field. }
    assert (Mi : forall j b, (j < 3)%nat -> (b < 3)%nat -> u_midpt (q_lin j) b = q_lin j 0%nat).
    { intros j b Hj Hb. unfold u_midpt. cbn [vmsum]. rewrite (K j 1%nat), (K j 2%nat) by lia.
      destruct b as [|[|[|b]]]; [| | |lia]; unfold chi_midpts; cbn [Nat.eqb]; field. }
    assert (D : forall b, (b < 3)%nat -> limited_delta s h u v (fun j => u_baryctr (q_lin j)) (fun b j => u_midpt (q_lin j) b) var b = 0).
    { intros b Hb. unfold limited_delta. 
      assert (L : forall j, limited_char s h u v (fun j => u_baryctr (q_lin j)) (fun b j => u_midpt (q_lin j) b) b j = 0).
      { intros j. unfold limited_char.
        assert (T : char_tilda s h u v (fun j => u_baryctr (q_lin j)) (fun b j => u_midpt (q_lin j) b) b j = 0).
        { unfold char_tilda, mvec. rewrite !Ce, !Mi by lia. destruct j as [|[|j]]; ring. }
        rewrite T. apply minmod_zero. }
      unfold mvec. rewrite !L. destruct var as [|[|var]]; ring. }
    set (d := limited_delta _ _ _ _ _ _ var) in *.
    assert (Z : vmsum 3 d = 0) by (cbn [vmsum]; rewrite !D by lia; ring).
    assert (N : forall w, (w < 3)%nat -> new_vrtx (u_baryctr (q_lin var)) (balance d) w = q_lin var w).
    { intros w Hw. unfold new_vrtx, balance. destruct (Req_EM_T (vmsum 3 d) 0) as [_|X]; [|contradiction].
      cbn [vmsum]. rewrite !D by lia. rewrite Ce by exact Hv. rewrite (K var w Hv Hw). ring. }
    assert (Df : differs (new_vrtx (u_baryctr (q_lin var)) (balance d)) (q_lin var) = false).
    { unfold differs. assert (Nz : norm3 (fun w => new_vrtx (u_baryctr (q_lin var)) (balance d) w - q_lin var w) = 0).
      { unfold norm3. cbn [vmsum]. rewrite !N by lia. replace (0 + _ + _ + _) with 0 by ring. apply sqrt_0. }
      rewrite Nz. destruct (Req_EM_T (norm3 (q_lin var)) 0); [destruct (Req_EM_T 0 0); [reflexivity|congruence]|].
      apply Rltb_false. unfold Rdiv. rewrite Rmult_0_l. left. apply Rmult_lt_0_compat; [lra|]. apply Rinv_0_lt_compat, pow_lt. lra. }
    rewrite Df. reflexivity.
  Qed.
  Lemma limiter_rest : forall s wet wn q, resting (in_p i) c q ->
    exists q', slope_limiting_kernel (in_p i) s wet wn q = Ok q' /\ forall var, q' var = q var.
  Proof.
    intros s wet wn q H. unfold slope_limiting_kernel. destruct (_ && _)%bool; [|eexists; split; [reflexivity|reflexivity]].
    destruct (to_linear_ok (in_p i) q (proj1 (cf_order i C))) as [w [-> Wv]]. cbn [bind].
    assert (K : forall j v, (j < 3)%nat -> (v < 3)%nat -> w j v = w j 0%nat).
    { intros j v Hj Hv. rewrite !Wv by exact Hj. destruct (rest_vertex _ v H Hv) as (A0 & A1 & A2). destruct (rest_vertex _ 0%nat H ltac:(lia)) as (B0 & B1 & B2).
      destruct j as [|[|[|j]]]; [congruence|congruence|congruence|lia]. }
    cbv zeta. rewrite !(limit_row_rest _ _ _ _ _ _ _ _ K) by lia. cbn [bind]. eexists. split; [reflexivity|]. intros [|[|[|var]]]; reflexivity.
  Qed.
  Lemma sl_rest : forall slot st e, resting (in_p i) c (ms_q st e slot) ->
    exists st', sl_kernel m slot st e = Ok st' /\ (forall e' s var, ms_q st' e' s var = ms_q st e' s var) /\ ms_sol st' = ms_sol st /\ ms_wet st' = ms_wet st.
  Proof.
    intros slot st e H. unfold sl_kernel. cbv zeta.
    match goal with |- context [slope_limiting_kernel _ ?s ?w ?wn ?q] => destruct (limiter_rest s w wn q H) as [q' [E Q]] end.
    cbn [m_p m_sl init_mesh] in *. rewrite E. cbn [bind]. eexists. split; [reflexivity|]. cbn [ms_q ms_sol ms_wet]. split; [|split; reflexivity].
    intros e' s var. unfold upd. destruct (Nat.eqb_spec e' e) as [->|]; [|reflexivity]. destruct (Nat.eqb_spec s slot) as [->|]; [apply Q|reflexivity].
  Qed.

  (** Loops over the mesh. *)
  Definition alike (a b : mstate) : Prop := (forall e s var, ms_q a e s var = ms_q b e s var) /\ (forall e, ms_sol a e = ms_sol b e) /\ (forall e, ms_wet a e = ms_wet b e).
  Lemma alike_trans : forall a b d, alike a b -> alike b d -> alike a d.
  Proof. intros a b d (A & B & D) (A' & B' & D'). split; [|split]; intros; [rewrite A; apply A'|rewrite B; apply B'|rewrite D; apply D']. Qed.
  Lemma alike_calm : forall k a b, alike a b -> calm k b -> calm k a.
  Proof. intros k a b (Q & _ & W) H e He. rewrite W. split; [|apply (H e He)]. intros var dof Hv Hd. rewrite Q. apply (proj1 (H e He)); assumption. Qed.
  Lemma wd_all : forall slot, (c_wd cfg = true -> submerged i c (c_h_o cfg + c_thr cfg)) -> c_wd cfg = true -> forall j st, (j <= in_n i)%nat -> calm slot st ->
    exists st', ofold (wd_kernel m cfg slot) (seq 0 j) st = Ok st' /\ alike st' st.
  Proof.
    intros slot Sb W j st Hj H. induction j as [|j IH]; [exists st; split; [reflexivity|repeat split]|].
    destruct (IH ltac:(lia)) as [s1 [E A]]. rewrite seq_S, ofold_app, E. cbn [bind ofold]. rewrite Nat.add_0_l.
    destruct (alike_calm slot s1 st A H j ltac:(lia)) as [R1 W1]. destruct (wd_rest slot s1 j Sb W ltac:(lia) R1 W1) as [s2 [-> [Q [So Wt]]]].
    exists s2. split; [reflexivity|]. apply (alike_trans s2 s1 st); [|exact A]. split; [intros; rewrite Q; reflexivity|split; assumption].
  Qed.
  Lemma sl_all : forall slot j st, (j <= in_n i)%nat -> calm slot st ->
    exists st', ofold (sl_kernel m slot) (seq 0 j) st = Ok st' /\ alike st' st.
  Proof.
    intros slot j st Hj H. induction j as [|j IH]; [exists st; split; [reflexivity|repeat split]|].
    destruct (IH ltac:(lia)) as [s1 [E A]]. rewrite seq_S, ofold_app, E. cbn [bind ofold]. rewrite Nat.add_0_l.
    destruct (alike_calm slot s1 st A H j ltac:(lia)) as [R1 W1]. destruct (sl_rest slot s1 j R1) as [s2 [-> [Q [So Wt]]]].
    exists s2. split; [reflexivity|]. apply (alike_trans s2 s1 st); [|exact A]. split; [exact Q|split; intros; congruence].
  Qed.
  (** Post-processing of a stage. *)
  Definition post (slot : nat) (st : mstate) : outcome mstate :=
    do st3 <- (if c_wd cfg then ofold (wd_kernel m cfg slot) (seq 0 (m_n m)) st else Ok st) ;
    (if c_sl cfg then ofold (sl_kernel m slot) (seq 0 (m_n m)) (sl_prepare m slot st3) else Ok st3).
  Lemma post_rest : forall slot st, (c_wd cfg = true -> submerged i c (c_h_o cfg + c_thr cfg)) -> calm slot st -> exists st', post slot st = Ok st' /\ alike st' st.
  Proof.
    intros slot st Sb H. unfold post. cbn [m_n init_mesh].
    assert (W : exists st3, (if c_wd cfg then ofold (wd_kernel m cfg slot) (seq 0 (in_n i)) st else Ok st) = Ok st3 /\ alike st3 st).
    { destruct (c_wd cfg) eqn:Wd; [|exists st; split; [reflexivity|repeat split]]. apply wd_all; [|exact Wd|lia|exact H]. intros _. apply Sb. reflexivity. }
    destruct W as [st3 [-> A3]]. cbn [bind]. destruct (c_sl cfg); [|exists st3; split; [reflexivity|exact A3]].
    destruct (sl_all slot (in_n i) (sl_prepare m slot st3) (le_n _)) as [s [E A]].
    - intros e He. exact (alike_calm slot st3 st A3 H e He).
    - exists s. split; [exact E|]. apply (alike_trans s (sl_prepare m slot st3) st A). exact A3.
  Qed.
End Still.

(** ** A stage *)
Section Steps.
  Context (i : input) (C : conforming i) (cfg : config) (n : nat) (cs : nat -> R).
  Context (Hn : (0 < n)%nat) (U : forall k, (k < n)%nat -> unforced i (cs k)).
  Context (Sb : c_wd cfg = true -> forall k, (k <= n)%nat -> submerged i (cs k) (c_h_o cfg + c_thr cfg)).
  Context (Rec : forall k, (k < n)%nat -> cs (S k) = rsum (S k) (fun s => Q2R (entry (c_A cfg) k s) * cs s)).
  Notation m := (init_mesh i).

  (** After k stages: slots up to k hold resting states, the computed production is zero. *)
  Definition still (k : nat) (st : mstate) : Prop := forall e, (e < in_n i)%nat -> ms_wet st e = true /\
    (forall s, (s <= k)%nat -> resting (in_p i) (cs s) (ms_q st e s)) /\
    (forall s var dof, (s < k)%nat -> (var < 3)%nat -> (dof < dofs i)%nat -> ms_sol st e s var dof = 0).

  Lemma stage_rest : forall st stp, st_nstages stp = n -> (st_stage stp < n)%nat -> let k := st_stage stp in still k st ->
    exists st', stage_serial m cfg (st, stp) = Ok (st', stepper_incr stp) /\
    calm i (cs (S k)) ((k + 1) mod n)%nat st' /\ ((S k < n)%nat -> still (S k) st').
  Proof.
    intros st stp En Hk k H. unfold stage_serial. fold k. fold k in Hk.
    assert (Hc : calm i (cs k) k st) by (intros e He; destruct (H e He) as (A & B & _); split; [apply B; lia|exact A]).
    set (st1 := rhs_kernels m cfg (time_at_stage stp) k st).
    assert (Z : forall e var dof, (e < in_n i)%nat -> (var < 3)%nat -> (dof < dofs i)%nat -> ms_rhs st1 e k var dof = 0)
      by (intros; apply (rhs_zero i C cfg (cs k) (U k Hk)); assumption).
    assert (S1 : same_state st1 st) by apply rhs_same. destruct S1 as (Q1 & So1 & W1 & _).
    pose proof (update_loop m cfg (st_dt stp) (st_nstages stp) k (m_n m) st1 ltac:(rewrite En; exact Hk)) as Up. cbv zeta in Up.
    set (st2 := fold_left (update_kernel m cfg (st_dt stp) (st_nstages stp) k) (seq 0 (m_n m)) st1) in *.
    destruct Up as [U1 [_ [_ U4]]]. cbn [m_n init_mesh] in U1. rewrite En in U1.
    destruct (incr_stage stp) as [I1 _]. rewrite I1, En. fold k. set (slot := ((k + 1) mod n)%nat) in *.
    assert (Sol : forall e s var dof, (e < in_n i)%nat -> (s <= k)%nat -> (var < 3)%nat -> (dof < dofs i)%nat -> newsol m k st1 e s var dof = 0).
    { intros e s var dof He Hs Hv Hd. unfold newsol, upd. destruct (Nat.eqb_spec s k) as [->|N].
      - unfold apply_minv. rewrite vmsum_rsum. apply rsum_const0. intros d Hd'. unfold ndof in Hd'. cbn [m_p init_mesh] in Hd'. rewrite Z by assumption. ring.
      - rewrite So1. apply (H e He); [lia|exact Hv|exact Hd]. }
    assert (C2 : calm i (cs (S k)) slot st2).
    { intros e He. destruct (U1 e He) as [_ [E _]]. rewrite E, U4, W1. split; [|apply (H e He)]. intros var dof Hv Hd. unfold newrow. rewrite next_state_sum. cbn [fst snd].
      rewrite (rsum_ext _ _ (fun s => (if (Nat.eqb var 0 && Nat.eqb dof 0)%bool then 1 else 0) * (Q2R (entry (c_A cfg) k s) * cs s))).
      - rewrite rsum_scal, <- Rec by exact Hk. destruct (_ && _)%bool; ring.
      - intros s Hs. rewrite Q1, (Sol e s var dof He ltac:(lia) Hv Hd). destruct (H e He) as (_ & B & _). rewrite (B s ltac:(lia) var dof Hv Hd). destruct (_ && _)%bool; ring. }
    destruct (post_rest i C cfg (cs (S k)) slot st2 (fun W => Sb W (S k) ltac:(lia)) C2) as [st4 [E A]].
    exists st4. split; [|split].
    - unfold post in E. destruct (if c_wd cfg then _ else _) as [st3| |]; cbn [bind] in E |- *; [|discriminate E|discriminate E]. rewrite E. reflexivity.
    - exact (alike_calm i (cs (S k)) slot st4 st2 A C2).
    - intros Hlt e He. assert (Sl : slot = S k) by (unfold slot; rewrite Nat.mod_small; lia).
      destruct (alike_calm i (cs (S k)) slot st4 st2 A C2 e He) as [R4 W4]. rewrite Sl in R4. destruct A as (AQ & AS & _). destruct (U1 e He) as [E1 [_ E3]]. destruct (H e He) as (_ & B & _).
      split; [exact W4|split].
      + intros s Hs. destruct (Nat.eq_dec s (S k)) as [->|N]; [exact R4|]. intros var dof Hv Hd. rewrite AQ, E3, Q1 by lia. apply B; [lia|exact Hv|exact Hd].
      + intros s var dof Hs Hv Hd. rewrite AS, E1. apply Sol; try assumption. lia.
  Qed.
  Lemma stages_rest : forall st stp, st_nstages stp = n -> st_stage stp = 0%nat -> calm i (cs 0%nat) 0 st -> forall j, (j < n)%nat ->
    exists st' stp', stages m cfg j (st, stp) = Ok (st', stp') /\ st_nstages stp' = n /\ st_stage stp' = j /\ still j st'.
  Proof.
    intros st stp En E0 H. induction j as [|j IH]; intros Hj.
    - exists st, stp. split; [reflexivity|]. split; [exact En|]. split; [exact E0|]. intros e He. destruct (H e He) as [A B]. split; [exact B|]. split; [|lia].
      intros s Hs. assert (s = 0)%nat as -> by lia. exact A.
    - destruct (IH ltac:(lia)) as (s1 & p1 & E1 & N1 & K1 & S1). rewrite stages_S, E1. cbn [bind].
      destruct (stage_rest s1 p1 N1 ltac:(lia)) as (s2 & E2 & _ & S2); [rewrite K1; exact S1|]. rewrite K1 in S2.
      exists s2, (stepper_incr p1). split; [exact E2|]. destruct (incr_stage p1) as [I1 [I2 _]]. rewrite I1, I2, N1, K1.
      split; [reflexivity|]. split; [rewrite Nat.mod_small; lia|apply S2; lia].
  Qed.
  Lemma step_rest : forall st stp, st_nstages stp = n -> st_stage stp = 0%nat -> calm i (cs 0%nat) 0 st ->
    exists st' stp', step_serial m cfg (st, stp) = Ok (st', stp') /\ st_nstages stp' = n /\ st_stage stp' = 0%nat /\ calm i (cs n) 0 st'.
  Proof.
    intros st stp En E0 H. unfold step_serial. cbn [snd]. rewrite En. destruct (stages_rest st stp En E0 H (n - 1) ltac:(lia)) as (s1 & p1 & E1 & N1 & K1 & S1).
    assert (En' : stages m cfg n (st, stp) = stages m cfg (S (n - 1)) (st, stp)) by (f_equal; lia).
    rewrite En', stages_S, E1. cbn [bind].
    destruct (stage_rest s1 p1 N1 ltac:(lia)) as (s2 & E2 & C2 & _); [rewrite K1; exact S1|]. rewrite K1 in C2. replace (n - 1 + 1)%nat with n in C2 by lia. rewrite Nat.mod_same in C2 by lia.
    replace (S (n - 1)) with n in C2 by lia. exists s2, (stepper_incr p1). split; [exact E2|]. destruct (incr_stage p1) as [I1 [I2 _]]. rewrite I1, I2, N1, K1.
    replace (n - 1 + 1)%nat with n by lia. rewrite Nat.mod_same by lia. split; [reflexivity|]. split; [reflexivity|exact C2].
  Qed.
End Steps.

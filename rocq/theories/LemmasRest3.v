(** Proofs: the right-hand side vanishes at rest. *)
From Coq Require Import Reals List Bool Arith Lra Lia Permutation.
From Coquelicot Require Import Coquelicot.
From Verif Require Import Num ModelSWE SpecSWE Outcome ModelShape SpecShape ModelBasis SpecBasis SpecStepper LemmasRK LemmasSWE LemmasShape LemmasBasis LemmasBasis2 LemmasBasis3 LemmasBasis4 ModelJac ModelStepper ModelWetDry ModelSlope LemmasSlope ModelStep SpecStep LemmasStep ModelInit SpecRest LemmasRest1 LemmasRest2.
Import ListNotations.
Open Scope R_scope.

Section Rest.
  Context (i : input) (C : conforming i) (cfg : config) (c : R) (U : unforced i c).
  Notation m := (init_mesh i).
  Notation g := (c_g cfg).

  Lemma expand_rest : forall q z, resting (in_p i) c q -> expand m q z = V3 c 0 0.
  Proof.
    intros q z H. unfold expand, ndof. cbn [m_p init_mesh].
    assert (D : (0 < dubiner_ndof (in_p i))%nat) by (pose proof (dofs_3 i C) as D3; unfold dofs in D3; lia).
    assert (Row : forall var, (var < 3)%nat -> vmsum (dubiner_ndof (in_p i)) (fun dof => q var dof * GetPhi dof z) = if Nat.eqb var 0 then c else 0).
    { intros var Hv. rewrite (vmsum_single _ _ 0%nat D).
      - rewrite (H var 0%nat Hv D), phi0. cbn [Nat.eqb]. rewrite andb_true_r. destruct (Nat.eqb var 0); ring.
      - intros d Hd N. rewrite (H var d Hv Hd). destruct (Nat.eqb_spec d 0); [contradiction|]. rewrite andb_false_r. ring. }
    rewrite !Row by lia. reflexivity.
  Qed.

  (** Pressure at a master point. *)
  Definition pe (e : nat) (x y : R) : R := pressure g c (B i e x y).
  (** Half the outward edge vector turned by a right angle: length factor times normal. *)
  Definition nvec (e b : nat) : R * R :=
    let n := in_nodes i e in
    ((snd (n ((b + 2) mod 3)%nat) - snd (n ((b + 1) mod 3)%nat)) / 2, - (fst (n ((b + 2) mod 3)%nat) - fst (n ((b + 1) mod 3)%nat)) / 2).
  (** What face [b] takes away from row [var], dof. *)
  Definition contr (e b var dof : nat) : R :=
    on_face (in_rule1 i) b (fun x y => pe e x y * GetPhi dof (x, y)) *
    match var with 0%nat => 0 | 1%nat => fst (nvec e b) | _ => snd (nvec e b) end.

  Lemma dist_pos : forall e b, (e < in_n i)%nat -> (b < 3)%nat ->
    0 < dist (in_nodes i e ((b + 2) mod 3)%nat) (in_nodes i e ((b + 1) mod 3)%nat).
  Proof.
    intros e b He Hb. pose proof (cf_triangles i C e He) as T. unfold orient in T. unfold dist. apply sqrt_lt_R0. unfold vdot, vsub. cbn [fst snd].
    set (n := in_nodes i e) in *.
    match goal with |- 0 < ?x * ?x + ?y * ?y => destruct (Req_dec x 0) as [X|X]; [destruct (Req_dec y 0) as [Y|Y]|] end.
    - exfalso. destruct b as [|[|[|b]]]; [| | |lia]; cbn [Nat.add Nat.modulo Nat.divmod fst snd Nat.sub] in X, Y; nra.
    - pose proof (Rsqr_pos_lt _ Y) as P. unfold Rsqr in P. rewrite X. lra.
    - pose proof (Rsqr_pos_lt _ X) as P. unfold Rsqr in P. match goal with |- 0 < _ + ?y * ?y => pose proof (Rle_0_sqr y) as P2; unfold Rsqr in P2; lra end.
  Qed.
  Lemma normal_scaled : forall e b, (e < in_n i)%nat -> (b < 3)%nat ->
    GetSurfaceJ (in_nodes i e) b * nx (normal m e b) = fst (nvec e b) /\ GetSurfaceJ (in_nodes i e) b * ny (normal m e b) = snd (nvec e b).
  Proof.
    intros e b He Hb. pose proof (dist_pos e b He Hb) as D. unfold normal. cbn [m_nodes init_mesh nx ny].
    rewrite (outward_unique 0 0 (0,0) (0,0) (in_nodes i e) b Hb (cf_triangles i C e He)), surface_j.
    rewrite (dist_sym (in_nodes i e ((b + 1) mod 3)%nat)). cbn [fst snd]. unfold nvec. cbn [fst snd]. split; field; lra.
  Qed.

  Lemma LLF_rest : forall b n, LLF_flux g (V3 c 0 0) (V3 c 0 0) (Aux b 0 1) n = V3 0 (pressure g c b * nx n) (pressure g c b * ny n).
  Proof.
    intros b n. rewrite LLF_consistent by reflexivity. unfold physical_flux, normal_part. cbn [ze qx qy bath].
    apply vec3_eq; cbn [ze qx qy]; unfold Rdiv; ring.
  Qed.
  Lemma land_ex_rest : forall n, land_ex n (V3 c 0 0) = V3 c 0 0.
  Proof. intros n. unfold land_ex. num_R. cbn [ze qx qy]. apply vec3_eq; cbn [ze qx qy]; ring. Qed.
  Lemma small_rest : forall x y : R, (@nltb R Num_R n1em12 0) = false /\ (@nltb R Num_R 0 (@nopp R Num_R n1em12)) = false.
  Proof. intros _ _. unfold n1em12. split; num_R; cbn; apply Rltb_false; lra. Qed.

  (** One face integral. *)
  Lemma face_sum : forall e b (P : nat -> R) nv var dof, (var < 3)%nat ->
    (forall gp, (gp < length (in_rule1 i))%nat -> P gp = pe e (fst (face_point i b gp)) (snd (face_point i b gp))) ->
    forall el bl, GetSurfaceJ (in_nodes i el) bl * nx nv = fst (nvec e b) -> GetSurfaceJ (in_nodes i el) bl * ny nv = snd (nvec e b) ->
    integration_face m el bl b (fun gp => V3 0 (P gp * nx nv) (P gp * ny nv)) var dof = contr e b var dof.
  Proof.
    intros e b P nv var dof Hv HP el bl N1 N2. unfold integration_face, contr, on_face, quad1, ngp1, z1, w1. cbn [m_rule1 m_nodes init_mesh].
    rewrite vmsum_rsum, (Rmult_comm (rsum _ _)), <- rsum_scal. apply rsum_ext. intros gp Hg.
    rewrite HP by exact Hg. unfold face_point, gp1. rewrite <- surjective_pairing.
    destruct var as [|[|[|var]]]; [| | |lia]; cbn [vget ze qx qy]; [ring|rewrite <- N1|rewrite <- N2]; ring.
  Qed.
  Lemma face_ext : forall el bl b u u' var dof, (forall gp, (gp < length (in_rule1 i))%nat -> u gp = u' gp) ->
    integration_face m el bl b u var dof = integration_face m el bl b u' var dof.
  Proof.
    intros el bl b u u' var dof E. unfold integration_face, ngp1. cbn [m_rule1 init_mesh]. rewrite !vmsum_rsum. apply rsum_ext.
    intros gp Hg. rewrite (E gp Hg). reflexivity.
  Qed.

  (** States at rest in slot [k], everything wet. *)
  Definition calm (k : nat) (st : mstate) : Prop := forall e, (e < in_n i)%nat -> resting (in_p i) c (ms_q st e k) /\ ms_wet st e = true.
  Lemma calm_same : forall k a b, same_state a b -> calm k b -> calm k a.
  Proof. intros k a b (Q & _ & W & _) H e He. rewrite Q, W. exact (H e He). Qed.

  Lemma segment_bath : forall f gp, In f (in_intfaces i) -> i_kind f = Internal -> (i_bin f < 3)%nat -> (i_bex f < 3)%nat -> (gp < length (in_rule1 i))%nat ->
    let gx := (length (in_rule1 i) - gp - 1)%nat in
    B i (i_in f) (fst (face_point i (i_bin f) gp)) (snd (face_point i (i_bin f) gp)) =
    B i (i_ex f) (fst (face_point i (i_bex f) gx)) (snd (face_point i (i_bex f) gx)).
  Proof.
    intros f gp Hf Ki Hb Hx Hg gx. destruct (cf_bath i C f Hf Ki) as [E1 E2]. destruct (cf_sym i C gp Hg) as [Z _].
    assert (Zx : snd (gp1 i gx) = - snd (gp1 i gp)) by (exact Z). clearbody gx.
    unfold face_point. rewrite Zx. set (z := snd (gp1 i gp)). unfold B. cbn [vmsum].
    assert (Edge : forall e b t, (b < 3)%nat -> 
      in_z i e 0%nat * GetPsi (fst (BoundaryToMasterCoordinates b t), snd (BoundaryToMasterCoordinates b t)) 0 +
      in_z i e 1%nat * GetPsi (fst (BoundaryToMasterCoordinates b t), snd (BoundaryToMasterCoordinates b t)) 1 +
      in_z i e 2%nat * GetPsi (fst (BoundaryToMasterCoordinates b t), snd (BoundaryToMasterCoordinates b t)) 2 =
      (1 - t) / 2 * in_z i e ((b + 1) mod 3)%nat + (1 + t) / 2 * in_z i e ((b + 2) mod 3)%nat).
    { intros e b t H. destruct b as [|[|[|b]]]; [| | |lia]; cbn; field. }
    rewrite !Rplus_0_l, !Edge by assumption. rewrite E1, E2. field.
  Qed.

  Lemma intface_in : forall f, In f (in_intfaces i) -> ((i_in f < in_n i) /\ (i_bin f < 3) /\ (i_ex f < in_n i) /\ (i_bex f < 3))%nat.
  Proof.
    intros f Hf. assert (S1 : In (i_in f, i_bin f) (sides (in_intfaces i) (in_bounds i)) /\ In (i_ex f, i_bex f) (sides (in_intfaces i) (in_bounds i))).
    { unfold sides. split; apply in_or_app; left; apply in_flat_map; exists f; (split; [exact Hf|]); [left|right; left]; reflexivity. }
    destruct S1 as [S1 S2]. apply (side_in i C) in S1. apply (side_in i C) in S2. cbn [fst snd] in *. tauto.
  Qed.
  Lemma bound_in : forall b, In b (in_bounds i) -> ((b_elt b < in_n i) /\ (b_id b < 3))%nat.
  Proof.
    intros b Hb. apply (side_in i C (b_elt b, b_id b)). unfold sides. apply in_or_app. right. apply in_map_iff. exists b. split; [reflexivity|exact Hb].
  Qed.
  Lemma ex_normal : forall f, In f (in_intfaces i) ->
    GetSurfaceJ (in_nodes i (i_in f)) (i_bin f) * nx (opp (normal m (i_in f) (i_bin f))) = fst (nvec (i_ex f) (i_bex f)) /\
    GetSurfaceJ (in_nodes i (i_in f)) (i_bin f) * ny (opp (normal m (i_in f) (i_bin f))) = snd (nvec (i_ex f) (i_bex f)).
  Proof.
    intros f Hf. destruct (intface_in f Hf) as (H1 & H2 & H3 & H4). destruct (normal_scaled _ _ H1 H2) as [N1 N2].
    pose proof (cf_segments i C f Hf) as Sg. cbv zeta in Sg. unfold SpecShape.vsub in Sg.
    pose proof (f_equal fst Sg) as Sx. pose proof (f_equal snd Sg) as Sy. cbn [fst snd] in Sx, Sy.
    unfold opp. cbn [nx ny]. rewrite !Ropp_mult_distr_r_reverse, N1, N2. unfold nvec. cbn [fst snd]. split; lra.
  Qed.

  Lemma faux_at : forall e b gp, (e < in_n i)%nat -> (b < 3)%nat -> (gp < length (in_rule1 i))%nat ->
    m_faux m e b gp = Aux (B i e (fst (face_point i b gp)) (snd (face_point i b gp))) 0 1.
  Proof. intros. cbn [m_faux init_mesh]. apply (faux_value i C (uf_plane i c U)); assumption. Qed.

  Lemma fold_left_ext : forall (X Y : Type) (f h : X -> Y -> X), (forall x y, f x y = h x y) -> forall l x, fold_left f l x = fold_left h l x.
  Proof. intros X Y f h E l. induction l as [|y l IH]; intros x; [reflexivity|]. cbn [fold_left]. rewrite E. apply IH. Qed.
  Lemma levee_loop : forall data wi we q_in q_ex a_in a_ex n_in n_ex F0,
    levee_flux m cfg data wi we q_in q_ex a_in a_ex n_in n_ex F0 = loop2 (ngp1 m) (ngp1 m) (fun gp _ _ => let '(H, cs, cp) := data gp in
      levee_point g H cs cp wi we (q_in gp) (q_ex (ngp1 m - gp - 1)%nat) (a_in gp) (a_ex (ngp1 m - gp - 1)%nat) (n_in gp) (n_ex (ngp1 m - gp - 1)%nat)) F0.
  Proof.
    intros. unfold levee_flux, loop2. apply fold_left_ext. intros F gp. cbv zeta. destruct (data gp) as [[H cs] cp]. reflexivity.
  Qed.

  Lemma interface_contr : forall k st f, calm k st -> In f (in_intfaces i) -> forall var dof, (var < 3)%nat ->
    let F := interface_flux m cfg k st f in
    integration_face m (i_in f) (i_bin f) (i_bin f) (fst F) var dof = contr (i_in f) (i_bin f) var dof /\
    integration_face m (i_in f) (i_bin f) (i_bex f) (snd F) var dof = contr (i_ex f) (i_bex f) var dof.
  Proof.
    intros k st f Hc Hf var dof Hv F. destruct (intface_in f Hf) as (H1 & H2 & H3 & H4).
    destruct (Hc _ H1) as [R1 W1]. destruct (Hc _ H3) as [R2 W2]. set (n1 := normal m (i_in f) (i_bin f)).
    assert (Q1 : forall gp, q_face m st k (i_in f) (i_bin f) gp = V3 c 0 0) by (intros gp; apply expand_rest; exact R1).
    assert (Q2 : forall gp, q_face m st k (i_ex f) (i_bex f) gp = V3 c 0 0) by (intros gp; apply expand_rest; exact R2).
    set (ngp := length (in_rule1 i)).
    assert (G : forall gp, (gp < ngp)%nat -> let gx := (ngp - gp - 1)%nat in
      fst F gp = V3 0 (pe (i_in f) (fst (face_point i (i_bin f) gp)) (snd (face_point i (i_bin f) gp)) * nx n1) (pe (i_in f) (fst (face_point i (i_bin f) gp)) (snd (face_point i (i_bin f) gp)) * ny n1) /\
      snd F gx = V3 0 (pe (i_ex f) (fst (face_point i (i_bex f) gx)) (snd (face_point i (i_bex f) gx)) * nx (opp n1)) (pe (i_ex f) (fst (face_point i (i_bex f) gx)) (snd (face_point i (i_bex f) gx)) * ny (opp n1))).
    { intros gp Hg gx. assert (Hx : (gx < ngp)%nat) by (unfold gx; lia). unfold F, interface_flux. destruct (i_kind f) as [|data] eqn:Ki.
      - unfold ngp1. cbn [m_rule1 init_mesh]. fold ngp.
        match goal with |- context [internal_flux ?a ?b ?c ?d ?e ?f0 ?h ?l ?m0 ?n0 ?o] =>
          pose proof (internal_flux_loop a b c d e f0 h l m0 n0 o gp Hg) as L end.
        cbv zeta in L. fold gx in L. rewrite Q1, Q2 in L. rewrite (faux_at (i_in f) (i_bin f) gp H1 H2 Hg) in L.
        unfold internal_point in L. rewrite LLF_rest in L. cbn [ze] in L.
        destruct (small_rest 0 0) as [S1 S2]. rewrite S1, S2 in L. pose proof (f_equal fst L) as L1. pose proof (f_equal snd L) as L2. cbn [fst snd] in L1, L2. split; [exact L1|]. refine (eq_trans L2 _).
        unfold pe. unfold gx, ngp. rewrite <- (segment_bath f gp Hf Ki H2 H4 Hg). fold n1. unfold vneg, opp. num_R. cbn [ze qx qy nx ny].
        apply vec3_eq; cbn [ze qx qy]; ring.
      - rewrite (levee_loop data _ _ _ _ _ _ _ _ _). change (ngp1 m) with ngp.
        match goal with |- context [loop2 ngp ngp ?P ?F0] => destruct (loop2_spec _ _ ngp P F0 gp Hg) as [L1 L2] end.
        fold gx in L1, L2. rewrite L1, L2. cbn [m_rule1 init_mesh]. fold ngp gx. destruct (data gp) as [[H cs] cp].
        unfold levee_point. rewrite Q1, Q2. rewrite (faux_at _ _ gp H1 H2 Hg), (faux_at _ _ gx H3 H4 Hx). fold n1.
        assert (T : (@nleb R Num_R (@nabs R Num_R (@nsub R Num_R (@nsub R Num_R (ze (V3 c 0 0)) H) (@nsub R Num_R (ze (V3 c 0 0)) H))) levee_tol) = true).
        { unfold levee_tol. num_R. cbn [ze]. apply Rleb_true. rewrite Rminus_diag_eq by reflexivity. rewrite Rabs_R0. lra. }
        rewrite T, orb_true_r. cbn [fst snd]. rewrite !land_ex_rest, !LLF_rest. split; reflexivity. }
    split.
    - rewrite (face_ext _ _ _ _ (fun gp => V3 0 (pe (i_in f) (fst (face_point i (i_bin f) gp)) (snd (face_point i (i_bin f) gp)) * nx n1) (pe (i_in f) (fst (face_point i (i_bin f) gp)) (snd (face_point i (i_bin f) gp)) * ny n1))) by (intros gp Hg; apply (G gp Hg)).
      destruct (normal_scaled _ _ H1 H2) as [N1 N2].
      exact (face_sum (i_in f) (i_bin f) (fun gp => pe (i_in f) (fst (face_point i (i_bin f) gp)) (snd (face_point i (i_bin f) gp))) n1 var dof Hv (fun gp _ => eq_refl) (i_in f) (i_bin f) N1 N2).
    - rewrite (face_ext _ _ _ _ (fun gp => V3 0 (pe (i_ex f) (fst (face_point i (i_bex f) gp)) (snd (face_point i (i_bex f) gp)) * nx (opp n1)) (pe (i_ex f) (fst (face_point i (i_bex f) gp)) (snd (face_point i (i_bex f) gp)) * ny (opp n1)))).
      + destruct (ex_normal f Hf) as [N1 N2].
        exact (face_sum (i_ex f) (i_bex f) (fun gp => pe (i_ex f) (fst (face_point i (i_bex f) gp)) (snd (face_point i (i_bex f) gp))) (opp n1) var dof Hv (fun gp _ => eq_refl) (i_in f) (i_bin f) N1 N2).
      + intros gp Hg. fold ngp in Hg. destruct (G (ngp - gp - 1)%nat ltac:(lia)) as [_ E]. replace (ngp - (ngp - gp - 1) - 1)%nat with gp in E by lia. exact E.
  Qed.
  Lemma boundary_contr : forall t k st b, calm k st -> In b (in_bounds i) -> forall var dof, (var < 3)%nat ->
    integration_face m (b_elt b) (b_id b) (b_id b) (boundary_flux m cfg t k st b) var dof = contr (b_elt b) (b_id b) var dof.
  Proof.
    intros t k st b Hc Hb var dof Hv. destruct (bound_in b Hb) as [H1 H2]. destruct (Hc _ H1) as [R1 W1]. set (n1 := normal m (b_elt b) (b_id b)).
    rewrite (face_ext _ _ _ _ (fun gp => V3 0 (pe (b_elt b) (fst (face_point i (b_id b) gp)) (snd (face_point i (b_id b) gp)) * nx n1) (pe (b_elt b) (fst (face_point i (b_id b) gp)) (snd (face_point i (b_id b) gp)) * ny n1))).
    - destruct (normal_scaled _ _ H1 H2) as [N1 N2].
      exact (face_sum (b_elt b) (b_id b) (fun gp => pe (b_elt b) (fst (face_point i (b_id b) gp)) (snd (face_point i (b_id b) gp))) n1 var dof Hv (fun gp _ => eq_refl) (b_elt b) (b_id b) N1 N2).
    - intros gp Hg. unfold boundary_flux. rewrite (faux_at _ _ gp H1 H2 Hg).
      assert (Q1 : q_face m st k (b_elt b) (b_id b) gp = V3 c 0 0) by (apply expand_rest; exact R1). rewrite Q1.
      pose proof (uf_bounds i c U b Hb) as X. destruct (b_bc b) as [|ex].
      + unfold land_flux. rewrite land_ex_rest, LLF_rest. reflexivity.
      + rewrite X, LLF_rest. reflexivity.
  Qed.

  (** ** The volume terms *)
  Definition vol (e var dof : nat) : R :=
    integration_dphi m e fst (fun gp => V3 0 (pe e (fst (snd (gp2 i gp))) (snd (snd (gp2 i gp)))) 0) var dof +
    integration_dphi m e snd (fun gp => V3 0 0 (pe e (fst (snd (gp2 i gp))) (snd (snd (gp2 i gp))))) var dof +
    integration_phi m e (fun gp => V3 0 (g * (fst (physical_derivative (in_nodes i e) (Bx i e, By i e)) * c)) (g * (snd (physical_derivative (in_nodes i e) (Bx i e, By i e)) * c))) var dof.
  Lemma exact2_le : forall d d' r, (d' <= d)%nat -> exact2 d r -> exact2 d' r.
  Proof. intros d d' r H E a b Hab. apply E. lia. Qed.
  Lemma exact1_le : forall d d' r, (d' <= d)%nat -> exact1 d r -> exact1 d' r.
  Proof. intros d d' r H E a Ha. apply E. lia. Qed.
  Lemma pe_poly : forall e, poly_deg 1 (pe e).
  Proof.
    intros e. apply (pd_ext 1 (fun x y => (g * (c * c / 2 + c * B i e 0 0)) + ((g * c * Bx i e) * x + (g * c * By i e) * y))).
    - intros x y. unfold pe, pressure, B, Bx, By. cbn [vmsum GetPsi fst snd]. field.
    - apply pd_add; [apply (pd_le 0); [lia|apply pd_const]|]. apply pd_add; apply pd_scal; [apply pd_x|apply pd_y].
  Qed.
  Lemma pe_dx : forall e x y, is_derive (fun t => pe e t y) x (g * c * Bx i e).
  Proof.
    intros e x y. apply (is_derive_e (fun t => (g * (c * c / 2 + c * B i e 0 0) + (g * c * By i e) * y) + t * (g * c * Bx i e)) _ x (0 + 1 * (g * c * Bx i e))).
    - apply is_derive_p; [apply is_derive_c|]. apply is_derive_k. exact (is_derive_id x).
    - intros t. unfold pe, pressure, B, Bx, By. cbn [vmsum GetPsi fst snd]. field.
    - ring.
  Qed.
  Lemma pe_dy : forall e x y, is_derive (fun t => pe e x t) y (g * c * By i e).
  Proof.
    intros e x y. apply (is_derive_e (fun t => (g * (c * c / 2 + c * B i e 0 0) + (g * c * Bx i e) * x) + t * (g * c * By i e)) _ y (0 + 1 * (g * c * By i e))).
    - apply is_derive_p; [apply is_derive_c|]. apply is_derive_k. exact (is_derive_id y).
    - intros t. unfold pe, pressure, B, Bx, By. cbn [vmsum GetPsi fst snd]. field.
    - ring.
  Qed.
  Lemma ok_split : forall x y, ok_point (x, y) -> y <> 1 \/ (x = -1 /\ y = 1).
  Proof. intros x y [N|E]; [left; exact N|right; injection E as -> ->; split; reflexivity]. Qed.

  Lemma vol_contr : forall e var dof, (e < in_n i)%nat -> (var < 3)%nat -> (dof < dofs i)%nat ->
    vol e var dof = contr e 0 var dof + contr e 1 var dof + contr e 2 var dof.
  Proof.
    intros e var dof He Hv Hd. pose proof (cf_order i C) as [P1 P2]. pose proof (jdet_pos i C e He) as J.
    destruct (polynomial dof (ndof_298 i C dof Hd)) as [P [Pd PE]]. pose proof (dof_degree dof (in_p i) Hd) as Dd.
    set (f := fun x y => pe e x y * P x y).
    assert (F : poly_deg (S (in_p i)) f).
    { apply (pd_le (1 + tri_num_indx dof)); [lia|]. apply pd_mul; [apply pe_poly|exact Pd]. }
    assert (E2 : exact2 (in_p i) (in_rule2 i)) by (refine (exact2_le _ _ _ _ (cf_rule2 i C)); lia).
    assert (E1 : exact1 (S (in_p i)) (in_rule1 i)) by (refine (exact1_le _ _ _ _ (cf_rule1 i C)); lia).
    destruct (divergence (in_rule2 i) (in_rule1 i) (in_p i) f E2 E1 F) as [l [L [Dx Dy]]].
    assert (Fb : forall b, on_face (in_rule1 i) b (fun x y => pe e x y * GetPhi dof (x, y)) = on_face (in_rule1 i) b f).
    { intros b. apply quad1_ext. intros z. unfold f. pose proof (face_ok b z) as O. destruct (BoundaryToMasterCoordinates b z) as [x y]. cbn [fst snd].
      rewrite (proj1 (PE x y (ok_split x y O))). reflexivity. }
    assert (Gx : forall z, ok_point z -> tval (tdx l) (fst z) (snd z) = pe e (fst z) (snd z) * fst (GetDPhi dof z) + g * c * Bx i e * GetPhi dof z).
    { intros [x y] O. cbn [fst snd]. destruct (PE x y (ok_split x y O)) as [V [D1 _]].
      rewrite <- (is_derive_unique _ _ _ (tdx_derive l x y)). apply is_derive_unique.
      apply (is_derive_e (fun t => pe e t y * P t y) _ x ((g * c * Bx i e) * P x y + pe e x y * fst (GetDPhi dof (x, y)))).
      - exact (is_derive_m (fun t => pe e t y) (fun t => P t y) x _ _ (pe_dx e x y) D1).
      - intros t. exact (L t y).
      - rewrite V. ring. }
    assert (Gy : forall z, ok_point z -> tval (tdy l) (fst z) (snd z) = pe e (fst z) (snd z) * snd (GetDPhi dof z) + g * c * By i e * GetPhi dof z).
    { intros [x y] O. cbn [fst snd]. destruct (PE x y (ok_split x y O)) as [V [_ D2]].
      rewrite <- (is_derive_unique _ _ _ (tdy_derive l x y)). apply is_derive_unique.
      apply (is_derive_e (fun t => pe e x t * P x t) _ y ((g * c * By i e) * P x y + pe e x y * snd (GetDPhi dof (x, y)))).
      - exact (is_derive_m (fun t => pe e x t) (fun t => P x t) y _ _ (pe_dy e x y) D2).
      - intros t. exact (L x t).
      - rewrite V. ring. }
    set (A := GetJinv (in_nodes i e)). set (aJ := Rabs (GetJdet (in_nodes i e))).
    assert (Vx : vol e var dof = aJ * match var with 0%nat => 0 | 1%nat => a00 A * quad2 (in_rule2 i) (tval (tdx l)) + a10 A * quad2 (in_rule2 i) (tval (tdy l))
                                   | _ => a01 A * quad2 (in_rule2 i) (tval (tdx l)) + a11 A * quad2 (in_rule2 i) (tval (tdy l)) end).
    { unfold vol, integration_dphi, integration_phi, ngp2, w2, z2. cbn [m_rule2 m_nodes init_mesh]. rewrite !vmsum_rsum, <- !rsum_plus.
      destruct var as [|[|[|var]]]; [| | |lia].
      - rewrite Rmult_0_r. apply rsum_const0. intros gp _. cbn [vget ze]. ring.
      - unfold quad2. rewrite <- !rsum_scal, <- rsum_plus, <- rsum_scal. apply rsum_ext. intros gp Hg. pose proof (cf_off i C gp Hg) as O. cbn [vget ze qx qy].
        unfold gp2. rewrite (Gx _ O), (Gy _ O). unfold physical_derivative. cbn [fst snd]. fold A aJ. ring.
      - unfold quad2. rewrite <- !rsum_scal, <- rsum_plus, <- rsum_scal. apply rsum_ext. intros gp Hg. pose proof (cf_off i C gp Hg) as O. cbn [vget ze qx qy].
        unfold gp2. rewrite (Gx _ O), (Gy _ O). unfold physical_derivative. cbn [fst snd]. fold A aJ. ring. }
    rewrite Vx, Dx, Dy. unfold contr. rewrite !Fb. unfold A, aJ. rewrite (Rabs_pos_eq _ (Rlt_le _ _ J)). unfold GetJinv, inverse. fold (GetJdet (in_nodes i e)).
    cbn [a00 a01 a10 a11 deformation]. unfold nvec. change ((0 + 2) mod 3)%nat with 2%nat. change ((0 + 1) mod 3)%nat with 1%nat.
    change ((1 + 2) mod 3)%nat with 0%nat. change ((1 + 1) mod 3)%nat with 2%nat. change ((2 + 2) mod 3)%nat with 1%nat. change ((2 + 1) mod 3)%nat with 0%nat.
    cbn [fst snd]. destruct var as [|[|[|var]]]; [| | |lia]; [ring| |]; field; lra.
  Qed.
End Rest.

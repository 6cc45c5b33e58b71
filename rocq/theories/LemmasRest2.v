(** Proofs: projection of nodal values, initial data of a conforming mesh. *)
From Coq Require Import Reals List Bool Arith Lra Lia Permutation.
From Coquelicot Require Import Coquelicot.
From Verif Require Import Num ModelSWE Outcome ModelShape SpecShape ModelBasis SpecBasis SpecStepper LemmasRK LemmasSWE LemmasShape LemmasBasis LemmasBasis2 LemmasBasis3 LemmasBasis4 ModelJac ModelStepper ModelWetDry ModelSlope LemmasSlope ModelStep SpecStep LemmasStep ModelInit SpecRest LemmasRest1.
Import ListNotations.
Open Scope R_scope.

(** ** The projection *)
Lemma triangle_ext1 : forall f g u, (forall x y, y <> 1 -> f x y = g x y) -> is_triangle_int f u -> is_triangle_int g u.
Proof.
  intros f g u E [A [A1 A2]]. exists A. split; [|exact A2]. intros y Hy. destruct (Req_dec y 1) as [->|N].
  - replace (- (1)) with (-1) by ring. assert (Z : A 1 = 0).
    { pose proof (A1 1 Hy) as I. replace (- (1)) with (-1) in I by ring.
      exact (RInt_uniq _ _ _ _ _ I (is_RInt_point (V := R_NormedModule) (fun z => f z 1) (-1))). }
    rewrite Z. exact (is_RInt_point (V := R_NormedModule) (fun z => g z 1) (-1)).
  - apply (is_RInt_ext (fun x => f x y)); [|exact (A1 y Hy)]. intros x _. apply E. exact N.
Qed.
Lemma ndof_le : forall p q, (p <= q)%nat -> (dubiner_ndof p <= dubiner_ndof q)%nat.
Proof. intros p q H. rewrite !ndof_tri. apply tri_mono. lia. Qed.
Lemma dof_degree : forall dof p, (dof < dubiner_ndof p)%nat -> (tri_num_indx dof <= p)%nat.
Proof. intros dof p H. destruct (no_underflow dof) as [_ [_ E]]. apply dof_range in H. lia. Qed.
Lemma quad2_ok : forall r f g, (forall gp, (gp < length r)%nat -> ok_point (snd (nth gp r (0, (0, 0))))) ->
  (forall z, ok_point z -> f (fst z) (snd z) = g (fst z) (snd z)) -> quad2 r f = quad2 r g.
Proof. intros r f g O E. apply rsum_ext. intros gp Hg. cbn beta. f_equal. exact (E _ (O gp Hg)). Qed.

Definition linc (w : nat -> R) (dof : nat) : R :=
  match dof with 0%nat => (w 0%nat + w 1%nat + w 2%nat) / 3 | 1%nat => (2 * w 2%nat - w 0%nat - w 1%nat) / 6 | 2%nat => (w 1%nat - w 0%nat) / 2 | _ => 0 end.
Lemma psi_modal : forall w z, ok_point z ->
  vmsum 3 (fun v => w v * GetPsi z v) = linc w 0 * GetPhi 0 z + linc w 1 * GetPhi 1 z + linc w 2 * GetPhi 2 z.
Proof. intros w z O. destruct (first_three z O) as [-> [-> ->]]. cbn [vmsum GetPsi linc]. field. Qed.
Lemma pair_int : forall r d j dof, exact2 d r -> off_line r -> (tri_num_indx j + tri_num_indx dof <= d)%nat -> (j < dubiner_ndof 298)%nat -> (dof < dubiner_ndof 298)%nat ->
  quad2 r (fun x y => GetPhi j (x, y) * GetPhi dof (x, y)) = if Nat.eqb j dof then / GetMinv j j else 0.
Proof.
  intros r d j dof X O Hd Hj Hdof. destruct (polynomial j Hj) as [P [Pd PE]]. destruct (polynomial dof Hdof) as [Q [Qd QE]].
  rewrite (quad2_ok r _ (fun x y => P x y * Q x y) O).
  - apply (quad2_poly r d); [exact X|apply (pd_le _ d _ Hd); apply pd_mul; assumption|].
    apply (triangle_ext1 (fun x y => GetPhi j (x, y) * GetPhi dof (x, y))); [|apply orthogonality; assumption].
    intros x y Hy. rewrite (proj1 (PE x y (or_introl Hy))), (proj1 (QE x y (or_introl Hy))). reflexivity.
  - intros [x y] Oz. cbn [fst snd]. assert (Oz' : y <> 1 \/ x = -1 /\ y = 1).
    { destruct Oz as [N|E]; [left; exact N|right; injection E as -> ->; split; reflexivity]. }
    rewrite (proj1 (PE x y Oz')), (proj1 (QE x y Oz')). reflexivity.
Qed.
Lemma vmsum_single : forall n (f : nat -> R) k, (k < n)%nat -> (forall d, (d < n)%nat -> d <> k -> f d = 0) -> vmsum n f = f k.
Proof.
  intros n f k Hk Z. rewrite vmsum_rsum. assert (E : rsum n f = rsum n (upd (fun _ => 0) k (f k))).
  { apply rsum_ext. intros d Hd. unfold upd. destruct (Nat.eqb_spec d k) as [->|N]; [reflexivity|apply Z; assumption]. }
  rewrite E, rsum_upd by exact Hk. rewrite rsum_0. ring.
Qed.

Section Mesh.
  Context (i : input) (C : conforming i).
  Lemma ndof_298 : forall dof, (dof < dofs i)%nat -> (dof < dubiner_ndof 298)%nat.
  Proof. intros dof H. unfold dofs in H. pose proof (ndof_le (in_p i) 298 (proj2 (cf_order i C))). lia. Qed.
  Lemma dofs_3 : (3 <= dofs i)%nat.
  Proof. apply ndof_ge3. apply (cf_order i C). Qed.
  Lemma jdet_pos : forall e, (e < in_n i)%nat -> 0 < GetJdet (in_nodes i e).
  Proof. intros e H. destruct (jacobian_area (in_nodes i e)) as [-> ->]. pose proof (cf_triangles i C e H). lra. Qed.

  Lemma l2_exact : forall e w dof, (e < in_n i)%nat -> (dof < dofs i)%nat -> l2_node i e w dof = linc w dof.
  Proof.
    intros e w dof He Hd. pose proof (jdet_pos e He) as J. pose proof (Rabs_pos_lt _ (Rgt_not_eq _ _ J)) as AJ.
    pose proof (cf_order i C) as [P1 P2]. destruct tri_values as [T0 [T1 T2]]. pose proof (dof_degree dof (in_p i) Hd) as Dd.
    pose proof dofs_3 as D3. assert (Mp : 0 < GetMinv dof dof) by (apply (orthogonality dof dof); apply ndof_298; exact Hd).
    unfold l2_node. rewrite (vmsum_single (dofs i) _ dof Hd).
    - rewrite vmsum_rsum. rewrite (rsum_ext _ _ (fun gp => Rabs (GetJdet (in_nodes i e)) *
        (linc w 0 * (fst (gp2 i gp) * (GetPhi 0 (snd (gp2 i gp)) * GetPhi dof (snd (gp2 i gp)))) +
         linc w 1 * (fst (gp2 i gp) * (GetPhi 1 (snd (gp2 i gp)) * GetPhi dof (snd (gp2 i gp)))) +
         linc w 2 * (fst (gp2 i gp) * (GetPhi 2 (snd (gp2 i gp)) * GetPhi dof (snd (gp2 i gp))))))).
      + rewrite rsum_scal, !rsum_plus, !rsum_scal.
        assert (Q : forall j, (j < 3)%nat -> rsum (length (in_rule2 i)) (fun gp => fst (gp2 i gp) * (GetPhi j (snd (gp2 i gp)) * GetPhi dof (snd (gp2 i gp)))) = if Nat.eqb j dof then / GetMinv j j else 0).
        { intros j Hj. rewrite <- (pair_int (in_rule2 i) (2 * in_p i) j dof (cf_rule2 i C) (cf_off i C)).
          - apply rsum_ext. intros gp _. unfold gp2. rewrite <- surjective_pairing. reflexivity.
          - destruct j as [|[|[|j]]]; lia.
          - apply ndof_298. lia.
          - apply ndof_298. exact Hd. }
        rewrite !Q by lia. unfold element_minv. destruct dof as [|[|[|dof]]]; cbn [Nat.eqb linc]; field; lra.
      + intros gp Hg. rewrite psi_modal by (apply (cf_off i C gp Hg)). ring.
    - intros d Hdd N. unfold element_minv. rewrite (proj1 (proj2 (orthogonality d dof (ndof_298 d Hdd) (ndof_298 dof Hd))) N). unfold Rdiv. ring.
  Qed.
  Lemma init_resting : forall e, (e < in_n i)%nat -> forall var dof, (dof < dofs i)%nat ->
    init_q i e var dof = if Nat.eqb dof 0 then vget (in_ic i) var else 0.
  Proof.
    intros e He var dof Hd. unfold init_q. rewrite l2_exact by assumption.
    destruct dof as [|[|[|dof]]]; cbn [linc Nat.eqb]; field || reflexivity.
  Qed.

  (** Bathymetry: the linear function through the node values. *)
  Definition B (e : nat) (x y : R) : R := vmsum 3 (fun v => in_z i e v * GetPsi (x, y) v).
  Definition Bx (e : nat) : R := (in_z i e 1%nat - in_z i e 0%nat) / 2.
  Definition By (e : nat) : R := (in_z i e 2%nat - in_z i e 0%nat) / 2.
  Lemma value_bath : forall e z, (e < in_n i)%nat -> ok_point z -> value_at i (bath_dofs i e) z = B e (fst z) (snd z).
  Proof.
    intros e z He O. unfold value_at, B. rewrite <- surjective_pairing, psi_modal by exact O.
    rewrite vmsum_3; [|exact dofs_3|].
    - unfold bath_dofs. pose proof dofs_3. rewrite !l2_exact by (assumption || lia). reflexivity.
    - intros d Hd. unfold bath_dofs. rewrite l2_exact by (assumption || lia). destruct d as [|[|[|d]]]; [lia|lia|lia|]. cbn [linc]. ring.
  Qed.
  Lemma dphi_three : forall z, ok_point z -> GetDPhi 1 z = (0, 3 / 2) /\ GetDPhi 2 z = (1, 1 / 2).
  Proof.
    intros z O. destruct pq_values as [_ [E1 E2]].
    assert (P1 := f_equal fst E1). assert (Q1 := f_equal snd E1). assert (P2 := f_equal fst E2). assert (Q2 := f_equal snd E2).
    cbn [fst snd] in P1, Q1, P2, Q2. unfold GetDPhi. rewrite P1, Q1, P2, Q2. unfold ComputeDPhiDZ1, ComputeDPhiDZ2.
    destruct O as [N| ->].
    - destruct z as [x y]. cbn [snd] in *. rewrite collapsed_in by exact N.
      unfold jacobi_polynomial_derivative, jacobi_polynomial, jacobi_first, uint. cbn.
      split; f_equal; field; lra.
    - cbn [snd]. rewrite collapsed_top. cbn. split; f_equal; field.
  Qed.
  Lemma slope_bath : forall e z, (e < in_n i)%nat -> ok_point z -> forall dir, (dir = fst \/ dir = snd) ->
    slope_at i e (bath_dofs i e) dir z = dir (physical_derivative (in_nodes i e) (Bx e, By e)).
  Proof.
    intros e z He O dir Hdir. unfold slope_at. rewrite vmsum_3; [|exact dofs_3|].
    - unfold bath_dofs. pose proof dofs_3. rewrite !l2_exact by (assumption || lia).
      destruct (dphi_three z O) as [-> ->]. rewrite dphi0. unfold Bx, By, physical_derivative.
      destruct Hdir as [-> | ->]; cbn [fst snd linc]; field.
    - intros d Hd. unfold bath_dofs. rewrite l2_exact by (assumption || lia). destruct d as [|[|[|d]]]; [lia|lia|lia|]. cbn [linc]. ring.
  Qed.

  (** Tables of the faces. *)
  Context (Pl : in_sph i = None).
  Lemma face_ok : forall b z, ok_point (BoundaryToMasterCoordinates b z).
  Proof.
    intros b z. destruct (Req_dec (snd (BoundaryToMasterCoordinates b z)) 1) as [E|N]; [right|left; exact N].
    destruct b as [|[|b]]; cbn [BoundaryToMasterCoordinates snd] in *; [|f_equal; lra|lra]. subst z. f_equal; lra.
  Qed.
  Definition fval (e b gp : nat) : aux3 R := Aux (face_bath i e b gp) 0 1.
  Definition correct (t t' : face_table) (l : list (nat * nat)) : Prop :=
    (forall e b gp, t' e b gp = fval e b gp \/ t' e b gp = t e b gp) /\
    (forall e b gp, In (e, b) l -> (gp < length (in_rule1 i))%nat -> t' e b gp = fval e b gp).
  Lemma sp_one : forall y, sp_at i y = 1.
  Proof. intros y. unfold sp_at. rewrite Pl. reflexivity. Qed.
  Lemma set_face_cases : forall t e b gp e' b' gp', set_face t e b gp (fval e b gp) e' b' gp' = fval e' b' gp' \/ set_face t e b gp (fval e b gp) e' b' gp' = t e' b' gp'.
  Proof.
    intros. unfold set_face. destruct (Nat.eqb_spec e' e) as [->|]; [|right; reflexivity]. destruct (Nat.eqb_spec b' b) as [->|]; [|right; reflexivity].
    destruct (Nat.eqb_spec gp' gp) as [->|]; [left|right]; reflexivity.
  Qed.
  Lemma set_face_hit : forall t e b gp a, set_face t e b gp a e b gp = a.
  Proof. intros. unfold set_face. rewrite !Nat.eqb_refl. reflexivity. Qed.
  Lemma correct_trans : forall t1 t2 t3 l l', correct t1 t2 l -> correct t2 t3 l' -> correct t1 t3 (l ++ l').
  Proof.
    intros t1 t2 t3 l l' [A1 A2] [B1 B2]. split.
    - intros e b gp. destruct (B1 e b gp) as [E|E]; [left; exact E|]. rewrite E. apply A1.
    - intros e b gp H Hg. apply in_app_or in H. destruct H as [H|H]; [|apply B2; assumption].
      destruct (B1 e b gp) as [E|E]; [exact E|]. rewrite E. apply A2; assumption.
  Qed.
  Lemma init_bound_ok : forall t b, correct t (init_bound i t b) [(b_elt b, b_id b)].
  Proof.
    intros t b. unfold init_bound. set (n := length (in_rule1 i)).
    assert (K : forall j, let t' := fold_left (fun t0 gp => set_face t0 (b_elt b) (b_id b) gp (Aux (face_bath i (b_elt b) (b_id b) gp) 0 (sp_at i (y_at i (b_elt b) (face_point i (b_id b) gp))))) (seq 0 j) t in
      (forall e f gp, t' e f gp = fval e f gp \/ t' e f gp = t e f gp) /\ forall gp, (gp < j)%nat -> t' (b_elt b) (b_id b) gp = fval (b_elt b) (b_id b) gp).
    { induction j as [|j [I1 I2]]; [cbn; split; [intros; right; reflexivity|intros; lia]|].
      cbv zeta. rewrite seq_S, fold_left_app. cbn [fold_left]. rewrite Nat.add_0_l. set (t' := fold_left _ (seq 0 j) t) in *. rewrite sp_one. fold (fval (b_elt b) (b_id b) j). split.
      - intros e f gp. destruct (set_face_cases t' (b_elt b) (b_id b) j e f gp) as [E|E]; [left; exact E|]. rewrite E. apply I1.
      - intros gp Hg. destruct (Nat.eq_dec gp j) as [->|N]; [apply set_face_hit|].
        destruct (set_face_cases t' (b_elt b) (b_id b) j (b_elt b) (b_id b) gp) as [E|E]; [exact E|]. rewrite E. apply I2. lia. }
    destruct (K n) as [K1 K2]. split; [exact K1|]. intros e f gp [H|[]] Hg. injection H as <- <-. apply K2. exact Hg.
  Qed.
  Lemma init_intface_ok : forall t f, correct t (init_intface i t f) [(i_in f, i_bin f); (i_ex f, i_bex f)].
  Proof.
    intros t f. unfold init_intface. set (n := length (in_rule1 i)). cbv zeta.
    match goal with |- correct _ (fold_left ?g _ _) _ => set (body := g) end.
    assert (K : forall j, (j <= n)%nat -> let t' := fold_left body (seq 0 j) t in
      (forall e b gp, t' e b gp = fval e b gp \/ t' e b gp = t e b gp) /\
      (forall gp, (gp < j)%nat -> t' (i_in f) (i_bin f) gp = fval (i_in f) (i_bin f) gp /\ t' (i_ex f) (i_bex f) (n - gp - 1)%nat = fval (i_ex f) (i_bex f) (n - gp - 1)%nat)).
    { induction j as [|j IH]; intros Hj; [cbn; split; [intros; right; reflexivity|intros; lia]|]. destruct (IH ltac:(lia)) as [I1 I2].
      cbv zeta. rewrite seq_S, fold_left_app. cbn [fold_left]. rewrite Nat.add_0_l. set (t' := fold_left body (seq 0 j) t) in *. unfold body. rewrite sp_one.
      fold (fval (i_in f) (i_bin f) j). fold (fval (i_ex f) (i_bex f) (n - j - 1)).
      set (u := set_face t' (i_in f) (i_bin f) j (fval (i_in f) (i_bin f) j)).
      assert (U : forall e b gp, set_face u (i_ex f) (i_bex f) (n - j - 1) (fval (i_ex f) (i_bex f) (n - j - 1)) e b gp = fval e b gp \/
                  set_face u (i_ex f) (i_bex f) (n - j - 1) (fval (i_ex f) (i_bex f) (n - j - 1)) e b gp = u e b gp) by (intros; apply set_face_cases).
      assert (V : forall e b gp, u e b gp = fval e b gp \/ u e b gp = t' e b gp) by (intros; apply set_face_cases).
      split.
      - intros e b gp. destruct (U e b gp) as [E|E]; [left; exact E|]. rewrite E. destruct (V e b gp) as [E'|E']; [left; exact E'|]. rewrite E'. apply I1.
      - intros gp Hg. destruct (Nat.eq_dec gp j) as [->|N].
        + split; [|apply set_face_hit]. destruct (U (i_in f) (i_bin f) j) as [E|E]; [exact E|]. rewrite E. apply set_face_hit.
        + destruct (I2 gp ltac:(lia)) as [J1 J2]. split.
          * destruct (U (i_in f) (i_bin f) gp) as [E|E]; [exact E|]. rewrite E. destruct (V (i_in f) (i_bin f) gp) as [E'|E']; [exact E'|]. rewrite E'. exact J1.
          * destruct (U (i_ex f) (i_bex f) (n - gp - 1)%nat) as [E|E]; [exact E|]. rewrite E. destruct (V (i_ex f) (i_bex f) (n - gp - 1)%nat) as [E'|E']; [exact E'|]. rewrite E'. exact J2. }
    destruct (K n (le_n _)) as [K1 K2]. split; [exact K1|]. intros e b gp [H|[H|[]]] Hg; injection H as <- <-.
    - apply K2. exact Hg.
    - fold n in Hg. destruct (K2 (n - gp - 1)%nat ltac:(lia)) as [_ E]. replace (n - (n - gp - 1) - 1)%nat with gp in E by lia. exact E.
  Qed.
  Lemma correct_fold : forall (X : Type) (g : face_table -> X -> face_table) (s : X -> list (nat * nat)), (forall t x, correct t (g t x) (s x)) ->
    forall l t, correct t (fold_left g l t) (flat_map s l).
  Proof.
    intros X g s H l. induction l as [|x l IH]; intros t; [split; [intros; right; reflexivity|intros ? ? ? []]|].
    cbn [fold_left flat_map]. eapply correct_trans; [apply H|apply IH].
  Qed.
  Lemma faux_ok : forall e b gp, In (e, b) (sides (in_intfaces i) (in_bounds i)) -> (gp < length (in_rule1 i))%nat -> init_faux i e b gp = fval e b gp.
  Proof.
    intros e b gp H Hg. unfold init_faux.
    pose proof (correct_fold _ _ _ init_intface_ok (in_intfaces i) (fun _ _ _ => Aux 0 0 0)) as K1.
    pose proof (correct_fold _ _ (fun b => [(b_elt b, b_id b)]) init_bound_ok (in_bounds i) (fold_left (init_intface i) (in_intfaces i) (fun _ _ _ => Aux 0 0 0))) as K2.
    apply (proj2 (correct_trans _ _ _ _ _ K1 K2)); [|exact Hg].
    unfold sides in H. replace (flat_map (fun b0 => [(b_elt b0, b_id b0)]) (in_bounds i)) with (map (fun b0 => (b_elt b0, b_id b0)) (in_bounds i)); [exact H|].
    clear. induction (in_bounds i) as [|x l IH]; [reflexivity|]. cbn. rewrite IH. reflexivity.
  Qed.
  Lemma side_in : forall s, In s (sides (in_intfaces i) (in_bounds i)) <-> (fst s < in_n i)%nat /\ (snd s < 3)%nat.
  Proof.
    intros [e b]. cbn [fst snd]. split; intros H.
    - apply (Permutation_in _ (cf_faces i C)) in H. apply in_prod_iff in H. rewrite !in_seq in H. lia.
    - apply (Permutation_in _ (Permutation_sym (cf_faces i C))). apply in_prod; apply in_seq; lia.
  Qed.
  Lemma faux_value : forall e b gp, (e < in_n i)%nat -> (b < 3)%nat -> (gp < length (in_rule1 i))%nat ->
    init_faux i e b gp = Aux (B e (fst (face_point i b gp)) (snd (face_point i b gp))) 0 1.
  Proof.
    intros e b gp He Hb Hg. rewrite faux_ok; [|apply side_in; split; assumption|exact Hg]. unfold fval, face_bath.
    rewrite value_bath by (try exact He; apply face_ok). reflexivity.
  Qed.
End Mesh.

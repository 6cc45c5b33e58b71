(** Proofs: the projected derivatives, and when they are exact. *)
From Coq Require Import Reals List Arith Bool Lia Lra.
From Coquelicot Require Import Hierarchy Derive.
From Verif Require Import Num Outcome ModelSWE LemmasSWE ModelShape ModelBasis ModelJac ModelStep ModelIHDG ModelCond SpecShape SpecBasis SpecStepper SpecStep SpecStage
  LemmasRK LemmasShape LemmasBasis LemmasBasis2 LemmasBasis3 LemmasBasis4 LemmasStep LemmasStage3 LemmasStage4 LemmasCond ModelGN SpecGN LemmasGN1 LemmasGN2 LemmasGN3 LemmasGN4
  ModelInit SpecRest LemmasRest1 LemmasRest2 LemmasRest3 LemmasEHDG5.
Import ListNotations.
Open Scope R_scope.

Section Project.
  Context (m : mesh).
  Lemma proj_sides : forall vf a ed l D e i,
    fold_left (proj_side m vf a ed) l D e i =
    D e i + lsum l (fun s => if Nat.eqb (s_e s) e then s_fphi m ed (s_b s) (fun gp => hat m vf ed (gp_hat m s gp) * comp (s_n s) a) i else 0).
  Proof.
    intros vf a ed. induction l as [|s l IH]; intros D e i; cbn [fold_left]; [unfold lsum; cbn; ring|]. rewrite IH, lsum_cons. unfold proj_side, upd.
    rewrite (Nat.eqb_sym e). destruct (Nat.eqb_spec (s_e s) e) as [E|E]; [subst|]; ring.
  Qed.
  Lemma proj_edges : forall vf a l D e i,
    fold_left (fun D ed => fold_left (proj_side m vf a ed) (ge_sides ed) D) l D e i =
    D e i + lsum l (fun ed => lsum (ge_sides ed) (fun s => if Nat.eqb (s_e s) e then s_fphi m ed (s_b s) (fun gp => hat m vf ed (gp_hat m s gp) * comp (s_n s) a) i else 0)).
  Proof.
    intros vf a. induction l as [|ed l IH]; intros D e i; cbn [fold_left]; [unfold lsum; cbn; ring|]. rewrite IH, proj_sides, lsum_cons. ring.
  Qed.
  Lemma fphi_ext : forall ed b u u' i, (forall gp, (gp < ngp1 m)%nat -> u gp = u' gp) -> s_fphi m ed b u i = s_fphi m ed b u' i.
  Proof. intros. unfold s_fphi. rewrite !vmsum_rsum. apply rsum_ext. intros gp Hg. rewrite H by exact Hg. reflexivity. Qed.

  Context (HM : faces_once m) (HT : forall e, (e < m_n m)%nat -> good m e).
  Lemma proj_rhs_eq : forall v vf a e i, (e < m_n m)%nat -> (a < 2)%nat -> proj_rhs m v vf a e i = weak_derivative m v vf a e i.
  Proof.
    intros v vf a e i He Ha. unfold proj_rhs. rewrite proj_edges. unfold weak_derivative. f_equal; [f_equal; apply dphi_int; auto|].
    rewrite at_sides_eq, <- (numbered_snd m), lsum_map. apply lsum_ext. intros x Hx. apply lsum_ext. intros s Hs.
    destruct (Nat.eqb_spec (s_e s) e) as [E|E]; [|reflexivity].
    pose proof (proj1 (numbered_nth m x) Hx) as Nx. destruct (side_range m (snd x) s HM (nth_error_In _ _ Nx) Hs) as [_ Hb].
    rewrite (fphi_int m (fst x) (snd x) s Nx Hb). f_equal. apply rsum_ext. intros gp _. rewrite (hat_mean m vf (fst x) (snd x) _ Nx), spec_own, (spec_normal m (fst x) (snd x) s a Nx Hs). reflexivity.
  Qed.
  Theorem project_derivative : forall v vf a, (m_p m <= 298)%nat -> (a < 2)%nat -> is_derivative m v vf a (project m v vf a).
  Proof.
    intros v vf a Hp Ha e i M He Hi HMM.
    assert (J : GetJdet (m_nodes m e) <> 0). { intros Z. apply (HT e He). destruct (jacobian_area (m_nodes m e)) as [E1 E2]. rewrite Z in E1. lra. }
    rewrite <- (proj_rhs_eq v vf a e i He Ha).
    exact (mass_solve m e (fun _ i => proj_rhs m v vf a e i) Hp J 0%nat i M Hi HMM).
  Qed.
  Lemma project_ext : forall v v' vf vf' a e i, (forall e gp, (e < m_n m)%nat -> (gp < ngp2 m)%nat -> v e gp = v' e gp) ->
    (forall e b gp, (e < m_n m)%nat -> (b < 3)%nat -> (gp < ngp1 m)%nat -> vf e b gp = vf' e b gp) -> (e < m_n m)%nat ->
    project m v vf a e i = project m v' vf' a e i.
  Proof.
    intros v v' vf vf' a e i H1 H2 He. unfold project. rewrite !vmsum_rsum. apply rsum_ext. intros j _. f_equal. unfold proj_rhs. rewrite !proj_edges. f_equal.
    - f_equal. unfold s_dphi. rewrite !vmsum_rsum. apply rsum_ext. intros gp Hg. rewrite H1 by assumption. reflexivity.
    - apply lsum_ext. intros ed Hed. apply lsum_ext. intros s Hs. destruct (Nat.eqb_spec (s_e s) e) as [E|E]; [|reflexivity]. apply fphi_ext. intros gp Hg. f_equal.
      destruct (In_nth_error _ _ Hed) as [k Nk].
      assert (G : (gp_hat m s gp < ngp1 m)%nat) by (unfold gp_hat, mirror; destruct (s_ex s); lia).
      pose proof (side_range m ed) as SR. destruct (edge_cases m k ed Nk) as [(f & _ & ->)|(b & _ & _ & ->)]; unfold hat; cbn [ge_sides s_e s_b] in *.
      + destruct (SR _ HM Hed (or_introl eq_refl)) as [A1 A2]. destruct (SR _ HM Hed (or_intror (or_introl eq_refl))) as [B1 B2]. cbn [s_e s_b] in *.
        rewrite !H2; try assumption; [reflexivity|]. unfold mirror. lia.
      + destruct (SR _ HM Hed (or_introl eq_refl)) as [A1 A2]. cbn [s_e s_b] in *. rewrite H2; try assumption. reflexivity.
  Qed.
End Project.

(** ** Polynomials *)
Lemma pd_rsum : forall n d (f : nat -> R -> R -> R), (forall k, (k < n)%nat -> poly_deg d (f k)) -> poly_deg d (fun x y => rsum n (fun k => f k x y)).
Proof.
  induction n as [|n IH]; intros d f H.
  - apply (pd_ext d (fun _ _ => 0)); [reflexivity|]. apply (pd_le 0); [lia|apply pd_const].
  - apply (pd_ext d (fun x y => rsum n (fun k => f k x y) + f n x y)); [reflexivity|]. apply (pd_add d (fun x y => rsum n (fun k => f k x y)) (f n)); [apply IH; intros; apply H; lia|apply H; lia].
Qed.
(** A polynomial with its derivatives in the master triangle, off the line where the basis is not evaluated. *)
Definition poly_on (d : nat) (F : point -> R) (D : point -> point) : Prop := exists P, poly_deg d P /\ forall x y, ok_point (x, y) ->
  F (x, y) = P x y /\ is_derive (fun t => P t y) x (fst (D (x, y))) /\ is_derive (fun t => P x t) y (snd (D (x, y))).
Lemma po_const : forall c, poly_on 0 (fun _ => c) (fun _ => (0, 0)).
Proof. intros c. exists (fun _ _ => c). split; [apply pd_const|]. intros x y _. split; [reflexivity|]. split; apply is_derive_c. Qed.
Lemma po_le : forall d d' F D, (d <= d')%nat -> poly_on d F D -> poly_on d' F D.
Proof. intros d d' F D L (P & Q & H). exists P. split; [exact (pd_le _ _ _ L Q)|exact H]. Qed.
Lemma po_ext : forall d F D G E, (forall z, F z = G z) -> (forall z, D z = E z) -> poly_on d F D -> poly_on d G E.
Proof. intros d F D G E HF HD (P & Q & H). exists P. split; [exact Q|]. intros x y O. rewrite <- HF, <- HD. exact (H x y O). Qed.
Lemma po_plus : forall d F D G E, poly_on d F D -> poly_on d G E -> poly_on d (fun z => F z + G z) (fun z => (fst (D z) + fst (E z), snd (D z) + snd (E z))).
Proof.
  intros d F D G E (P & Q & H) (P' & Q' & H'). exists (fun x y => P x y + P' x y). split; [apply pd_add; assumption|]. intros x y O.
  destruct (H x y O) as (A & B & C), (H' x y O) as (A' & B' & C'). split; [rewrite A, A'; reflexivity|]. cbn [fst snd].
  split; [exact (is_derive_p _ _ _ _ _ B B')|exact (is_derive_p _ _ _ _ _ C C')].
Qed.
Lemma po_mul : forall d e F D G E, poly_on d F D -> poly_on e G E ->
  poly_on (d + e) (fun z => F z * G z) (fun z => (fst (D z) * G z + F z * fst (E z), snd (D z) * G z + F z * snd (E z))).
Proof.
  intros d e F D G E (P & Q & H) (P' & Q' & H'). exists (fun x y => P x y * P' x y). split; [apply pd_mul; assumption|]. intros x y O.
  destruct (H x y O) as (A & B & C), (H' x y O) as (A' & B' & C'). split; [rewrite A, A'; reflexivity|]. cbn [fst snd]. rewrite A, A'.
  split; [exact (is_derive_m _ _ _ _ _ B B')|exact (is_derive_m _ _ _ _ _ C C')].
Qed.
Lemma po_scal : forall d c F D, poly_on d F D -> poly_on d (fun z => c * F z) (fun z => (c * fst (D z), c * snd (D z))).
Proof.
  intros d c F D H. apply (po_ext (0 + d) (fun z => c * F z) (fun z => (0 * F z + c * fst (D z), 0 * F z + c * snd (D z)))); [reflexivity|intros; f_equal; ring|].
  exact (po_mul 0 d (fun _ => c) (fun _ => (0, 0)) F D (po_const c) H).
Qed.
Lemma po_sum : forall n d F D, (forall k, (k < n)%nat -> poly_on d (F k) (D k)) ->
  poly_on d (fun z => rsum n (fun k => F k z)) (fun z => (rsum n (fun k => fst (D k z)), rsum n (fun k => snd (D k z)))).
Proof.
  induction n as [|n IH]; intros d F D H.
  - apply (po_le 0); [lia|]. exact (po_const 0).
  - refine (po_ext d _ _ _ _ _ _ (po_plus d _ _ _ _ (IH d F D _) (H n _))); [reflexivity|reflexivity|intros; apply H; lia|lia].
Qed.
Lemma po_phi : forall p j, (p <= 298)%nat -> (j < dubiner_ndof p)%nat -> poly_on p (GetPhi j) (GetDPhi j).
Proof.
  intros p j Hp Hj. destruct (polynomial j) as (P & Pd & PE); [pose proof (ndof_mono p 298 Hp); lia|]. exists P.
  split; [apply (pd_le (tri_num_indx j)); [exact (dof_degree j p Hj)|exact Pd]|]. intros x y O. exact (PE x y (ok_split x y O)).
Qed.
Lemma po_val : forall m c, (m_p m <= 298)%nat -> poly_on (m_p m) (val m c)
  (fun z => (rsum (ndof m) (fun j => c j * fst (GetDPhi j z)), rsum (ndof m) (fun j => c j * snd (GetDPhi j z)))).
Proof.
  intros m c Hp. refine (po_ext _ _ _ _ _ _ _ (po_sum (ndof m) (m_p m) (fun j z => c j * GetPhi j z) (fun j z => (c j * fst (GetDPhi j z), c j * snd (GetDPhi j z))) _)); [reflexivity|reflexivity|].
  intros j Hj. apply po_scal. apply po_phi; assumption.
Qed.

Definition gcoef (m : mesh) (a e : nat) : R * R :=
  let n := m_nodes m e in let o := orient (n 0%nat) (n 1%nat) (n 2%nat) in
  match a with
  | 0%nat => (2 * (snd (n 2%nat) - snd (n 0%nat)) / o, - 2 * (snd (n 1%nat) - snd (n 0%nat)) / o)
  | _ => (- 2 * (fst (n 2%nat) - fst (n 0%nat)) / o, 2 * (fst (n 1%nat) - fst (n 0%nat)) / o)
  end.
Lemma grad_lin : forall m a e d, grad m a e d = fst (gcoef m a e) * fst d + snd (gcoef m a e) * snd d.
Proof. intros m a e d. unfold grad, gcoef. destruct a; unfold grad_x, grad_y; cbn [fst snd]; unfold Rdiv; ring. Qed.
Lemma dval_lin : forall m a e c z, dval m a e c z = grad m a e (rsum (ndof m) (fun j => c j * fst (GetDPhi j z)), rsum (ndof m) (fun j => c j * snd (GetDPhi j z))).
Proof.
  intros. rewrite grad_lin. cbn [fst snd]. unfold dval. change (dubiner_ndof (m_p m)) with (ndof m). rewrite <- !rsum_scal, <- rsum_plus. apply rsum_ext. intros. rewrite grad_lin. ring.
Qed.

(** ** Green's formula on an element *)
Section Green.
  Context (i : input) (C : conforming i).
  Notation m := (init_mesh i).
  Definition ncomp (e b a : nat) : R := match a with 0%nat => fst (nvec i e b) | _ => snd (nvec i e b) end.
  Definition face_sum (b : nat) (F : point -> R) : R := rsum (ngp1 m) (fun gp => wgt m gp * F (at_face b (pos m gp))).

  Lemma vol_int_ok : forall e F G, (forall gp z, (gp < ngp2 m)%nat -> z = z2 m gp -> ok_point z -> F gp z = G gp z) -> vol_int m e F = vol_int m e G.
  Proof. intros e F G H. rewrite !vol_int_eq. apply rsum_ext. intros gp Hg. rewrite (H gp (z2 m gp) Hg eq_refl (cf_off i C gp Hg)). reflexivity. Qed.

  Theorem green : forall e a F D, (e < in_n i)%nat -> (a < 2)%nat -> poly_on (2 * in_p i + 1) F D ->
    vol_int m e (fun _ z => grad m a e (D z)) = rsum 3 (fun b => ncomp e b a * face_sum b F).
  Proof.
    intros e a F D He Ha (P & Pd & PE). pose proof (jdet_pos i C e He) as J. pose proof (jacobian_area (in_nodes i e)) as [JE _].
    replace (2 * in_p i + 1)%nat with (S (2 * in_p i)) in Pd by lia.
    assert (E1 : exact1 (S (2 * in_p i)) (in_rule1 i)) by (refine (exact1_le _ _ _ _ (cf_rule1 i C)); lia).
    destruct (divergence (in_rule2 i) (in_rule1 i) (2 * in_p i) P (cf_rule2 i C) E1 Pd) as [l [L [Dx Dy]]].
    assert (Fb : forall b, (b < 3)%nat -> face_sum b F = on_face (in_rule1 i) b P).
    { intros b Hb. unfold face_sum, on_face, quad1. apply rsum_ext. intros gp _. unfold wgt, pos. cbn [m_rule1 init_mesh]. f_equal.
      rewrite <- on_face_model by exact Hb. pose proof (face_ok b (snd (nth gp (in_rule1 i) (0, 0)))) as O. destruct (BoundaryToMasterCoordinates b _) as [x y]. cbn [fst snd]. apply (PE x y O). }
    assert (G : forall z, ok_point z -> D z = (tval (tdx l) (fst z) (snd z), tval (tdy l) (fst z) (snd z))).
    { intros [x y] O. cbn [fst snd]. destruct (PE x y O) as (_ & D1 & D2). destruct (D (x, y)) as [u w]. cbn [fst snd] in *. f_equal.
      - rewrite <- (is_derive_unique _ _ _ (tdx_derive l x y)). symmetry. apply is_derive_unique. refine (is_derive_e _ _ _ _ _ D1 _ eq_refl). intros t. exact (L t y).
      - rewrite <- (is_derive_unique _ _ _ (tdy_derive l x y)). symmetry. apply is_derive_unique. refine (is_derive_e _ _ _ _ _ D2 _ eq_refl). intros t. exact (L x t). }
    rewrite (vol_int_ok e _ (fun _ z => fst (gcoef m a e) * tval (tdx l) (fst z) (snd z) + snd (gcoef m a e) * tval (tdy l) (fst z) (snd z))) by (intros gp z _ _ O; rewrite (G z O), grad_lin; reflexivity).
    rewrite vol_int_plus, !vol_int_scal, !vol_int_eq.
    assert (Q : forall f, rsum (ngp2 m) (fun gp => w2 m gp * jac m e * f (fst (z2 m gp)) (snd (z2 m gp))) = jac m e * quad2 (in_rule2 i) f).
    { intros f. unfold quad2. rewrite <- rsum_scal. apply rsum_ext. intros gp _. unfold w2, z2. cbn [m_rule2 init_mesh]. ring. }
    rewrite !Q, Dx, Dy. cbn [rsum]. rewrite !Fb by lia. unfold jac, ncomp, nvec, gcoef. cbn [m_nodes init_mesh]. rewrite (Rabs_pos_eq _ (Rlt_le _ _ J)).
    change ((0 + 2) mod 3)%nat with 2%nat. change ((0 + 1) mod 3)%nat with 1%nat.
    change ((1 + 2) mod 3)%nat with 0%nat. change ((1 + 1) mod 3)%nat with 2%nat. change ((2 + 2) mod 3)%nat with 1%nat. change ((2 + 1) mod 3)%nat with 0%nat.
    pose proof (cf_triangles i C e He) as T.
    assert (JO : GetJdet (in_nodes i e) = orient (in_nodes i e 0%nat) (in_nodes i e 1%nat) (in_nodes i e 2%nat) / 4).
    { destruct (jacobian_area (in_nodes i e)) as [-> ->]. field. }
    rewrite JO. destruct a as [|[|a]]; [| |lia]; cbn [fst snd]; field; lra.
  Qed.

  Lemma side_len : forall k ed s a, nth_error (gedges m) k = Some ed -> In s (ge_sides ed) -> (a < 2)%nat ->
    half_len m k * out_n m k (tri3 s) a = ncomp (s_e s) (s_b s) a.
  Proof.
    intros k ed s a H Hs Ha. rewrite <- (spec_normal m k ed s a H Hs), <- (spec_len m k ed H).
    destruct (edge_cases m k ed H) as [(f & E & ->)|(b & E & Eb & ->)]; unfold len; cbn [ge_len ge_sides fst snd m_nodes init_mesh] in *.
    - apply nth_error_In in E. destruct (intface_in i C f E) as (A1 & A2 & A3 & A4). destruct Hs as [<-|[<-|[]]]; cbn [s_n s_e s_b].
      + destruct (normal_scaled i C _ _ A1 A2) as [N1 N2]. unfold ncomp, comp. destruct a; assumption.
      + destruct (ex_normal i C f E) as [N1 N2]. unfold ncomp, comp. destruct a; assumption.
    - apply nth_error_In in Eb. destruct (bound_in i C b Eb) as (A1 & A2). destruct Hs as [<-|[]]; cbn [s_n s_e s_b].
      destruct (normal_scaled i C _ _ A1 A2) as [N1 N2]. unfold ncomp, comp. destruct a; assumption.
  Qed.
  Lemma once : faces_once m.
  Proof. exact (conforming_once i C). Qed.
  Lemma good_tri : forall e, (e < m_n m)%nat -> good m e.
  Proof. intros e He. unfold good. pose proof (cf_triangles i C e He). cbn [m_nodes init_mesh]. lra. Qed.
  (** Sums over the sides of an element that only depend on the face. *)
  Lemma at_faces : forall e G (g : nat -> R), (e < m_n m)%nat ->
    (forall k ed s, nth_error (gedges m) k = Some ed -> In s (ge_sides ed) -> s_e s = e -> (s_b s < 3)%nat -> G k (tri3 s) = g (s_b s)) ->
    at_sides m e G = rsum 3 g.
  Proof.
    intros e G g He H. rewrite at_sides_eq, <- (sides_sum m e g once He), <- (numbered_snd m), lsum_map. apply lsum_ext. intros x Hx. apply lsum_ext. intros s Hs.
    destruct (Nat.eqb_spec (s_e s) e) as [E|E]; [|reflexivity]. pose proof (proj1 (numbered_nth m x) Hx) as Nx.
    apply (H (fst x) (snd x) s Nx Hs E). apply (side_range m (snd x) s once (nth_error_In _ _ Nx) Hs).
  Qed.
End Green.

(** Conservation of volume in closed basins, the second order right hand side. *)
From Coq Require Import Reals List Bool Arith Lra Lia.
From Coquelicot Require Import Coquelicot.
From Verif Require Import Num ModelSWE ModelShape ModelBasis SpecBasis ModelJac SpecJac SpecShape SpecSWE SpecStepper SpecStep LemmasShape LemmasSWE LemmasRK LemmasBasis4 LemmasStep
  ModelStep ModelIHDG SpecIHDG SpecIHDG2 LemmasIHDG1 LemmasIHDG2 LemmasIHDG3 LemmasIHDG4 LemmasIHDG5 LemmasIHDG6 LemmasIHDG7 LemmasIHDG9 LemmasIHDG10 LemmasIHDG11 LemmasIHDG12.
Import ListNotations.
Open Scope R_scope.

Section System.
  Context (m : mesh) (eaux : nat -> nat -> aux3 R) (g dt theta : R).
  Notation ni := (length (m_intfaces m)).
  Notation nb := (length (m_bounds m)).

  Lemma source_mass : forall t q e gp, (gp < ngp2 m)%nat ->
    ze (source_gp m g t q e gp) = match m_fs m with Some f => ze (f t e gp) | None => 0 end.
  Proof.
    intros t q e gp H. rewrite source_gp_pt by exact H. unfold src_pt, ModelSWE.vsub, vscale. num_R. destruct (s_bottom_friction (m_src m e)), (m_fs m); cbn [ze]; ring.
  Qed.
  Lemma dsource_mass : forall p u a x, ze (mvec (dsource_dq p u a) x) = 0.
  Proof. intros p u a x. unfold dsource_dq, mvec. destruct (s_bottom_friction p); cbn; ring. Qed.
  Lemma volume_int_ext : forall f h a, (forall e gp, (e < m_n m)%nat -> (gp < ngp2 m)%nat -> vget (f e gp) a = vget (h e gp) a) -> volume_int m f a = volume_int m h a.
  Proof. intros f h a H. unfold volume_int. apply rsum_ext. intros e He. f_equal. apply rsum_ext. intros gp Hg. rewrite H by assumption. reflexivity. Qed.
  Lemma volume_int_zero : forall f a, (forall e gp, (e < m_n m)%nat -> (gp < ngp2 m)%nat -> vget (f e gp) a = 0) -> volume_int m f a = 0.
  Proof.
    intros f a H. unfold volume_int. apply rsum_const0. intros e He. rewrite (rsum_const0 (length (m_rule2 m))); [ring|]. intros gp Hg. rewrite H by assumption. ring.
  Qed.
  Lemma edge_int_zero : forall ed f a, (forall gp, (gp < ngp1 m)%nat -> vget (f gp) a = 0) -> edge_int m ed f a = 0.
  Proof. intros ed f a H. unfold edge_int. cbv zeta. rewrite (rsum_const0 (length (m_rule1 m))); [ring|]. intros gp Hg. rewrite H by assumption. ring. Qed.
  Lemma bsum_zero : forall f, (forall ed, (ni <= ed < ni + nb)%nat -> f ed = 0) -> bsum_edges m f = 0.
  Proof. intros f H. unfold bsum_edges. apply rsum_const0. intros k Hk. apply H. lia. Qed.
  Lemma bnd_land : forall ed, closed_basin m -> (ni <= ed < ni + nb)%nat -> b_bc (the_bnd m ed) = Land.
  Proof. intros ed [_ L] H. apply L. unfold the_bnd. apply nth_In. unfold nint. lia. Qed.

  Lemma closed_pass : forall t qp rp s0 q qh dq dqh, conforming m -> symmetric_weights m -> in_range m -> regular m -> closed_basin m -> dt <> 0 ->
    solves m (newton_system m eaux g dt theta t qp rp q qh s0) dq dqh ->
    (forall ed, (ni <= ed < ni + nb)%nat -> land_met m (plus q dq) (plus qh dqh) ed) /\
    ((forall ed, (ni <= ed < ni + nb)%nat -> level_met m q qh ed) ->
     total m (plus q dq) 0 = total m qp 0 + dt * theta * rsum (m_n m) (fun e => rp e 0%nat 0%nat)).
  Proof.
    intros t qp rp s0 q qh dq dqh C Sy Rg Re Cl Hdt H.
    assert (A : forall ed, (ni <= ed < ni + nb)%nat -> land_met m (plus q dq) (plus qh dqh) ed).
    { intros ed He. apply (land_after m eaux g dt theta t qp rp s0 q qh dq dqh ed); try assumption. apply bnd_land; assumption. }
    split; [exact A|]. intros B. pose proof (balance m eaux g dt theta t qp rp s0 q qh dq dqh 0 C Sy Rg Hdt ltac:(lia) H) as E.
    rewrite volume_int_zero in E.
    2:{ intros e gp He Hg. unfold linear_source. rewrite vget_add. cbn [vget]. rewrite source_mass, dsource_mass by exact Hg. destruct Cl as [-> _]. ring. }
    rewrite bsum_zero in E.
    2:{ intros ed He. apply edge_int_zero. intros gp Hg. apply land_no_flux; try assumption; [apply B; exact He|apply A; exact He]. }
    lra.
  Qed.

  Lemma closed_passes : forall t qp rp q0 qh0 k q qh, conforming m -> symmetric_weights m -> in_range m -> regular m -> closed_basin m -> dt <> 0 ->
    passes m eaux g dt theta t qp rp q0 qh0 k q qh ->
    (2 <= k)%nat \/ (1 <= k)%nat /\ (forall ed, (ni <= ed < ni + nb)%nat -> level_met m q0 qh0 ed) ->
    total m q 0 = total m qp 0 + dt * theta * rsum (m_n m) (fun e => rp e 0%nat 0%nat).
  Proof.
    intros t qp rp q0 qh0 k q qh C Sy Rg Re Cl Hdt P K.
    destruct P as [|k q qh s0 dq dqh P H]; [destruct K; lia|].
    apply (closed_pass t qp rp s0 q qh dq dqh C Sy Rg Re Cl Hdt H).
    destruct P as [|k q qh s1 dq' dqh' P' H'].
    - destruct K as [K|[_ K]]; [lia|exact K].
    - intros ed He gp Hgp. apply (proj1 (closed_pass t qp rp s1 q qh dq' dqh' C Sy Rg Re Cl Hdt H') ed He gp Hgp).
  Qed.

  (** ** rhs_prev of the second order scheme *)
  Lemma fold_acc1 : forall (get : (nat -> coeffs) -> R) (step : (nat -> coeffs) -> nat -> (nat -> coeffs)) (f : nat -> R) n k s,
    (forall s x, (k <= x < k + n)%nat -> get (step s x) = get s + f x) -> get (fold_left step (seq k n) s) = get s + rsum n (fun i => f (k + i)%nat).
  Proof. intros get step f n k s H. apply (fold_acc get step f n k s H). Qed.
  Lemma cacc2 : forall (f : nat -> coeffs) x y A B e a i,
    upd (upd f x (csub (f x) A)) y (csub (upd f x (csub (f x) A) y) B) e a i = f e a i + (on e x (- A a i) + on e y (- B a i)).
  Proof.
    intros f x y A B e a i. unfold on. rewrite !upd_get. unfold csub.
    destruct (Nat.eqb_spec e y) as [->|N]; destruct (Nat.eqb_spec y x) as [->|N']; try rewrite upd_get; try rewrite Nat.eqb_refl;
      try ring; destruct (Nat.eqb_spec e x) as [->|N'']; try ring; try congruence.
    all: destruct (Nat.eqb_spec y x); try congruence; ring.
  Qed.
  Lemma cacc1 : forall (f : nat -> coeffs) x A e a i, upd f x (csub (f x) A) e a i = f e a i + on e x (- A a i).
  Proof. intros f x A e a i. unfold on. rewrite upd_get. unfold csub. destruct (Nat.eqb_spec e x) as [->|N]; ring. Qed.

  Lemma init_entry : forall t qp qh e a i, (e < m_n m)%nat -> init_rhs_prev m eaux g true t qp qh e a i =
    integration_dphi m e fst (fun gp => fst (get_F g (u_elt m qp e gp) (a_elt m qp e gp))) a i +
    integration_dphi m e snd (fun gp => snd (get_F g (u_elt m qp e gp) (a_elt m qp e gp))) a i +
    integration_phi m e (source_gp m g t qp e) a i +
    rsum ni (fun ed => int_rhs m eaux g 0 qp qh ed e a i) + rsum nb (fun k => bnd_rhs m eaux g 0 qp qh (ni + k) e a i).
  Proof.
    intros t qp qh e a i He. unfold init_rhs_prev. cbv zeta.
    rewrite (fold_acc1 (fun s => s e a i) _ (fun ed => bnd_rhs m eaux g 0 qp qh ed e a i)).
    2:{ intros s x _. unfold init_edge_boundary, bnd_rhs. cbv zeta. rewrite cacc1. f_equal. unfold on. destruct (e =? _)%nat; ring. }
    rewrite (fold_acc1 (fun s => s e a i) _ (fun ed => int_rhs m eaux g 0 qp qh ed e a i)).
    2:{ intros s x _. unfold init_edge_interface, int_rhs. cbv zeta. rewrite cacc2. f_equal. unfold on. destruct (e =? _)%nat; destruct (e =? _)%nat; ring. }
    f_equal. f_equal.
    rewrite (fold_acc1 (fun s => s e a i) _ (fun x => on e x (integration_phi m x (source_gp m g t qp x) a i))).
    2:{ intros s x _. unfold init_source, on. rewrite upd_get. unfold cadd. destruct (Nat.eqb_spec e x) as [->|]; ring. }
    cbn [plus]. rewrite (rsum_ext (m_n m) _ (fun x => on x e (integration_phi m x (source_gp m g t qp x) a i))).
    2:{ intros x _. unfold on. rewrite Nat.eqb_sym. reflexivity. }
    rewrite (rsum_on (m_n m) e (fun x => integration_phi m x (source_gp m g t qp x) a i)) by exact He. f_equal.
    apply (fold_set (fun s : nat -> coeffs => s e a i) _ _ e).
    - apply seq_NoDup.
    - apply in_seq. lia.
    - intros s. unfold init_volume. cbv zeta. rewrite upd_same. reflexivity.
    - intros s x _ N. unfold init_volume. cbv zeta. rewrite upd_other by congruence. reflexivity.
  Qed.
  Lemma rhs_prev_total : forall t qp qh a, conforming m -> symmetric_weights m -> in_range m -> (a < 3)%nat ->
    rsum (m_n m) (fun e => init_rhs_prev m eaux g true t qp qh e a 0%nat) =
    volume_int m (source_gp m g t qp) a - rsum ni (fun ed => edge_int m ed (jump m eaux g qp qh ed) a) - bsum_edges m (fun ed => edge_int m ed (trace_flux m eaux g qp qh ed) a).
  Proof.
    intros t qp qh a C Sy Rg Ha.
    rewrite (rsum_ext (m_n m) _ (fun e => tri_area (m_nodes m e) / 2 * rsum (length (m_rule2 m)) (fun gp => fst (nth gp (m_rule2 m) (0, (0, 0))) * vget (source_gp m g t qp e gp) a) +
      rsum ni (fun ed => int_rhs m eaux g 0 qp qh ed e a 0%nat) + rsum nb (fun k => bnd_rhs m eaux g 0 qp qh (ni + k) e a 0%nat))).
    2:{ intros e He. rewrite init_entry by exact He.
        assert (Z : forall dir u, (dir = fst \/ dir = snd) -> integration_dphi m e dir u a 0%nat = 0) by (intros; apply integration_dphi_0; assumption).
        rewrite !Z by ((left; reflexivity) || (right; reflexivity)). rewrite integration_phi_row0. unfold w2, ngp2. ring. }
    rewrite !rsum_plus. unfold volume_int, bsum_edges.
    rewrite (rsum_swap (m_n m) ni), (rsum_swap (m_n m) nb).
    assert (E1 : rsum ni (fun ed => rsum (m_n m) (fun e => int_rhs m eaux g 0 qp qh ed e a 0%nat)) = - rsum ni (fun ed => edge_int m ed (jump m eaux g qp qh ed) a)).
    { transitivity (rsum ni (fun ed => -1 * edge_int m ed (jump m eaux g qp qh ed) a)); [|rewrite rsum_scal; ring]. apply rsum_ext. intros ed He.
      rewrite (int_rhs_0 m eaux g 0 0 t (fun _ _ _ => 0) (fun _ _ _ => 0) zeroN qp qh ed a Sy He Rg). cbv beta. rewrite grhs_int by exact He.
      unfold edge_lambda, lambda_fact, edge_int, jump, trace_flux, edge_normal. rewrite side_int by exact He. cbn [nth fst snd]. cbv zeta. rewrite vmsum_rsum.
      match goal with |- (1 - 0) * - rsum _ ?f = -1 * (?L * rsum _ ?h) => transitivity (- rsum (ngp1 m) f); [ring|]; transitivity (- (L * rsum (ngp1 m) h)); [|unfold ngp1; ring] end.
      f_equal. rewrite <- rsum_scal. apply rsum_ext. intros gp _. rewrite leg_0, half_side_J. unfold int_kern_rhs. cbv zeta. unfold w1, mirror, ngp1. ring. }
    assert (E2 : rsum nb (fun k => rsum (m_n m) (fun e => bnd_rhs m eaux g 0 qp qh (ni + k) e a 0%nat)) = - rsum nb (fun k => edge_int m (ni + k) (trace_flux m eaux g qp qh (ni + k)) a)).
    { transitivity (rsum nb (fun k => -1 * edge_int m (ni + k) (trace_flux m eaux g qp qh (ni + k)) a)); [|rewrite rsum_scal; ring]. apply rsum_ext. intros k Hk.
      set (ed := (ni + k)%nat). destruct (Rg ed (b_elt (the_bnd m ed)) (b_id (the_bnd m ed)) ltac:(unfold ed, nedges, nint; lia) ltac:(rewrite side_bnd by (unfold ed; lia); left; reflexivity)) as [R1 _].
      pose proof (bd_rhs_0 m eaux g 0 qp qh ed a) as E. unfold bnd_rhs, bd_rhs0 in *. cbv zeta in *.
      rewrite (rsum_on (m_n m) (b_elt (the_bnd m ed)) (fun _ => _)) by exact R1. rewrite E.
      unfold edge_int, trace_flux, edge_normal. rewrite side_bnd by (unfold ed; lia). cbn [nth fst snd]. cbv zeta. unfold w1, ngp1. ring. }
    rewrite E1, E2. ring.
  Qed.
  (** A land edge whose condition holds carries no mass. *)
  Lemma met_no_flux : forall q qh ed gp, in_range m -> regular m -> (ni <= ed < ni + nb)%nat -> (gp < ngp1 m)%nat -> land_met m q qh ed ->
    vget (trace_flux m eaux g q qh ed gp) 0 = 0.
  Proof.
    intros q qh ed gp Rg [Hor _] He Hgp M1. specialize (M1 gp Hgp).
    unfold trace_flux, edge_normal in *. rewrite side_bnd in * by lia. cbn [nth fst snd] in *. cbv zeta in *.
    set (b := the_bnd m ed) in *. set (n := normal m (b_elt b) (b_id b)) in *.
    destruct (Rg ed (b_elt b) (b_id b) ltac:(unfold nedges, nint; lia) ltac:(rewrite side_bnd by lia; left; reflexivity)) as [R1 R3].
    destruct (normal_unit m (b_elt b) (b_id b) (Hor _ R1) R3) as [U _]. fold n in U. unfold unit2 in U. destruct M1 as (A0 & A1 & A2).
    unfold F_in, get_Fn. set (u := u_face m q (b_elt b) (b_id b) gp) in *. set (uh := u_edge m qh ed gp) in *.
    unfold vadd, vscale, ModelSWE.vsub. num_R. cbn [vget ze qx qy]. rewrite A0, A1, A2.
    match goal with |- ?G = 0 => replace G with ((qx u * nx n + qy u * ny n) * (1 - (nx n * nx n + ny n * ny n))) by ring end. rewrite U. ring.
  Qed.
  Lemma closed_second_order : forall t t' qp qh0 q0 qht k q qh, conforming m -> symmetric_weights m -> in_range m -> regular m -> closed_basin m -> dt <> 0 ->
    (forall ed, (ni <= ed < ni + nb)%nat -> land_met m qp qh0 ed) ->
    passes m eaux g dt theta t' qp (init_rhs_prev m eaux g true t qp qh0) q0 qht k q qh ->
    (2 <= k)%nat \/ (1 <= k)%nat /\ (forall ed, (ni <= ed < ni + nb)%nat -> level_met m q0 qht ed) ->
    total m q 0 = total m qp 0 - dt * theta * rsum ni (fun ed => edge_int m ed (jump m eaux g qp qh0 ed) 0).
  Proof.
    intros t t' qp qh0 q0 qht k q qh C Sy Rg Re Cl Hdt L P K.
    rewrite (closed_passes t' qp _ q0 qht k q qh C Sy Rg Re Cl Hdt P K).
    rewrite (rhs_prev_total t qp qh0 0 C Sy Rg ltac:(lia)).
    rewrite volume_int_zero by (intros e gp He Hg; cbn [vget]; rewrite source_mass by exact Hg; destruct Cl as [-> _]; reflexivity).
    rewrite bsum_zero by (intros ed He; apply edge_int_zero; intros gp Hg; apply met_no_flux; try assumption; apply L; exact He). ring.
  Qed.
End System.

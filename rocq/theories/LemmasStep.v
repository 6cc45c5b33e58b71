(** Proofs: water balance of a stage and of a step. *)
From Coq Require Import Reals QArith Qreals Qabs List Bool Arith Lra Lia.
From Verif Require Import Num ModelSWE SpecSWE LemmasSWE Outcome LemmasPart ModelShape SpecShape LemmasShape ModelBasis LemmasBasis4 ModelJac
  ModelStepper SpecStepper LemmasStepper LemmasRK LemmasRK2 ModelWetDry SpecWetDry LemmasWetDry ModelSlope LemmasSlope ModelStep SpecStep.
Import ListNotations.
Open Scope R_scope.

Lemma vmsum_rsum : forall n f, vmsum n f = rsum n f.
Proof. intros n f. induction n as [|n IH]; cbn [vmsum rsum]; [reflexivity|]. rewrite IH. reflexivity. Qed.
Lemma rsum_front : forall n f, rsum (S n) f = f 0%nat + rsum n (fun i => f (S i)).
Proof.
  intros n f. induction n as [|n IH]; [cbn; ring|].
  replace (rsum (S (S n)) f) with (rsum (S n) f + f (S n)) by reflexivity. rewrite IH. cbn [rsum]. ring.
Qed.
Lemma rsum_rev : forall n f, rsum n (fun i => f (n - 1 - i)%nat) = rsum n f.
Proof.
  induction n as [|n IH]; intros f; [reflexivity|]. rewrite rsum_front.
  replace (S n - 1 - 0)%nat with n by lia.
  rewrite (rsum_ext n _ (fun i => f (n - 1 - i)%nat)) by (intros i Hi; f_equal; lia).
  rewrite IH. cbn [rsum]. ring.
Qed.
Lemma rsum_upd : forall n (f : nat -> R) i v, (i < n)%nat -> rsum n (upd f i v) = rsum n f - f i + v.
Proof.
  induction n as [|n IH]; intros f i v H; [lia|]. cbn [rsum]. destruct (Nat.eq_dec i n) as [->|D].
  - rewrite upd_same, (rsum_ext n _ f); [ring|]. intros j Hj. apply upd_other. lia.
  - rewrite IH, upd_other by lia. ring.
Qed.
Lemma rsum_const0 : forall n f, (forall i, (i < n)%nat -> f i = 0) -> rsum n f = 0.
Proof. intros n f H. rewrite (rsum_ext n f (fun _ => 0)) by exact H. apply rsum_0. Qed.

(** ** The constant basis function *)
Lemma phi0 : forall z, GetPhi 0 z = 1.
Proof.
  intros z. destruct pq_values as [E0 _]. assert (P0 := f_equal fst E0). assert (Q0 := f_equal snd E0). cbn [fst snd] in P0, Q0.
  unfold GetPhi. rewrite P0, Q0. unfold ComputePhi. destruct (collapsed z); cbn; ring.
Qed.
Lemma dphi0 : forall z, GetDPhi 0 z = (0, 0).
Proof.
  intros z. destruct pq_values as [E0 _]. assert (P0 := f_equal fst E0). assert (Q0 := f_equal snd E0). cbn [fst snd] in P0, Q0.
  unfold GetDPhi. rewrite P0, Q0. unfold ComputeDPhiDZ1, ComputeDPhiDZ2.
  destruct (collapsed z); cbn [jacobi_polynomial_derivative Nat.eqb ComputeSingularDPhiDZ2 snd INR]; f_equal; unfold Rdiv; ring.
Qed.
Lemma minv0 : forall i, GetMinv i 0 = if Nat.eqb i 0 then 1 / 2 else 0.
Proof.
  intros i. unfold GetMinv. destruct (Nat.eqb_spec i 0) as [->|]; [|reflexivity].
  destruct pq_values as [E0 _]. assert (P0 := f_equal fst E0). assert (Q0 := f_equal snd E0). cbn [fst snd] in P0, Q0.
  rewrite P0, Q0. unfold uint. cbn. lra.
Qed.
Lemma ndof_pos : forall m, (0 < ndof m)%nat.
Proof.
  intros m. unfold ndof, dubiner_ndof. assert ((0 < 2)%nat) by lia.
  apply Nat.div_str_pos. split; [lia|]. nia.
Qed.
Lemma vmsum_first : forall n (f : nat -> R) c, (0 < n)%nat -> vmsum n (fun i => f i * (if Nat.eqb i 0 then c else 0)) = f 0%nat * c.
Proof.
  intros n f c H. induction n as [|n IH]; [lia|]. cbn [vmsum]. destruct n; [cbn; ring|].
  rewrite IH by lia. cbn [Nat.eqb]. ring.
Qed.
Lemma apply_minv_00 : forall m e rhs, GetJdet (m_nodes m e) <> 0 ->
  apply_minv m e rhs 0%nat 0%nat = rhs 0%nat 0%nat / (2 * Rabs (GetJdet (m_nodes m e))).
Proof.
  intros m e rhs H. unfold apply_minv.
  rewrite (vmsum_ext _ _ (fun i => rhs 0%nat i * (if Nat.eqb i 0 then (1 / 2) / Rabs (GetJdet (m_nodes m e)) else 0))).
  - rewrite vmsum_first by apply ndof_pos. field. apply Rabs_no_R0. exact H.
  - intros i _. unfold element_minv. rewrite minv0. destruct (Nat.eqb i 0); [reflexivity|]. unfold Rdiv. ring.
Qed.
Lemma area_jdet : forall n, tri_area n = 2 * Rabs (GetJdet n).
Proof.
  intros n. unfold tri_area. destruct (jacobian_area n) as [-> ->].
  replace (orient (n 0%nat) (n 1%nat) (n 2%nat) / 2 / 2) with (orient (n 0%nat) (n 1%nat) (n 2%nat) * / 4) by field.
  rewrite Rabs_mult, (Rabs_pos_eq (/ 4)) by lra. field.
Qed.
Lemma jdet_ok : forall n, orient (n 0%nat) (n 1%nat) (n 2%nat) <> 0 -> GetJdet n <> 0.
Proof. intros n H. destruct (jacobian_area n) as [-> ->]. lra. Qed.
Lemma half_side_J : forall n b, GetSurfaceJ n b = half_side n b.
Proof.
  intros n b. unfold GetSurfaceJ, half_side, dist, vdot, SpecShape.vsub. cbn [fst snd]. f_equal. f_equal. ring.
Qed.
Lemma normal_unit : forall m e b, orient (m_nodes m e 0%nat) (m_nodes m e 1%nat) (m_nodes m e 2%nat) <> 0 -> (b < 3)%nat ->
  unit2 (normal m e b) /\ unit2 (opp (normal m e b)).
Proof.
  intros m e b H Hb. destruct (normals_all (m_nodes m e) H b Hb) as [[U _] _]. unfold unit2, opp, normal. cbn [nx ny].
  unfold vdot in U. split; [exact U|]. rewrite <- U. ring.
Qed.

(** ** Integrals against the constant function *)
Lemma integration_dphi_0 : forall m e dir u var, (dir = fst \/ dir = snd) -> integration_dphi m e dir u var 0%nat = 0.
Proof.
  intros m e dir u var H. unfold integration_dphi. rewrite vmsum_rsum. apply rsum_const0. intros gp _.
  rewrite dphi0. destruct H as [-> | ->]; unfold physical_derivative; cbn [fst snd]; ring.
Qed.
Lemma integration_phi_0 : forall m e u, integration_phi m e u 0%nat 0%nat =
  tri_area (m_nodes m e) / 2 * rsum (ngp2 m) (fun gp => w2 m gp * ze (u gp)).
Proof.
  intros m e u. unfold integration_phi. rewrite vmsum_rsum, <- rsum_scal. apply rsum_ext. intros gp _.
  rewrite phi0, area_jdet. cbn [vget]. field.
Qed.
Lemma integration_face_0 : forall m e bl b u, integration_face m e bl b u 0%nat 0%nat =
  half_side (m_nodes m e) bl * rsum (ngp1 m) (fun gp => w1 m gp * ze (u gp)).
Proof.
  intros m e bl b u. unfold integration_face. rewrite vmsum_rsum, <- rsum_scal. apply rsum_ext. intros gp _.
  rewrite phi0, half_side_J. cbn [vget]. ring.
Qed.

(** ** What the right-hand-side kernels leave alone *)
Definition same_state (a b : mstate) : Prop :=
  ms_q a = ms_q b /\ ms_sol a = ms_sol b /\ ms_wet a = ms_wet b /\ ms_cd a = ms_cd b /\ ms_slm a = ms_slm b.
Lemma same_refl : forall a, same_state a a.
Proof. intros a. repeat split. Qed.
Lemma same_trans : forall a b d, same_state a b -> same_state b d -> same_state a d.
Proof. intros a b d (A & B & C & D & E) (A' & B' & C' & D' & E'). unfold same_state. repeat split; congruence. Qed.
Lemma same_set_rhs : forall st e k M, same_state (set_rhs st e k M) st.
Proof. intros. repeat split. Qed.
Lemma same_fold : forall (X : Type) (f : mstate -> X -> mstate), (forall st x, same_state (f st x) st) ->
  forall l st, same_state (fold_left f l st) st.
Proof.
  intros X f H l. induction l as [|x l IH]; intros st; [apply same_refl|]. cbn. eapply same_trans; [apply IH|apply H].
Qed.

Definition mass (m : mesh) (k : nat) (st : mstate) : R := rsum (m_n m) (fun e => ms_rhs st e k 0%nat 0%nat).
Lemma mass_set : forall m st e k M, (e < m_n m)%nat -> mass m k (set_rhs st e k M) = mass m k st - ms_rhs st e k 0%nat 0%nat + M 0%nat 0%nat.
Proof.
  intros m st e k M H. unfold mass, set_rhs. cbn [ms_rhs].
  rewrite (rsum_ext _ _ (upd (fun e => ms_rhs st e k 0%nat 0%nat) e (M 0%nat 0%nat))).
  - rewrite rsum_upd by exact H. reflexivity.
  - intros i _. unfold upd at 3. destruct (Nat.eqb_spec i e) as [->|D].
    + rewrite !upd_same. reflexivity.
    + rewrite !upd_other by exact D. reflexivity.
Qed.

Lemma volume_same : forall m c k st e, same_state (volume_kernel m c k st e) st.
Proof. intros. unfold volume_kernel. destruct (ms_wet st e); apply same_set_rhs. Qed.
Lemma source_same : forall m c t k st e, same_state (source_kernel m c t k st e) st.
Proof. intros. unfold source_kernel. destruct (ms_wet st e); [apply same_set_rhs|apply same_refl]. Qed.
Lemma interface_same : forall m c k st f, same_state (interface_kernel m c k st f) st.
Proof. intros. unfold interface_kernel. destruct (_ || _); [|apply same_refl]. eapply same_trans; apply same_set_rhs. Qed.
Lemma boundary_same : forall m c t k st b, same_state (boundary_kernel m c t k st b) st.
Proof. intros. unfold boundary_kernel. destruct (ms_wet _ _); [apply same_set_rhs|apply same_refl]. Qed.
Lemma rhs_same : forall m c t k st, same_state (rhs_kernels m c t k st) st.
Proof.
  intros. unfold rhs_kernels.
  eapply same_trans; [apply same_fold, boundary_same|]. eapply same_trans; [apply same_fold, interface_same|].
  eapply same_trans; [apply same_fold, source_same|]. apply same_fold, volume_same.
Qed.

(** ** Volume and source kernels *)
Lemma volume_loop : forall m c k n st, (forall e, (e < n)%nat -> ms_rhs (fold_left (volume_kernel m c k) (seq 0 n) st) e k 0%nat 0%nat = 0).
Proof.
  intros m c k n st. induction n as [|n IH]; [lia|]. intros e He. rewrite seq_S, fold_left_app. cbn [fold_left plus].
  set (s := fold_left _ _ _) in *.
  assert (E : exists M, volume_kernel m c k s n = set_rhs s n k M /\ M 0%nat 0%nat = 0).
  { unfold volume_kernel. destruct (ms_wet s n); eexists; (split; [reflexivity|]); [|reflexivity].
    unfold cadd. rewrite !integration_dphi_0 by tauto. ring. }
  destruct E as [M [-> E]]. unfold set_rhs. cbn [ms_rhs]. destruct (Nat.eq_dec e n) as [->|D].
  - rewrite !upd_same. exact E.
  - rewrite upd_other by exact D. apply IH. lia.
Qed.

Lemma friction_ze : forall p q a l Cf src gp, ze (snd (fold_left (friction_body p q a) l (Cf, src)) gp) = ze (src gp).
Proof.
  intros p q a l. induction l as [|x l IH]; intros Cf src gp; [reflexivity|]. cbn [fold_left friction_body]. rewrite IH.
  unfold upd. destruct (Nat.eqb_spec gp x) as [->|]; reflexivity.
Qed.
Lemma source_ze : forall m c t k st e gp, ze (source_at m c t k st e gp) = match m_fs m with None => 0 | Some f => ze (f t e gp) end.
Proof.
  intros. unfold source_at, get_source. destruct (m_fs m) as [f|]; cbn [option_map];
    destruct (s_bottom_friction (m_src m e)); rewrite ?friction_ze; cbn; num_R; ring.
Qed.
Lemma source_loop : forall m c t k st0 l st, same_state st st0 -> (forall e, In e l -> (e < m_n m)%nat) ->
  mass m k (fold_left (source_kernel m c t k) l st) = mass m k st +
    lsum l (fun e => match m_fs m with None => 0 | Some f => if ms_wet st0 e then
       tri_area (m_nodes m e) / 2 * rsum (length (m_rule2 m)) (fun gp => fst (nth gp (m_rule2 m) (0, (0, 0))) * ze (f t e gp)) else 0 end).
Proof.
  intros m c t k st0 l. induction l as [|e l IH]; intros st Sm Hl; [unfold lsum; cbn; ring|].
  cbn [fold_left]. rewrite IH; [|eapply same_trans; [apply source_same|exact Sm]|intros; apply Hl; right; assumption].
  unfold lsum. cbn [map fold_right]. 
  assert (W : ms_wet st e = ms_wet st0 e) by (destruct Sm as (_ & _ & -> & _); reflexivity).
  assert (G : mass m k (source_kernel m c t k st e) = mass m k st + match m_fs m with None => 0 | Some f => if ms_wet st0 e then
       tri_area (m_nodes m e) / 2 * rsum (length (m_rule2 m)) (fun gp => fst (nth gp (m_rule2 m) (0, (0, 0))) * ze (f t e gp)) else 0 end).
  { unfold source_kernel. rewrite <- W. destruct (ms_wet st e); [|destruct (m_fs m); ring].
    rewrite mass_set by (apply Hl; left; reflexivity). unfold cadd. rewrite integration_phi_0.
    pose proof (source_ze m c t k st e) as Z. destruct (m_fs m) as [f|].
    - rewrite (rsum_ext (ngp2 m) _ (fun gp => w2 m gp * ze (f t e gp))) by (intros; rewrite Z; reflexivity). unfold ngp2, w2. ring.
    - rewrite rsum_const0 by (intros; rewrite Z; ring). ring. }
  rewrite G. ring.
Qed.
Lemma lsum_seq : forall n f, lsum (seq 0 n) f = rsum n f.
Proof.
  intros n f. induction n as [|n IH]; [reflexivity|]. rewrite seq_S. unfold lsum in *. rewrite map_app, fold_right_app. cbn [map fold_right rsum plus].
  rewrite <- IH. generalize (map f (seq 0 n)). intros l. induction l as [|x l IHl]; cbn; [ring|]. rewrite IHl. ring.
Qed.
Lemma lsum_ext : forall (A : Type) (l : list A) f g, (forall x, In x l -> f x = g x) -> lsum l f = lsum l g.
Proof. intros A l f g H. unfold lsum. f_equal. apply map_ext_in. exact H. Qed.
Lemma lsum_zero : forall (A : Type) (l : list A), lsum l (fun _ => 0) = 0.
Proof. intros A l. unfold lsum. induction l as [|x l IH]; cbn; [reflexivity|]. rewrite IH. ring. Qed.

(** ** Interfaces *)
Lemma interface_flux_same : forall m c k st st0 f, same_state st st0 -> interface_flux m c k st f = interface_flux m c k st0 f.
Proof. intros m c k st st0 f (Q & _ & W & _). unfold interface_flux, q_face. rewrite Q, W. reflexivity. Qed.
Lemma boundary_flux_same : forall m c t k st st0 b, same_state st st0 -> boundary_flux m c t k st b = boundary_flux m c t k st0 b.
Proof. intros m c t k st st0 b (Q & _). unfold boundary_flux, q_face. rewrite Q. reflexivity. Qed.

Lemma internal_cancel : forall m c k st f, mesh_ok m -> In f (m_intfaces m) -> i_kind f = Internal ->
  let F := interface_flux m c k st f in
  rsum (ngp1 m) (fun gp => w1 m gp * ze (fst F gp)) + rsum (ngp1 m) (fun gp => w1 m gp * ze (snd F gp)) = 0.
Proof.
  intros m c k st f OK Hf Ki F. destruct (ok_intfaces m OK f Hf) as [Hin [_ Hb]].
  rewrite <- (rsum_rev (ngp1 m) (fun gp => w1 m gp * ze (snd F gp))). rewrite <- rsum_plus. apply rsum_const0. intros j Hj.
  assert (Wt : w1 m (ngp1 m - 1 - j) = w1 m j) by exact (ok_weights m OK j Hj). rewrite Wt.
  rewrite <- Rmult_plus_distr_l.
  assert (E : ze (fst F j) + ze (snd F (ngp1 m - 1 - j)%nat) = 0).
  { unfold F, interface_flux. rewrite Ki. cbv zeta.
    apply (internal_flux_mass (c_g c) (ms_wet st (i_in f)) (ms_wet st (i_ex f)) (ngp1 m)); [|exact Hj].
    intros i _. destruct (normal_unit m (i_in f) (i_bin f) (ok_triangles m OK _ Hin) Hb) as [U1 U2].
    repeat split; try assumption; apply (ok_sp m OK). }
  rewrite E. ring.
Qed.
Lemma interface_mass : forall m c k st f, (i_in f < m_n m)%nat -> (i_ex f < m_n m)%nat ->
  mass m k (interface_kernel m c k st f) = mass m k st -
    (if ms_wet st (i_in f) || ms_wet st (i_ex f) then
       half_side (m_nodes m (i_in f)) (i_bin f) *
         (rsum (ngp1 m) (fun gp => w1 m gp * ze (fst (interface_flux m c k st f) gp)) +
          rsum (ngp1 m) (fun gp => w1 m gp * ze (snd (interface_flux m c k st f) gp))) else 0).
Proof.
  intros m c k st f H1 H2. unfold interface_kernel. destruct (_ || _); [|ring].
  set (F := interface_flux m c k st f). cbv zeta.
  set (st1 := set_rhs st (i_in f) k _). rewrite mass_set by exact H2.
  assert (E : mass m k st1 = mass m k st - half_side (m_nodes m (i_in f)) (i_bin f) * rsum (ngp1 m) (fun gp => w1 m gp * ze (fst F gp))).
  { unfold st1. rewrite mass_set by exact H1. unfold csub. rewrite integration_face_0. ring. }
  rewrite E. unfold csub. rewrite integration_face_0. ring.
Qed.
Lemma interface_loop : forall m c k st0, mesh_ok m -> forall l, incl l (m_intfaces m) -> forall st, same_state st st0 ->
  mass m k (fold_left (interface_kernel m c k) l st) = mass m k st -
  lsum l (fun f => match i_kind f with
    | Internal => 0
    | Levee _ => if ms_wet st0 (i_in f) || ms_wet st0 (i_ex f) then
        half_side (m_nodes m (i_in f)) (i_bin f) * rsum (length (m_rule1 m)) (fun gp =>
          fst (nth gp (m_rule1 m) (0, 0)) * (ze (fst (interface_flux m c k st0 f) gp) + ze (snd (interface_flux m c k st0 f) gp)))
        else 0 end).
Proof.
  intros m c k st0 OK l. induction l as [|f l IH]; intros Il st Sm; [unfold lsum; cbn; ring|].
  assert (Hf : In f (m_intfaces m)) by (apply Il; left; reflexivity).
  cbn [fold_left]. rewrite IH; [|intros x Hx; apply Il; right; exact Hx|eapply same_trans; [apply interface_same|exact Sm]].
  destruct (ok_intfaces m OK f Hf) as [H1 [H2 _]]. rewrite interface_mass by assumption.
  rewrite (interface_flux_same m c k st st0 f Sm). unfold lsum. cbn [map fold_right].
  assert (W : forall e, ms_wet st e = ms_wet st0 e) by (destruct Sm as (_ & _ & -> & _); reflexivity). rewrite !W.
  destruct (i_kind f) eqn:Ki.
  - rewrite (internal_cancel m c k st0 f OK Hf Ki). destruct (_ || _); ring.
  - destruct (_ || _); [|ring]. rewrite <- rsum_plus.
    rewrite (rsum_ext (ngp1 m) _ (fun gp => fst (nth gp (m_rule1 m) (0, 0)) * (ze (fst (interface_flux m c k st0 f) gp) + ze (snd (interface_flux m c k st0 f) gp))))
      by (intros; unfold w1; ring). unfold ngp1. ring.
Qed.
Lemma boundary_loop : forall m c t k st0, mesh_ok m -> forall l, incl l (m_bounds m) -> forall st, same_state st st0 ->
  mass m k (fold_left (boundary_kernel m c t k) l st) = mass m k st -
  lsum l (fun b => if ms_wet st0 (b_elt b) then
    half_side (m_nodes m (b_elt b)) (b_id b) * rsum (length (m_rule1 m)) (fun gp =>
      fst (nth gp (m_rule1 m) (0, 0)) * ze (boundary_flux m c t k st0 b gp)) else 0).
Proof.
  intros m c t k st0 OK l. induction l as [|b l IH]; intros Il st Sm; [unfold lsum; cbn; ring|].
  assert (Hb : In b (m_bounds m)) by (apply Il; left; reflexivity).
  cbn [fold_left]. rewrite IH; [|intros x Hx; apply Il; right; exact Hx|eapply same_trans; [apply boundary_same|exact Sm]].
  destruct (ok_bounds m OK b Hb) as [H1 _]. unfold lsum. cbn [map fold_right].
  assert (W : forall e, ms_wet st e = ms_wet st0 e) by (destruct Sm as (_ & _ & -> & _); reflexivity).
  unfold boundary_kernel at 1. rewrite W. destruct (ms_wet st0 (b_elt b)); [|ring].
  rewrite mass_set by exact H1. unfold csub. rewrite integration_face_0, (boundary_flux_same m c t k st st0 b Sm). unfold ngp1, w1. ring.
Qed.

Lemma rhs_mass : forall m c t k st, mesh_ok m ->
  mass m k (rhs_kernels m c t k st) = rain m t st - levee_loss m c k st - outflow m c t k st.
Proof.
  intros m c t k st OK. unfold rhs_kernels.
  set (s1 := fold_left (volume_kernel m c k) _ st).
  assert (S1 : same_state s1 st) by apply same_fold, volume_same.
  set (s2 := fold_left (source_kernel m c t k) _ s1).
  assert (S2 : same_state s2 st) by (eapply same_trans; [apply same_fold, source_same|exact S1]).
  set (s3 := fold_left (interface_kernel m c k) _ s2).
  assert (S3 : same_state s3 st) by (eapply same_trans; [apply same_fold, interface_same|exact S2]).
  rewrite (boundary_loop m c t k st OK _ (incl_refl _) _ S3). unfold s3.
  rewrite (interface_loop m c k st OK _ (incl_refl _) _ S2). unfold s2.
  rewrite (source_loop m c t k st _ s1 S1) by (intros e He; apply in_seq in He; lia).
  assert (Z : mass m k s1 = 0) by (apply rsum_const0; intros; apply volume_loop; assumption).
  rewrite Z, lsum_seq. unfold rain, levee_loss, outflow. destruct (m_fs m); [ring|]. rewrite rsum_0. ring.
Qed.

(** ** UpdateState over the mesh *)
Definition newsol (m : mesh) (k : nat) (st : mstate) (e : nat) : nat -> coeffs := upd (ms_sol st e) k (apply_minv m e (ms_rhs st e k)).
Definition newrow (c : config) (dt : R) (k : nat) (st : mstate) (sol : nat -> coeffs) (e : nat) : coeffs := fun var dof =>
  next_state (I := nat * nat) (c_A c) (c_B c) dt k (fun s i => ms_q st e s (fst i) (snd i)) (fun s i => sol s (fst i) (snd i)) (var, dof).

Lemma update_loop : forall m c dt n k j st, (k < n)%nat ->
  let st' := fold_left (update_kernel m c dt n k) (seq 0 j) st in
  (forall e, (e < j)%nat -> ms_sol st' e = newsol m k st e /\
     ms_q st' e ((k + 1) mod n)%nat = newrow c dt k st (newsol m k st e) e /\
     ((k + 1 < n)%nat -> forall s, s <> (k + 1)%nat -> ms_q st' e s = ms_q st e s)) /\
  (forall e, (j <= e)%nat -> ms_sol st' e = ms_sol st e /\ ms_q st' e = ms_q st e) /\
  ms_rhs st' = ms_rhs st /\ ms_wet st' = ms_wet st.
Proof.
  intros m c dt n k j st Hk. induction j as [|j IH]; [cbn; repeat split; intros; lia|].
  rewrite seq_S, fold_left_app. cbn [fold_left plus]. set (s1 := fold_left _ _ _) in *.
  destruct IH as [I1 [I2 [I3 I4]]]. cbv zeta.
  destruct (I2 j (le_n _)) as [J1 J2].
  assert (NS : upd (ms_sol s1 j) k (apply_minv m j (ms_rhs s1 j k)) = newsol m k st j) by (unfold newsol; rewrite J1, I3; reflexivity).
  split; [|split; [|split; [exact I3|exact I4]]].
  - intros e He. unfold update_kernel. cbn [ms_sol ms_q]. destruct (Nat.eq_dec e j) as [->|D].
    + rewrite !upd_same. rewrite NS. split; [reflexivity|]. rewrite J2. split.
      * destruct (Nat.eqb_spec (k + 1) n) as [E|E].
        -- rewrite E, Nat.mod_same by lia. rewrite upd_other by lia. rewrite upd_same, upd_same. reflexivity.
        -- rewrite Nat.mod_small by lia. rewrite upd_same. reflexivity.
      * intros Hn s Hs. destruct (Nat.eqb_spec (k + 1) n) as [E|E]; [lia|]. apply upd_other. exact Hs.
    + rewrite !(upd_other _ _ _ _ _ D). apply I1. lia.
  - intros e He. unfold update_kernel. cbn [ms_sol ms_q]. rewrite !upd_other by lia. apply I2. lia.
Qed.

(** ** Wetting and drying, slope limiting over the mesh *)
Definition same_but (slot : nat) (a b : mstate) : Prop :=
  ms_sol a = ms_sol b /\ forall e s, s <> slot -> ms_q a e s = ms_q b e s.
Lemma wd_loop : forall m c slot, (1 <= m_p m)%nat -> 0 <= c_thr c -> 0 <= c_h_o c -> (forall e v, (v < 3)%nat -> m_bath_min m e <= m_bath m e v) ->
  forall j st, exists st', ofold (wd_kernel m c slot) (seq 0 j) st = Ok st' /\ same_but slot st' st /\
  (forall e, (e < j)%nat -> ms_q st' e slot 0%nat 0%nat = ms_q st e slot 0%nat 0%nat +
     Rmax 0 (c_thr c - (ms_q st e slot 0%nat 0%nat + (m_bath m e 0%nat + m_bath m e 1%nat + m_bath m e 2%nat) / 3))) /\
  (forall e, (j <= e)%nat -> ms_q st' e slot = ms_q st e slot).
Proof.
  intros m c slot Hp Ht Hh Hb j st. induction j as [|j IH]; [exists st; cbn; repeat split; intros; lia|].
  destruct IH as [s1 [E [[S1 S2] [A B]]]]. rewrite seq_S, ofold_app, E. cbn [plus bind ofold].
  destruct (kernel_ok (m_p m) (c_h_o c) (c_thr c) (m_bath m j) (m_bath_min m j) Hp Ht Hh (Hb j)
    (EltWD (ms_q s1 j slot) (ms_rhs s1 j slot) (ms_wet s1 j) (ms_cd s1 j))) as [r [K [M _]]].
  unfold wd_kernel. rewrite K. cbn [bind]. eexists. split; [reflexivity|].
  unfold same_but. cbn [ms_sol ms_q]. split; [split|split].
  - exact S1.
  - intros e s Hs. destruct (Nat.eq_dec e j) as [->|D]; [rewrite upd_same, upd_other by exact Hs|rewrite upd_other by exact D]; apply S2; exact Hs.
  - intros e He. destruct (Nat.eq_dec e j) as [->|D].
    + rewrite !upd_same. unfold cell_mean, mean_depth in M. cbn [e_q] in M. unfold cell_mean in M. rewrite M, !B by lia. reflexivity.
    + rewrite upd_other by exact D. apply A. lia.
  - intros e He. rewrite upd_other by lia. apply B. lia.
Qed.
Lemma sl_loop : forall m slot, (1 <= m_p m)%nat -> forall j st, exists st', ofold (sl_kernel m slot) (seq 0 j) st = Ok st' /\ same_but slot st' st /\
  (forall e, ms_q st' e slot 0%nat 0%nat = ms_q st e slot 0%nat 0%nat).
Proof.
  intros m slot Hp j st. induction j as [|j IH]; [exists st; cbn; repeat split|].
  destruct IH as [s1 [E [[S1 S2] A]]]. rewrite seq_S, ofold_app, E. cbn [plus bind ofold]. unfold sl_kernel. cbv zeta.
  match goal with |- context [slope_limiting_kernel ?p ?s ?w ?wn ?q] => destruct (kernel_mean p s w wn q Hp) as [q' [K [M _]]] end.
  rewrite K. cbn [bind]. eexists. split; [reflexivity|]. unfold same_but. cbn [ms_sol ms_q]. split; [split|].
  - exact S1.
  - intros e s Hs. destruct (Nat.eq_dec e j) as [->|D]; [rewrite upd_same, upd_other by exact Hs|rewrite upd_other by exact D]; apply S2; exact Hs.
  - intros e. destruct (Nat.eq_dec e j) as [->|D].
    + rewrite !upd_same. specialize (M 0%nat). unfold cell_mean in M. rewrite M. apply A.
    + rewrite upd_other by exact D. apply A.
Qed.

(** ** One stage *)
Lemma incr_stage : forall stp, st_stage (stepper_incr stp) = ((st_stage stp + 1) mod st_nstages stp)%nat /\
  st_nstages (stepper_incr stp) = st_nstages stp /\ st_dt (stepper_incr stp) = st_dt stp.
Proof. intros stp. unfold stepper_incr. destruct (st_has_ramp stp); repeat split. Qed.

Lemma stage_balance : forall m c st stp, mesh_ok m -> 0 <= c_thr c -> 0 <= c_h_o c -> (st_stage stp < st_nstages stp)%nat ->
  let k := st_stage stp in
  let dt := st_dt stp in
  let slot := ((k + 1) mod st_nstages stp)%nat in
  exists st', stage_serial m c (st, stp) = Ok (st', stepper_incr stp) /\
  production m st' k = net_inflow m c (st, stp) /\
  volume m st' slot = rsum (S k) (fun s => Q2R (entry (c_A c) k s) * volume m st s + dt * Q2R (entry (c_B c) k s) * production m st' s)
                      + lifted m c dt k st st' /\
  (forall s, s <> k -> production m st' s = production m st s) /\
  ((k + 1 < st_nstages stp)%nat -> forall s, s <> (k + 1)%nat -> volume m st' s = volume m st s).
Proof.
  intros m c st stp OK Ht Hh Hk k dt slot. unfold stage_serial. fold k.
  set (st1 := rhs_kernels m c (time_at_stage stp) k st).
  assert (S1 : same_state st1 st) by apply rhs_same. destruct S1 as (Q1 & So1 & W1 & _).
  pose proof (update_loop m c (st_dt stp) (st_nstages stp) k (m_n m) st1 Hk) as U. cbv zeta in U.
  set (st2 := fold_left (update_kernel m c (st_dt stp) (st_nstages stp) k) (seq 0 (m_n m)) st1) in *.
  destruct U as [U1 [_ [U3 U4]]].
  destruct (incr_stage stp) as [I1 [I2 I3]]. rewrite I1. fold k slot.
  assert (WD : exists st3, (if c_wd c then ofold (wd_kernel m c slot) (seq 0 (m_n m)) st2 else Ok st2) = Ok st3 /\ same_but slot st3 st2 /\
     forall e, (e < m_n m)%nat -> ms_q st3 e slot 0%nat 0%nat = ms_q st2 e slot 0%nat 0%nat + if c_wd c then
       Rmax 0 (c_thr c - (ms_q st2 e slot 0%nat 0%nat + (m_bath m e 0%nat + m_bath m e 1%nat + m_bath m e 2%nat) / 3)) else 0).
  { destruct (c_wd c).
    - destruct (wd_loop m c slot (ok_order m OK) Ht Hh (ok_bath m OK) (m_n m) st2) as [s [E [Sb [A _]]]]. exists s. auto.
    - exists st2. split; [reflexivity|]. split; [split; reflexivity|]. intros; ring. }
  destruct WD as [st3 [-> [[B1 B2] B3]]]. cbn [bind].
  assert (SL : exists st4, (if c_sl c then ofold (sl_kernel m slot) (seq 0 (m_n m)) (sl_prepare m slot st3) else Ok st3) = Ok st4 /\
     same_but slot st4 st3 /\ forall e, ms_q st4 e slot 0%nat 0%nat = ms_q st3 e slot 0%nat 0%nat).
  { destruct (c_sl c).
    - destruct (sl_loop m slot (ok_order m OK) (m_n m) (sl_prepare m slot st3)) as [s [E [Sb A]]]. exists s.
      split; [exact E|]. split; [exact Sb|exact A].
    - exists st3. split; [reflexivity|]. split; [split; reflexivity|]. reflexivity. }
  destruct SL as [st4 [-> [[C1 C2] C3]]]. cbn [bind]. exists st4. split; [reflexivity|].
  assert (Sol : forall e, (e < m_n m)%nat -> ms_sol st4 e = newsol m k st1 e) by (intros e He; rewrite C1, B1; apply U1; exact He).
  assert (P : production m st4 k = mass m k st1).
  { unfold production, mass. apply rsum_ext. intros e He. rewrite Sol by exact He. unfold newsol. rewrite upd_same.
    rewrite apply_minv_00, area_jdet by (apply jdet_ok, (ok_triangles m OK), He). field.
    apply Rabs_no_R0, jdet_ok, (ok_triangles m OK), He. }
  split; [|split; [|split]].
  - rewrite P. unfold st1, net_inflow. fold k. apply rhs_mass. exact OK.
  - assert (N : forall e, (e < m_n m)%nat -> ms_q st2 e slot 0%nat 0%nat = combined c dt k st st4 e).
    { intros e He. destruct (U1 e He) as [_ [E2 _]]. fold slot in E2. rewrite E2. unfold newrow. rewrite next_state_sum. unfold combined. cbn [fst snd].
      apply rsum_ext. intros s Hs. rewrite Q1, Sol by exact He. reflexivity. }
    assert (V : volume m st4 slot = rsum (m_n m) (fun e => tri_area (m_nodes m e) * combined c dt k st st4 e) + lifted m c dt k st st4).
    { unfold volume, lifted. destruct (c_wd c) eqn:Wd.
      - rewrite <- rsum_plus. apply rsum_ext. intros e He. rewrite C3, B3, N by exact He. unfold combined_depth. ring.
      - rewrite Rplus_0_r. apply rsum_ext. intros e He. rewrite C3, B3, N by exact He. ring. }
    rewrite V. f_equal. unfold volume, production, combined.
    rewrite (rsum_ext (m_n m) _ (fun e => rsum (S k) (fun s => tri_area (m_nodes m e) * (Q2R (entry (c_A c) k s) * ms_q st e s 0%nat 0%nat +
       dt * Q2R (entry (c_B c) k s) * ms_sol st4 e s 0%nat 0%nat)))) by (intros e _; rewrite rsum_scal; reflexivity).
    rewrite rsum_swap. apply rsum_ext. intros s _. rewrite <- !rsum_scal, <- rsum_plus. apply rsum_ext. intros e _. ring.
  - intros s Hs. unfold production. apply rsum_ext. intros e He. rewrite Sol by exact He. unfold newsol. rewrite upd_other by exact Hs. rewrite So1. reflexivity.
  - intros Hn s Hs. unfold volume. apply rsum_ext. intros e He.
    assert (Sl : slot = (k + 1)%nat) by (apply Nat.mod_small; exact Hn).
    rewrite C2, B2 by (rewrite Sl; exact Hs). destruct (U1 e He) as [_ [_ E]]. rewrite E, Q1 by assumption. reflexivity.
Qed.

(** ** Shu-Osher sequences with a defect *)
Definition bform (a b : nat -> nat -> Q) (dt : R) (n : nat) (v0 : R) (P : nat -> R) (k : nat) : R :=
  Q2R (br a b n k) * v0 + dt * rsum n (fun j => Q2R (bM a b n k j) * P j).
Lemma bform_S : forall a b dt n v0 P k, (k < n)%nat ->
  bform a b dt n v0 P (S k) = rsum (S k) (fun s => Q2R (a k s) * bform a b dt n v0 P s + dt * Q2R (b k s) * P s).
Proof.
  intros a b dt n v0 P k Hk. unfold bform. rewrite br_S by exact Hk. rewrite Q2R_qsum.
  rewrite (rsum_ext n _ (fun j => rsum (S k) (fun s => Q2R (a k s) * Q2R (bM a b n s j) * P j) + (if Nat.leb j k then Q2R (b k j) * P j else 0))).
  - rewrite rsum_plus, rsum_swap.
    assert (T : rsum n (fun j => if Nat.leb j k then Q2R (b k j) * P j else 0) = rsum (S k) (fun j => Q2R (b k j) * P j)).
    { rewrite (rsum_extend n (S k)).
      - apply rsum_ext. intros j Hj. rewrite (proj2 (Nat.leb_le j k)) by lia. reflexivity.
      - lia.
      - intros j Hj. destruct (Nat.leb_spec j k); [lia|reflexivity]. }
    rewrite T. rewrite (rsum_ext (S k) (fun i => Q2R (a k i * br a b n i)) (fun i => Q2R (a k i) * Q2R (br a b n i))) by (intros; apply Q2R_mult).
    rewrite Rmult_plus_distr_l, <- rsum_scal_r, <- Rplus_assoc, <- !rsum_scal, <- !rsum_plus. apply rsum_ext. intros s _.
    rewrite (rsum_ext n _ (fun i => Q2R (a k s) * (Q2R (bM a b n s i) * P i))) by (intros; ring). rewrite rsum_scal. ring.
  - intros j Hj. rewrite bM_S by assumption. rewrite Rmult_plus_distr_r, <- rsum_scal_r. f_equal. destruct (Nat.leb j k); ring.
Qed.
Lemma bform_0 : forall a b dt n v0 P, bform a b dt n v0 P 0 = v0.
Proof.
  intros. unfold bform. rewrite br_0, RMicromega.Q2R_1. rewrite rsum_const0; [ring|].
  intros j _. rewrite bM_0, RMicromega.Q2R_0. ring.
Qed.
Lemma defect : forall a b dt n (v P l : nat -> R),
  (forall k s, (k < n)%nat -> (s <= k)%nat -> (0 <= a k s)%Q) ->
  (forall k, (k < n)%nat -> 0 <= l k) ->
  (forall k, (k < n)%nat -> v (S k) = rsum (S k) (fun s => Q2R (a k s) * v s + dt * Q2R (b k s) * P s) + l k) ->
  forall k, (k <= n)%nat -> bform a b dt n (v 0%nat) P k <= v k /\
    ((forall i, (i < n)%nat -> l i = 0) -> v k = bform a b dt n (v 0%nat) P k).
Proof.
  intros a b dt n v P l Ha Hl Hv k. induction k as [k IH] using lt_wf_ind. intros Hk. destruct k as [|k].
  - rewrite bform_0. split; [lra|reflexivity].
  - rewrite bform_S, Hv by lia. split.
    + assert (G : rsum (S k) (fun s => Q2R (a k s) * bform a b dt n (v 0%nat) P s + dt * Q2R (b k s) * P s) <=
        rsum (S k) (fun s => Q2R (a k s) * v s + dt * Q2R (b k s) * P s)).
      { apply rsum_le. intros s Hs. apply Rplus_le_compat_r, Rmult_le_compat_l.
        - rewrite <- RMicromega.Q2R_0. apply Qle_Rle, Ha; lia.
        - apply IH; lia. }
      specialize (Hl k ltac:(lia)). lra.
    + intros Z. rewrite (Z k) by lia. rewrite Rplus_0_r. apply rsum_ext. intros s Hs.
      rewrite (proj2 (IH s ltac:(lia) ltac:(lia)) Z) at 1. reflexivity.
Qed.
Lemma bM_nonneg : forall n p A B, rk_table n p = Some (A, B) -> forall k j, (k <= n)%nat -> (j < n)%nat -> 0 <= Q2R (bM (entry A) (entry B) n k j).
Proof.
  intros n p A B E k. induction k as [k IH] using lt_wf_ind. intros j Hk Hj. destruct k as [|k].
  - rewrite bM_0, RMicromega.Q2R_0. lra.
  - rewrite bM_S by lia. apply Rplus_le_le_0_compat.
    + rewrite <- (rsum_0 (S k)). apply rsum_le. intros s Hs. apply Rmult_le_pos; [|apply IH; lia].
      rewrite <- RMicromega.Q2R_0. apply Qle_Rle. apply (coef_ok n p A B E k s); lia.
    + destruct (Nat.leb_spec j k); [|lra]. rewrite <- RMicromega.Q2R_0. apply Qle_Rle. apply (coef_ok n p A B E k j); lia.
Qed.

(** ** One step *)
Lemma stages_S : forall m c k s, stages m c (S k) s = bind (stages m c k s) (stage_serial m c).
Proof.
  intros m c k s. unfold stages. rewrite seq_S, ofold_app. destruct (ofold _ (seq 0 k) s) as [x| |]; cbn [bind ofold]; [|reflexivity|reflexivity].
  destruct (stage_serial m c x); reflexivity.
Qed.
Lemma lifted_nonneg : forall m c dt k st st', 0 <= lifted m c dt k st st'.
Proof.
  intros. unfold lifted. destruct (c_wd c); [|lra]. eapply Rle_trans; [right; symmetry; apply (rsum_0 (m_n m))|]. apply rsum_le. intros e _.
  apply Rmult_le_pos; [|apply Rmax_l]. unfold tri_area. pose proof (Rabs_pos (orient (m_nodes m e 0%nat) (m_nodes m e 1%nat) (m_nodes m e 2%nat))). lra.
Qed.

Lemma trace : forall m c st stp, mesh_ok m -> 0 <= c_thr c -> 0 <= c_h_o c -> (0 < st_nstages stp)%nat -> st_stage stp = 0%nat ->
  let n := st_nstages stp in
  let s := (st, stp) in
  let v k := volume m (fst (after m c s k)) (k mod n)%nat in
  let P k := net_inflow m c (after m c s k) in
  forall j, (j <= n)%nat ->
  stages m c j s = Ok (after m c s j) /\ st_stage (snd (after m c s j)) = (j mod n)%nat /\
  st_nstages (snd (after m c s j)) = n /\ st_dt (snd (after m c s j)) = st_dt stp /\
  ((j < n)%nat -> (forall i, (i <= j)%nat -> volume m (fst (after m c s j)) i = v i) /\
                  (forall i, (i < j)%nat -> production m (fst (after m c s j)) i = P i)) /\
  (forall k, j = S k -> v j = rsum (S k) (fun i => Q2R (entry (c_A c) k i) * v i + st_dt stp * Q2R (entry (c_B c) k i) * P i) + lifted_at m c s k).
Proof.
  intros m c st stp OK Ht Hh Hn H0 n s v P j. induction j as [|j IH]; intros Hj.
  - assert (A0 : after m c s 0 = s) by reflexivity. rewrite A0. split; [reflexivity|].
    rewrite Nat.mod_0_l by lia. unfold s. cbn [snd fst].
    split; [exact H0|]. split; [reflexivity|]. split; [reflexivity|]. split; [|discriminate].
    intros _. split; [|lia]. intros i Hi. assert (i = 0)%nat as -> by lia. unfold v. rewrite A0, Nat.mod_0_l by lia. reflexivity.
  - destruct (IH ltac:(lia)) as (I1 & I2 & I3 & I4 & I5 & _). clear IH.
    destruct (I5 ltac:(lia)) as [IV IP]. clear I5.
    rewrite Nat.mod_small in I2 by lia.
    destruct (after m c s j) as [st1 stp1] eqn:Ej. cbn [fst snd] in *.
    destruct (stage_balance m c st1 stp1 OK Ht Hh ltac:(lia)) as [st2 [E [B1 [B2 [B3 B4]]]]].
    rewrite I2, I3 in B2, B4. rewrite I2 in B1, B3. rewrite I4 in B2.
    assert (SE : stages m c (S j) s = Ok (st2, stepper_incr stp1)) by (rewrite stages_S, I1; exact E).
    assert (A : after m c s (S j) = (st2, stepper_incr stp1)) by (unfold after; rewrite SE; reflexivity).
    rewrite A. cbn [fst snd]. destruct (incr_stage stp1) as [J1 [J2 J3]].
    assert (PJ : P j = net_inflow m c (st1, stp1)) by (unfold P; rewrite Ej; reflexivity).
    assert (VS : v (S j) = volume m st2 ((j + 1) mod n)%nat) by (unfold v; rewrite A; cbn [fst]; rewrite Nat.add_1_r; reflexivity).
    split; [exact SE|]. rewrite J1, J2, J3, I2, I3. split; [rewrite Nat.add_1_r; reflexivity|]. split; [reflexivity|]. split; [exact I4|].
    split.
    + intros Hlt. split.
      * intros i Hi. destruct (Nat.eq_dec i (S j)) as [->|D].
        -- rewrite VS, Nat.mod_small, Nat.add_1_r by lia. reflexivity.
        -- rewrite B4 by lia. apply IV. lia.
      * intros i Hi. destruct (Nat.eq_dec i j) as [->|D]; [rewrite B1, PJ; reflexivity|]. rewrite B3 by exact D. apply IP. lia.
    + intros k Ek. assert (k = j) as -> by lia. rewrite VS, B2. unfold lifted_at. rewrite Ej, A. cbn [fst snd]. f_equal.
      apply rsum_ext. intros i Hi. f_equal; f_equal; [apply IV; lia|].
      destruct (Nat.eq_dec i j) as [->|D]; [rewrite B1, PJ; reflexivity|]. rewrite B3 by exact D. apply IP. lia.
Qed.

Definition exact_schemes : list (nat * nat) := [(1, 1); (2, 2); (3, 3); (4, 3); (6, 3); (7, 4); (8, 4)]%nat.
Lemma br_exact : forall n p A B, rk_table n p = Some (A, B) -> In (n, p) exact_schemes -> Q2R (br (entry A) (entry B) n n) = 1.
Proof.
  intros n p A B E HI. unfold exact_schemes in HI.
  pose proof (scheme_forall (fun n p A B =>
        implb (existsb (fun np => Nat.eqb n (fst np) && Nat.eqb p (snd np))
           [(1, 1); (2, 2); (3, 3); (4, 3); (6, 3); (7, 4); (8, 4)]%nat)
         (Qeq_bool (br (entry A) (entry B) n n) 1)) ltac:(vm_compute; reflexivity) n p A B E) as C.
  cbv beta in C. rewrite <- RMicromega.Q2R_1. apply Qeq_eqR, Qeq_bool_iff.
  replace (existsb _ _) with true in C; [exact C|].
  symmetry. apply existsb_exists. exists (n, p). split; [assumption|]. cbn [fst snd]. rewrite !Nat.eqb_refl. reflexivity.
Qed.

Lemma step_balance : forall m c st stp p, mesh_ok m -> 0 <= c_thr c -> 0 <= c_h_o c -> st_stage stp = 0%nat ->
  rk_table (st_nstages stp) p = Some (c_A c, c_B c) ->
  let n := st_nstages stp in
  let s := (st, stp) in
  let V0 := volume m st 0 in
  exists st' stp' (r : R) (w : nat -> R) created,
  step_serial m c s = Ok (st', stp') /\ st_stage stp' = 0%nat /\ st_nstages stp' = n /\
  Rabs (r - 1) <= Q2R (1 # 10000000000000) /\ (In (n, p) [(1, 1); (2, 2); (3, 3); (4, 3); (6, 3); (7, 4); (8, 4)]%nat -> r = 1) /\
  (forall k, (k < n)%nat -> 0 <= w k) /\ Rabs (rsum n w - 1) <= Q2R (1 # 10000000000) /\
  volume m st' 0 = r * V0 + st_dt stp * rsum n (fun k => w k * net_inflow m c (after m c s k)) + created /\
  0 <= created /\ ((forall k, (k < n)%nat -> lifted_at m c s k = 0) -> created = 0).
Proof.
  intros m c st stp p OK Ht Hh H0 E n s V0.
  pose proof (table_pos _ _ _ _ E) as Hn.
  pose proof (trace m c st stp OK Ht Hh Hn H0) as T. cbv zeta in T. fold n s in T.
  set (v := fun k => volume m (fst (after m c s k)) (k mod n)%nat).
  set (P := fun k => net_inflow m c (after m c s k)).
  destruct (T n (le_n _)) as (T1 & T2 & T3 & _). rewrite Nat.mod_same in T2 by (unfold n; lia).
  destruct (after m c s n) as [st' stp'] eqn:An. cbn [snd] in T2, T3.
  pose proof (defect (entry (c_A c)) (entry (c_B c)) (st_dt stp) n v P (lifted_at m c s)
    (fun k i Hk Hi => proj1 (coef_ok n p _ _ E k i Hk Hi)) (fun k _ => lifted_nonneg m c (st_dt (snd s)) k (fst (after m c s k)) (fst (after m c s (S k))))) as D.
  assert (Rec : forall k, (k < n)%nat -> v (S k) = rsum (S k) (fun i => Q2R (entry (c_A c) k i) * v i + st_dt stp * Q2R (entry (c_B c) k i) * P i) + lifted_at m c s k).
  { intros k Hk. destruct (T (S k) ltac:(lia)) as (_ & _ & _ & _ & _ & R). exact (R k eq_refl). }
  destruct (D Rec n (le_n _)) as [D1 D2]. clear D Rec.
  assert (Vn : v n = volume m st' 0) by (unfold v; rewrite An, Nat.mod_same by (unfold n; lia); reflexivity).
  assert (V0e : v 0%nat = V0) by (unfold v; rewrite Nat.mod_0_l by (unfold n; lia); reflexivity).
  rewrite Vn, V0e in D1. rewrite Vn, V0e in D2.
  exists st', stp', (Q2R (br (entry (c_A c)) (entry (c_B c)) n n)), (fun j => Q2R (bM (entry (c_A c)) (entry (c_B c)) n n j)),
    (volume m st' 0 - bform (entry (c_A c)) (entry (c_B c)) (st_dt stp) n V0 P n).
  split; [exact T1|]. split; [exact T2|]. split; [exact T3|]. split.
  { pose proof (Q2R_abs_le _ _ (rowsum_ok n p _ _ E n (le_n _))) as G. rewrite Q2R_minus, RMicromega.Q2R_1 in G. exact G. }
  split; [intros HI; apply (br_exact n p); [exact E|exact HI]|].
  split; [intros k Hk; apply (bM_nonneg n p); [exact E|lia|exact Hk]|].
  split; [exact (weights_sum n p _ _ E)|].
  split; [unfold bform, P; ring|]. split; [lra|]. intros Z. specialize (D2 Z). lra.
Qed.

(** ** Closed basins *)
Lemma closed_inflow : forall m c s, mesh_ok m -> closed m -> net_inflow m c s = 0.
Proof.
  intros m c [st stp] OK [C1 [C2 C3]]. unfold net_inflow.
  assert (R0 : rain m (time_at_stage stp) st = 0) by (unfold rain; rewrite C1; reflexivity).
  assert (L0 : levee_loss m c (st_stage stp) st = 0).
  { unfold levee_loss. rewrite (lsum_ext _ _ _ (fun _ => 0)) by (intros f Hf; rewrite (C3 f Hf); reflexivity).
    apply lsum_zero. }
  assert (O0 : outflow m c (time_at_stage stp) (st_stage stp) st = 0).
  { unfold outflow. rewrite (lsum_ext _ _ _ (fun _ => 0)).
    - apply lsum_zero.
    - intros b Hb. destruct (ms_wet st (b_elt b)); [|reflexivity]. rewrite rsum_const0; [ring|].
      intros gp _. unfold boundary_flux. rewrite (C2 b Hb). destruct (ok_bounds m OK b Hb) as [H1 H2].
      rewrite (proj1 (land_flux_impermeable _ _ _ _ (proj1 (normal_unit m _ _ (ok_triangles m OK _ H1) H2)) (ok_sp m OK _ _ _))). ring. }
  rewrite R0, L0, O0. ring.
Qed.
Lemma closed_step : forall m c st stp p, mesh_ok m -> closed m -> 0 <= c_thr c -> 0 <= c_h_o c -> st_stage stp = 0%nat ->
  rk_table (st_nstages stp) p = Some (c_A c, c_B c) ->
  let n := st_nstages stp in
  let s := (st, stp) in
  let V0 := volume m st 0 in
  let exact_row := In (n, p) [(1, 1); (2, 2); (3, 3); (4, 3); (6, 3); (7, 4); (8, 4)]%nat in
  exists st' stp', step_serial m c s = Ok (st', stp') /\ st_stage stp' = 0%nat /\ st_nstages stp' = n /\
  V0 - Q2R (1 # 10000000000000) * Rabs V0 <= volume m st' 0 /\ (exact_row -> V0 <= volume m st' 0) /\
  ((forall k, (k < n)%nat -> lifted_at m c s k = 0) ->
     Rabs (volume m st' 0 - V0) <= Q2R (1 # 10000000000000) * Rabs V0 /\ (exact_row -> volume m st' 0 = V0)).
Proof.
  intros m c st stp p OK Cl Ht Hh H0 E n s V0 ex.
  destruct (step_balance m c st stp p OK Ht Hh H0 E) as (st' & stp' & r & w & cr & S1 & S2 & S3 & R1 & R2 & _ & _ & B & C0 & C1).
  exists st', stp'. split; [exact S1|]. split; [exact S2|]. split; [exact S3|]. fold n s V0 in B, C1, R2.
  rewrite rsum_const0 in B by (intros; rewrite closed_inflow by assumption; ring).
  assert (G : Rabs ((r - 1) * V0) <= Q2R (1 # 10000000000000) * Rabs V0)
    by (rewrite Rabs_mult; apply Rmult_le_compat_r; [apply Rabs_pos|exact R1]).
  replace (volume m st' 0) with (V0 + (r - 1) * V0 + cr) by (rewrite B; ring).
  assert (L : - Rabs ((r - 1) * V0) <= (r - 1) * V0) by (pose proof (Rle_abs (- ((r - 1) * V0))); rewrite Rabs_Ropp in *; lra).
  split; [lra|]. split; [intros X; rewrite (R2 X); lra|]. intros Z. rewrite (C1 Z). split.
  - replace (V0 + (r - 1) * V0 + 0 - V0) with ((r - 1) * V0) by ring. exact G.
  - intros X. rewrite (R2 X). ring.
Qed.
Lemma no_lift : forall m c s k, (forall e, (e < m_n m)%nat -> c_thr c <= combined_depth m c (st_dt (snd s)) k (fst (after m c s k)) (fst (after m c s (S k))) e) \/ c_wd c = false ->
  lifted_at m c s k = 0.
Proof.
  intros m c s k [H|H]; unfold lifted_at, lifted.
  - destruct (c_wd c); [|reflexivity]. apply rsum_const0. intros e He. rewrite Rmax_left by (specialize (H e He); lra). ring.
  - rewrite H. reflexivity.
Qed.

(** ** Many steps *)
Lemma closed_run : forall m c stp p N, mesh_ok m -> closed m -> 0 <= c_thr c -> 0 <= c_h_o c -> st_stage stp = 0%nat ->
  rk_table (st_nstages stp) p = Some (c_A c, c_B c) -> In (st_nstages stp, p) [(1, 1); (2, 2); (3, 3); (4, 3); (6, 3); (7, 4); (8, 4)]%nat ->
  forall st, exists st' stp', ofold (fun s _ => step_serial m c s) (seq 0 N) (st, stp) = Ok (st', stp') /\
  volume m st 0 <= volume m st' 0 /\ (c_wd c = false -> volume m st' 0 = volume m st 0).
Proof.
  intros m c stp p N OK Cl Ht Hh.
  assert (G : forall N stp a, st_stage stp = 0%nat -> rk_table (st_nstages stp) p = Some (c_A c, c_B c) -> In (st_nstages stp, p) exact_schemes ->
    forall st, exists st' stp', ofold (fun s _ => step_serial m c s) (seq a N) (st, stp) = Ok (st', stp') /\
    volume m st 0 <= volume m st' 0 /\ (c_wd c = false -> volume m st' 0 = volume m st 0)); [|exact (G N stp 0%nat)].
  clear N stp. induction N as [|N IH]; intros stp a H0 E HI st.
  - exists st, stp. cbn. split; [reflexivity|]. split; [lra|reflexivity].
  - cbn [seq ofold]. destruct (closed_step m c st stp p OK Cl Ht Hh H0 E) as (s1 & p1 & S1 & S2 & S3 & _ & L & K).
    rewrite S1. cbn [bind]. destruct (IH p1 (S a) S2 ltac:(rewrite S3; exact E) ltac:(rewrite S3; exact HI) s1) as (s2 & p2 & T1 & T2 & T3).
    exists s2, p2. split; [exact T1|]. split; [specialize (L HI); lra|]. intros W. rewrite (T3 W).
    apply K; [|exact HI]. intros k _. apply no_lift. right. exact W.
Qed.

(** Proofs: slopes and reconstructions on meshes. *)
From Coq Require Import Reals List Bool Arith Lra Lia Psatz.
From Verif Require Import Num Outcome ModelSWE ModelShape ModelBasis ModelJac ModelSlope ModelStep ModelGN SpecShape SpecStepper SpecStage LemmasRK LemmasBasis4 LemmasStep ModelGrad SpecGrad LemmasGrad1 LemmasGrad2 LemmasGrad3.
Import ListNotations.
Open Scope R_scope.

Lemma baryctr_eq : forall l, u_baryctr l = mean3 l.
Proof. intros l. unfold mean3, u_baryctr, chi_baryctr. cbn. field. Qed.
Lemma midpt_eq : forall l b, (b < 3)%nat -> u_midpt l b = (l ((b + 1) mod 3)%nat + l ((b + 2) mod 3)%nat) / 2.
Proof. intros l b Hb. unfold u_midpt, chi_midpts. destruct b as [|[|[|b]]]; [| | |lia]; cbn; field. Qed.
Lemma affine_bary : forall k g (n : nodes) l, (forall v, (v < 3)%nat -> l v = affine k g (n v)) -> u_baryctr l = affine k g (bary n).
Proof. intros k g n l H. rewrite baryctr_eq. unfold mean3. rewrite !H by lia. unfold affine, vdot, bary. cbn [fst snd]. field. Qed.
Lemma affine_mid : forall k g (n : nodes) l b, (b < 3)%nat -> (forall v, (v < 3)%nat -> l v = affine k g (n v)) -> u_midpt l b = affine k g (mid_face n b).
Proof. intros k g n l b Hb H. rewrite midpt_eq by exact Hb. rewrite !H by (apply Nat.mod_upper_bound; lia). unfold affine, vdot, mid_face. cbn [fst snd]. field. Qed.
Lemma ls_ext : forall c x x' v v' vn vn' a, (forall b, (b < 3)%nat -> x b = x' b) -> v = v' -> (forall b, (b < 3)%nat -> vn b = vn' b) -> ls_slope c x v vn a = ls_slope c x' v' vn' a.
Proof.
  intros c x x' v v' vn vn' a E -> E'. assert (G : gram c x = gram c x') by (unfold gram, offset; cbn [vmsum]; rewrite !E by lia; reflexivity).
  unfold ls_slope, P_entry. rewrite G. unfold offset. cbn [vmsum]. rewrite !E, !E' by lia. reflexivity.
Qed.

Section Mesh.
  Context (m : mesh) (solve : mat2 -> point -> point) (FO : faces_once m).
  Lemma slope_across : forall lin old e a (o : nat -> option nat), (forall b, (b < 3)%nat -> beyond m e b (o b)) ->
    slope_ls m lin old e a = ls_slope (bary (m_nodes m e)) (fun b => site m e b (o b)) (mean3 (lin e)) (fun b => across lin e b (o b)) a.
  Proof.
    intros lin old e a o B. unfold slope_ls. apply ls_ext.
    - intros b Hb. apply nb_site; [exact FO|exact Hb|exact (B b Hb)].
    - apply baryctr_eq.
    - intros b Hb. rewrite (exchange_ok m _ _ _ _ e b (o b) FO (B b Hb)). destruct (o b) as [e'|]; [apply baryctr_eq|apply midpt_eq; exact Hb].
  Qed.

  Lemma recon_const : forall k s old e x, (e < m_n m)%nat -> (forall e, (e < m_n m)%nat -> s e = x) ->
    (k = ReconInt -> forall b, (b < 3)%nat -> pairs_of m solve e b <> None /\ forall a0 a1 e1 e2, pairs_of m solve e b = Some (a0, a1, e1, e2) -> (e1 < 3)%nat /\ (e2 < 3)%nat) ->
    exists l, reconstruct m solve k s old e = Ok l /\ forall v, (v < 3)%nat -> l v = x.
  Proof.
    intros k s old e x He Hs Hp. unfold reconstruct. set (sn := exchange m s (fun e _ => s e) old e).
    assert (Sn : forall b, (b < 3)%nat -> sn b = x).
    { intros b Hb. destruct (beyond_ex_o m e b FO He Hb) as [o B]. unfold sn. rewrite (exchange_ok m _ _ _ _ e b o FO B). destruct o as [e'|]; apply Hs; [exact (beyond_range m e b e' FO B)|exact He]. }
    destruct k.
    - specialize (Hp eq_refl). unfold recon_int.
      assert (I : forall b, (b < 3)%nat -> int_mid (pairs_of m solve e) (s e) sn b = Ok x).
      { intros b Hb. unfold int_mid. destruct (Hp b Hb) as [N R]. destruct (pairs_of m solve e b) as [[[[a0 a1] e1] e2]|]; [|congruence].
        destruct (R a0 a1 e1 e2 eq_refl) as [R1 R2]. rewrite !Sn by assumption. rewrite (Hs e He). f_equal. ring. }
      rewrite !I by lia. cbn [bind]. eexists. split; [reflexivity|]. intros v Hv. rewrite (mid_to_vrtx_ext _ (fun _ => x)); [apply mid_to_vrtx_const; exact Hv|]. intros b Hb. destruct b as [|[|[|b]]]; reflexivity.
    - eexists. split; [reflexivity|]. intros v Hv. unfold recon_ls. rewrite (mid_to_vrtx_ext _ (fun _ => x)); [apply mid_to_vrtx_const; exact Hv|].
      intros b Hb. cbn [vmsum]. rewrite !Sn by lia. rewrite (Hs e He). ring.
  Qed.
  Lemma try_range : forall c mid nb b perm a0 a1 e1 e2, (b < 3)%nat -> try_pair solve c mid nb b perm = Some (a0, a1, e1, e2) -> (e1 < 3)%nat /\ (e2 < 3)%nat.
  Proof.
    intros c mid nb b perm a0 a1 e1 e2 Hb H. unfold try_pair in H. destruct (_ && _); [|discriminate]. injection H as _ _ E1 E2. subst e1. split; [exact Hb|]. rewrite <- E2. apply (Nat.mod_upper_bound (b + perm + 1) 3). lia.
  Qed.
  Lemma pairs_range : forall e b a0 a1 e1 e2, (b < 3)%nat -> pairs_of m solve e b = Some (a0, a1, e1, e2) -> (e1 < 3)%nat /\ (e2 < 3)%nat.
  Proof.
    intros e b a0 a1 e1 e2 Hb H. unfold pairs_of, pairs_serial, search in H. cbn [negb andb] in H.
    destruct (try_pair solve (centre m e) (mid_of m e) (nb_coord m e) b 0) as [r|] eqn:E0.
    - injection H as ->. exact (try_range _ _ _ _ _ _ _ _ _ Hb E0).
    - destruct (try_pair solve (centre m e) (mid_of m e) (nb_coord m e) b 1) as [r|] eqn:E1; [|discriminate]. injection H as ->. exact (try_range _ _ _ _ _ _ _ _ _ Hb E1).
  Qed.
  (** Every face has its pair, where pairs are used. *)
  Definition paired (k : recon_kind) : Prop := k = ReconInt -> forall e b, (e < m_n m)%nat -> (b < 3)%nat -> pairs_of m solve e b <> None.

  Lemma all_ok : forall f, (forall e, (e < m_n m)%nat -> exists x, f e = Ok x) -> exists F, all_elements m f = Ok F /\ forall e, (e < m_n m)%nat -> f e = Ok (F e).
  Proof.
    intros f H. unfold all_elements.
    assert (I : forall n k F0, (forall e, (k <= e < k + n)%nat -> exists x, f e = Ok x) ->
      exists F, ofold (fun F e => do x <- f e ; Ok (upd F e x)) (seq k n) F0 = Ok F /\ (forall e, (k <= e < k + n)%nat -> f e = Ok (F e)) /\ forall e, (e < k)%nat -> F e = F0 e).
    { clear H. induction n as [|n IH]; intros k F0 H; cbn [seq ofold].
      - exists F0. split; [reflexivity|]. split; [intros; lia|reflexivity].
      - destruct (H k ltac:(lia)) as [x E]. rewrite E. cbn [bind]. destruct (IH (S k) (upd F0 k x)) as (F & EF & EF1 & EF2); [intros; apply H; lia|].
        exists F. split; [exact EF|]. split.
        + intros e He. destruct (Nat.eq_dec e k) as [->|N]; [|apply EF1; lia]. rewrite EF2 by lia. unfold upd. rewrite Nat.eqb_refl. exact E.
        + intros e He. rewrite EF2 by lia. unfold upd. destruct (Nat.eqb_spec e k); [lia|reflexivity]. }
    destruct (I (m_n m) 0%nat (fun _ _ => 0)) as (F & EF & EF1 & _); [intros; apply H; lia|]. exists F. split; [exact EF|]. intros e He. apply EF1. lia.
  Qed.
  Lemma recon_all_const : forall k s old x, paired k -> (forall e, (e < m_n m)%nat -> s e = x) ->
    exists F, all_elements m (reconstruct m solve k s old) = Ok F /\ constant_at m x F.
  Proof.
    intros k s old x P Hs.
    assert (R : forall e, (e < m_n m)%nat -> exists l, reconstruct m solve k s old e = Ok l /\ forall v, (v < 3)%nat -> l v = x).
    { intros e He. apply recon_const; [exact He|exact Hs|]. intros Ek b Hb. split; [exact (P Ek e b He Hb)|]. intros. eapply pairs_range; eassumption. }
    destruct (all_ok (reconstruct m solve k s old)) as (F & EF & H); [intros e He; destruct (R e He) as (l & E & _); exists l; exact E|].
    exists F. split; [exact EF|]. intros e v He Hv. destruct (R e He) as (l & E & L). rewrite (H e He) in E. injection E as ->. apply L. exact Hv.
  Qed.
  Lemma lin_affine : forall k g u, (1 <= m_p m)%nat -> affine_field m k g u -> exists lin, all_elements m (lin_of m u) = Ok lin /\ affine_at m k g lin.
  Proof.
    intros k g u Hp A. assert (R : forall e, (e < m_n m)%nat -> exists l, lin_of m u e = Ok l /\ forall v, (v < 3)%nat -> l v = affine k g (m_nodes m e v)).
    { intros e He. destruct (A e He) as [Z V]. destruct (vertex_values (m_p m) (u e) Hp Z) as (w & E & W0 & W1 & W2). exists w. split; [exact E|].
      intros v Hv. rewrite <- (V v Hv). rewrite vmsum_rsum in W0, W1, W2. destruct v as [|[|[|v]]]; [exact W0|exact W1|exact W2|lia]. }
    destruct (all_ok (lin_of m u)) as (F & EF & H); [intros e He; destruct (R e He) as (l & E & _); exists l; exact E|].
    exists F. split; [exact EF|]. intros e v He Hv. destruct (R e He) as (l & E & L). rewrite (H e He) in E. injection E as ->. apply L. exact Hv.
  Qed.
  Lemma pcomp_cases : forall g a, (a < 2)%nat -> pcomp a g = match a with 0%nat => fst g | _ => snd g end.
  Proof. reflexivity. Qed.
End Mesh.

Section Triangulation.
  Context (m : mesh) (solve : mat2 -> point -> point) (T : triangulation m).
  Let FO := tr_faces m T.
  Lemma slope_best : forall lin old e (o : nat -> option nat), (e < m_n m)%nat -> (forall b, (b < 3)%nat -> beyond m e b (o b)) ->
    best (bary (m_nodes m e)) (fun b => site m e b (o b)) (fun b => across lin e b (o b) - mean3 (lin e)) (slope_ls m lin old e 0, slope_ls m lin old e 1).
  Proof.
    intros lin old e o He B. rewrite !(slope_across m FO lin old e _ o B). apply (ls_best _ _ (mean3 (lin e)) (fun b => across lin e b (o b))). apply site_spread; assumption.
  Qed.
  Lemma slope_exact : forall k g lin old e a, affine_at m k g lin -> (e < m_n m)%nat -> (a < 2)%nat -> slope_ls m lin old e a = pcomp a g.
  Proof.
    intros k g lin old e a A He Ha. destruct (pick_beyond m T e He) as [o B]. rewrite (slope_across m FO lin old e a o B).
    assert (S := site_spread m T e o He B).
    destruct (ls_exact _ _ k g (mean3 (lin e)) (fun b => across lin e b (o b)) S) as [E0 E1].
    - rewrite <- baryctr_eq. apply affine_bary. intros v Hv. apply A; assumption.
    - intros b Hb. pose proof (B b Hb) as Bb. destruct (o b) as [e'|]; cbn [across site].
      + rewrite <- baryctr_eq. apply affine_bary. intros v Hv. apply A; [exact (beyond_range m e b e' FO Bb)|exact Hv].
      + rewrite <- midpt_eq by exact Hb. apply affine_mid; [exact Hb|]. intros v Hv. apply A; assumption.
    - destruct a as [|[|a]]; [exact E0|exact E1|lia].
  Qed.
  Lemma const_affine : forall x lin, constant_at m x lin -> affine_at m x (0, 0) lin.
  Proof. intros x lin H e v He Hv. rewrite (H e v He Hv). unfold affine, vdot. cbn [fst snd]. ring. Qed.
  Lemma derive_ls_affine : forall r jn k g u a, (1 <= m_p m)%nat -> affine_field m k g u -> paired m solve r -> (a < 2)%nat ->
    exists du, derive_ls m solve r jn u a = Ok du /\ constant_at m (pcomp a g) du.
  Proof.
    intros r jn k g u a Hp A P Ha. unfold derive_ls. destruct (lin_affine m k g u Hp A) as (lin & -> & L). cbn [bind].
    apply recon_all_const; [exact FO|exact P|]. intros e He. exact (slope_exact k g lin jn e a L He Ha).
  Qed.
  Lemma derive2_ls_affine : forall r jn k g u a c, (1 <= m_p m)%nat -> affine_field m k g u -> paired m solve r -> (a < 2)%nat -> (c < 2)%nat ->
    exists ddu, derive2_ls m solve r jn u a c = Ok ddu /\ constant_at m 0 ddu.
  Proof.
    intros r jn k g u a c Hp A P Ha Hc. unfold derive2_ls. destruct (derive_ls_affine r jn k g u a Hp A P Ha) as (du & -> & D). cbn [bind].
    apply recon_all_const; [exact FO|exact P|]. intros e He. rewrite (slope_exact _ _ du jn e c (const_affine _ _ D) He Hc). destruct c; reflexivity.
  Qed.
  (** Elementwise constants whose means are affine. *)
  Lemma staircase_ls : forall k g lin old e a, (e < m_n m)%nat -> (forall e, (e < m_n m)%nat -> mean3 (lin e) = affine k g (bary (m_nodes m e))) ->
    (forall b o, (b < 3)%nat -> beyond m e b o -> o <> None) -> (a < 2)%nat -> slope_ls m lin old e a = pcomp a g.
  Proof.
    intros k g lin old e a He A Hi Ha. destruct (pick_beyond m T e He) as [o B]. rewrite (slope_across m FO lin old e a o B).
    destruct (ls_exact _ _ k g (mean3 (lin e)) (fun b => across lin e b (o b)) (site_spread m T e o He B)) as [E0 E1].
    - apply A. exact He.
    - intros b Hb. pose proof (B b Hb) as Bb. pose proof (Hi b (o b) Hb Bb) as N. destruct (o b) as [e'|]; [|congruence]. cbn [across site]. apply A. exact (beyond_range m e b e' FO Bb).
    - destruct a as [|[|a]]; [exact E0|exact E1|lia].
  Qed.
  (** Affine slopes: exact at the midpoints where all faces are interior. *)
  Lemma recon_ls_affine : forall k g s old e, (e < m_n m)%nat -> (forall e, (e < m_n m)%nat -> s e = affine k g (bary (m_nodes m e))) ->
    (forall b o, (b < 3)%nat -> beyond m e b o -> o <> None) ->
    exists l, reconstruct m solve ReconLs s old e = Ok l /\ forall v, (v < 3)%nat -> l v = affine k g (m_nodes m e v).
  Proof.
    intros k g s old e He Hs Hi. unfold reconstruct. eexists. split; [reflexivity|]. intros v Hv. set (sn := exchange m s (fun e _ => s e) old e).
    destruct (pick_beyond m T e He) as [o B].
    assert (E : forall b, (b < 3)%nat -> nb_coord m e b = site m e b (o b) /\ sn b = affine k g (site m e b (o b))).
    { intros b Hb. split; [apply nb_site; [exact FO|exact Hb|exact (B b Hb)]|]. unfold sn. rewrite (exchange_ok m _ _ _ _ e b (o b) FO (B b Hb)).
      pose proof (Hi b (o b) Hb (B b Hb)) as N. pose proof (B b Hb) as Bb. destruct (o b) as [e'|]; [|congruence]. apply Hs. exact (beyond_range m e b e' FO Bb). }
    destruct (ls_exact (centre m e) (nb_coord m e) k g (s e) sn (mesh_spread m T e He)) as [G0 G1]; [apply Hs; exact He|intros b Hb; destruct (E b Hb) as [-> ->]; reflexivity|].
    rewrite <- (vrtx_mid (recon_ls (centre m e) (mid_of m e) (nb_coord m e) (s e) sn) v Hv).
    rewrite <- (vrtx_mid (fun v => affine k g (m_nodes m e v)) v Hv). apply mid_to_vrtx_ext. intros b Hb.
    rewrite recon_ls_mid by exact Hb. rewrite G0, G1, (Hs e He), (affine_mid k g (m_nodes m e) _ b Hb) by reflexivity. rewrite mid_mid by exact Hb. rewrite <- surjective_pairing.
    rewrite centre_bary. unfold affine, vdot, vsub. cbn [fst snd]. ring.
  Qed.
End Triangulation.

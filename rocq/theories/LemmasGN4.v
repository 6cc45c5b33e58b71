(** Proofs: sums over Gauss points as integrals, and the edges seen from the specification. *)
From Coq Require Import Reals List Arith Bool Lia Lra.
From Verif Require Import Num Outcome ModelSWE LemmasSWE ModelShape ModelBasis ModelJac ModelStep ModelIHDG ModelCond SpecShape SpecBasis SpecStepper SpecStep SpecStage
  LemmasRK LemmasStep LemmasStage3 LemmasCond ModelGN SpecGN LemmasGN1 LemmasGN2 LemmasGN3.
Import ListNotations.
Open Scope R_scope.

Lemma swap_sum : forall n N S C P w, (forall j, (j < n)%nat -> S j = rsum N (fun gp => C gp * P j gp)) ->
  rsum n (fun j => S j * w j) = rsum N (fun gp => C gp * rsum n (fun j => w j * P j gp)).
Proof.
  intros n N S C P w H. rewrite (rsum_ext n _ (fun j => rsum N (fun gp => C gp * (w j * P j gp)))).
  - rewrite rsum_swap. apply rsum_ext. intros gp _. apply rsum_scal.
  - intros j Hj. rewrite H by exact Hj. rewrite <- rsum_scal_r. apply rsum_ext. intros. ring.
Qed.

Section Integrals.
  Context (m : mesh).
  Notation n2 := (ndof m).
  Definition good (e : nat) : Prop := orient (m_nodes m e 0%nat) (m_nodes m e 1%nat) (m_nodes m e 2%nat) <> 0.

  Lemma jac_area : forall e, jac m e = tri_area (m_nodes m e) / 2.
  Proof. intros. unfold jac. rewrite area_jdet. field. Qed.
  Lemma dphi_grad : forall e a i gp, good e -> (a < 2)%nat -> dphi m e a i gp = grad m a e (GetDPhi i (z2 m gp)).
  Proof. intros e a i gp H Ha. unfold dphi. rewrite grad_model by exact H. destruct a as [|[|a]]; [reflexivity|reflexivity|lia]. Qed.
  Lemma vol_int_eq : forall e F, vol_int m e F = rsum (ngp2 m) (fun gp => w2 m gp * jac m e * F gp (z2 m gp)).
  Proof.
    intros e F. unfold vol_int. rewrite <- rsum_scal. apply rsum_ext. intros gp _. rewrite jac_area. unfold w2, z2.
    destruct (nth gp (m_rule2 m) (0, (0, 0))) as [w z]. cbn [fst snd]. ring.
  Qed.
  Lemma vol_int_ext : forall e F G, (forall gp z, F gp z = G gp z) -> vol_int m e F = vol_int m e G.
  Proof. intros. rewrite !vol_int_eq. apply rsum_ext. intros. rewrite H. reflexivity. Qed.
  Lemma vol_int_eq2 : forall e F G, (forall gp z, z = z2 m gp -> F gp z = G gp z) -> vol_int m e F = vol_int m e G.
  Proof. intros e F G H. rewrite !vol_int_eq. apply rsum_ext. intros gp _. rewrite (H gp _ eq_refl). reflexivity. Qed.
  Lemma vol_int_plus : forall e F G, vol_int m e (fun gp z => F gp z + G gp z) = vol_int m e F + vol_int m e G.
  Proof. intros. rewrite !vol_int_eq, <- rsum_plus. apply rsum_ext. intros. ring. Qed.
  Lemma vol_int_scal : forall e c F, vol_int m e (fun gp z => c * F gp z) = c * vol_int m e F.
  Proof. intros. rewrite !vol_int_eq, <- rsum_scal. apply rsum_ext. intros. ring. Qed.

  Lemma pp_int : forall e i u w, rsum n2 (fun j => s_pp m e i j u * w j) = vol_int m e (fun gp z => GetPhi i z * (u gp * val m w z)).
  Proof.
    intros. rewrite vol_int_eq. rewrite (swap_sum n2 (ngp2 m) _ (fun gp => u gp * (GetPhi i (z2 m gp) * (w2 m gp * jac m e))) (fun j gp => GetPhi j (z2 m gp))).
    - apply rsum_ext. intros gp _. unfold val. change (dubiner_ndof (m_p m)) with n2. ring.
    - intros j _. unfold s_pp. rewrite vmsum_rsum. apply rsum_ext. intros. ring.
  Qed.
  Lemma pdp_int : forall e i a u w, good e -> (a < 2)%nat ->
    rsum n2 (fun j => s_pdp m e j a i u * w j) = vol_int m e (fun gp z => grad m a e (GetDPhi i z) * (u gp * val m w z)).
  Proof.
    intros e i a u w H Ha. rewrite vol_int_eq. rewrite (swap_sum n2 (ngp2 m) _ (fun gp => u gp * (w2 m gp * dphi m e a i gp * jac m e)) (fun j gp => GetPhi j (z2 m gp))).
    - apply rsum_ext. intros gp _. rewrite dphi_grad by assumption. unfold val. change (dubiner_ndof (m_p m)) with n2. ring.
    - intros j _. unfold s_pdp. rewrite vmsum_rsum. apply rsum_ext. intros. ring.
  Qed.
  Lemma pdp_int2 : forall e i a u w, good e -> (a < 2)%nat ->
    rsum n2 (fun j => s_pdp m e i a j u * w j) = vol_int m e (fun gp z => GetPhi i z * (u gp * dval m a e w z)).
  Proof.
    intros e i a u w H Ha. rewrite vol_int_eq. rewrite (swap_sum n2 (ngp2 m) _ (fun gp => u gp * (GetPhi i (z2 m gp) * (w2 m gp * jac m e))) (fun j gp => dphi m e a j gp)).
    - apply rsum_ext. intros gp _. unfold dval. change (dubiner_ndof (m_p m)) with n2.
      rewrite (rsum_ext n2 (fun j => w j * dphi m e a j gp) (fun j => w j * grad m a e (GetDPhi j (z2 m gp)))) by (intros; rewrite dphi_grad by assumption; reflexivity). ring.
    - intros j _. unfold s_pdp. rewrite vmsum_rsum. apply rsum_ext. intros. ring.
  Qed.
  Lemma phi_int : forall e u i, s_phi m e u i = vol_int m e (fun gp z => GetPhi i z * u gp).
  Proof. intros. rewrite vol_int_eq. unfold s_phi. rewrite vmsum_rsum. apply rsum_ext. intros. ring. Qed.
  Lemma dphi_int : forall e a u i, good e -> (a < 2)%nat -> s_dphi m e a u i = vol_int m e (fun gp z => u gp * grad m a e (GetDPhi i z)).
  Proof. intros. rewrite vol_int_eq. unfold s_dphi. rewrite vmsum_rsum. apply rsum_ext. intros. rewrite dphi_grad by assumption. ring. Qed.

  (** ** Edges *)
  Definition tri3 (s : gside) : nat * nat * bool := (s_e s, s_b s, s_ex s).
  Lemma numbered_nth : forall x, In x (numbered_edges m) <-> nth_error (gedges m) (fst x) = Some (snd x).
  Proof.
    intros [k ed]. cbn [fst snd]. unfold numbered_edges.
    assert (G : forall l a, In (k, ed) (combine (seq a (length l)) l) <-> (a <= k)%nat /\ nth_error l (k - a) = Some ed).
    { induction l as [|y l IH]; intros a; cbn [length seq combine].
      - split; [intros []|]. intros [_ H]. destruct (k - a)%nat; discriminate.
      - cbn [In]. rewrite IH. split.
        + intros [E|[L E]]; [injection E as -> ->; split; [lia|]; rewrite Nat.sub_diag; reflexivity|]. split; [lia|]. replace (k - a)%nat with (S (k - S a)) by lia. exact E.
        + intros [L E]. destruct (Nat.eq_dec k a) as [->|N].
          * left. rewrite Nat.sub_diag in E. cbn in E. injection E as ->. reflexivity.
          * right. split; [lia|]. replace (k - a)%nat with (S (k - S a)) in E by lia. exact E. }
    rewrite G, Nat.sub_0_r. split; [tauto|]. intros E. split; [lia|exact E].
  Qed.
  Lemma edge_cases : forall k ed, nth_error (gedges m) k = Some ed ->
    (exists f, nth_error (m_intfaces m) k = Some f /\ ed = GEdge (match i_kind f with Internal => KInternal | Levee _ => KLevee end) (i_in f, i_bin f)
       [GSide (i_in f) (i_bin f) false (normal m (i_in f) (i_bin f)); GSide (i_ex f) (i_bex f) true (opp (normal m (i_in f) (i_bin f)))]) \/
    (exists b, nth_error (m_intfaces m) k = None /\ nth_error (m_bounds m) (k - length (m_intfaces m)) = Some b /\
       ed = GEdge (match b_bc b with Land => KLand | Exterior _ => KOpen end) (b_elt b, b_id b) [GSide (b_elt b) (b_id b) false (normal m (b_elt b) (b_id b))]).
  Proof.
    intros k ed H. unfold gedges in H. destruct (Nat.lt_ge_cases k (length (m_intfaces m))) as [L|L].
    - rewrite nth_error_app1, nth_error_map in H by (rewrite map_length; exact L).
      destruct (nth_error (m_intfaces m) k) as [f|] eqn:E; [|discriminate]. left. exists f. split; [reflexivity|]. injection H as <-. reflexivity.
    - rewrite nth_error_app2, map_length, nth_error_map in H by (rewrite map_length; exact L).
      destruct (nth_error (m_bounds m) (k - length (m_intfaces m))) as [b|] eqn:E; [|discriminate]. right. exists b. split; [apply nth_error_None; exact L|]. split; [reflexivity|]. injection H as <-. reflexivity.
  Qed.
  Lemma gedges_length : length (gedges m) = n_edges m.
  Proof. unfold gedges, n_edges. rewrite app_length, !map_length. reflexivity. Qed.
  Lemma spec_sides : forall k ed, nth_error (gedges m) k = Some ed -> edge_sides m k = map tri3 (ge_sides ed).
  Proof.
    intros k ed H. unfold edge_sides. destruct (edge_cases k ed H) as [(f & E & ->)|(b & E & Eb & ->)]; rewrite E; [reflexivity|rewrite Eb; reflexivity].
  Qed.
  Lemma spec_len : forall k ed, nth_error (gedges m) k = Some ed -> len m ed = half_len m k.
  Proof.
    intros k ed H. unfold half_len, first_side. rewrite (spec_sides k ed H). unfold len. rewrite half_side_J.
    destruct (edge_cases k ed H) as [(f & E & ->)|(b & E & Eb & ->)]; reflexivity.
  Qed.
  Lemma spec_normal : forall k ed s a, nth_error (gedges m) k = Some ed -> In s (ge_sides ed) -> comp (s_n s) a = out_n m k (tri3 s) a.
  Proof.
    intros k ed s a H Hs. unfold out_n, first_side. rewrite (spec_sides k ed H).
    destruct (edge_cases k ed H) as [(f & E & ->)|(b & E & Eb & ->)]; cbn [ge_sides map tri3 s_e s_b s_ex fst snd] in *.
    - destruct Hs as [<-|[<-|[]]]; cbn [s_ex s_n comp]; [destruct a; reflexivity|]. unfold comp, opp. destruct a; cbn; ring.
    - destruct Hs as [<-|[]]. cbn. destruct a; reflexivity.
  Qed.
  Lemma spec_own : forall s gp, gp_hat m s gp = own m (tri3 s) gp.
  Proof. intros. unfold gp_hat, own, mirror, ngp1. reflexivity. Qed.
  Lemma lsum_numbered : forall (F : nat -> R), lsum (numbered_edges m) (fun x => F (fst x)) = rsum (n_edges m) F.
  Proof. intros F. rewrite <- (lsum_map _ _ fst (numbered_edges m) F), numbered_fst, gedges_length. apply lsum_seq. Qed.
  Lemma at_sides_eq : forall e G, at_sides m e G = lsum (numbered_edges m) (fun x => lsum (ge_sides (snd x)) (fun s => if Nat.eqb (s_e s) e then G (fst x) (tri3 s) else 0)).
  Proof.
    intros e G. unfold at_sides. rewrite <- lsum_numbered. apply lsum_ext. intros x Hx. apply numbered_nth in Hx. rewrite (spec_sides _ _ Hx), lsum_map. reflexivity.
  Qed.

  (** ** Integrals over edges *)
  Lemma rev_own : forall s (F : nat -> R), rsum (ngp1 m) (fun gp => F (own m s gp)) = rsum (ngp1 m) F.
  Proof.
    intros s F. unfold own. destruct (snd s); [|reflexivity]. rewrite <- (rsum_rev (ngp1 m) F). apply rsum_ext. intros gp _. f_equal. unfold ngp1. lia.
  Qed.
  Lemma own_own : forall s gp, (gp < ngp1 m)%nat -> own m s (own m s gp) = gp.
  Proof. intros s gp H. unfold own. destruct (snd s); [|reflexivity]. unfold ngp1 in H. lia. Qed.
  Lemma edge_int_eq : forall k s F, edge_int m k s F = rsum (ngp1 m) (fun gp => w1 m (own m s gp) * half_len m k * F (own m s gp) (at_face (snd (fst s)) (z1 m gp))).
  Proof.
    intros k s F. unfold edge_int. rewrite <- rsum_scal. change (length (m_rule1 m)) with (ngp1 m).
    rewrite <- (rev_own s (fun gp => half_len m k * _)). apply rsum_ext. intros gp Hg. unfold pt. rewrite own_own by exact Hg. unfold wgt, pos, w1, z1. ring.
  Qed.
  Lemma face_int_eq : forall k s F, face_int m k s F = rsum (ngp1 m) (fun gp => w1 m gp * half_len m k * F (at_face (snd (fst s)) (z1 m gp))).
  Proof. intros. unfold face_int. rewrite <- rsum_scal. apply rsum_ext. intros. unfold wgt, pos, w1, z1. ring. Qed.
  Lemma edge_int_ext : forall k s F G, (forall gp z, F gp z = G gp z) -> edge_int m k s F = edge_int m k s G.
  Proof. intros. unfold edge_int. f_equal. apply rsum_ext. intros. rewrite H. reflexivity. Qed.
  Lemma edge_int_plus : forall k s F G, edge_int m k s (fun gp z => F gp z + G gp z) = edge_int m k s F + edge_int m k s G.
  Proof. intros. unfold edge_int. rewrite <- Rmult_plus_distr_l, <- rsum_plus. f_equal. apply rsum_ext. intros. ring. Qed.
  Lemma edge_int_scal : forall k s c F, edge_int m k s (fun gp z => c * F gp z) = c * edge_int m k s F.
  Proof. intros. rewrite !edge_int_eq, <- rsum_scal. apply rsum_ext. intros. ring. Qed.

  Section OneEdge.
    Context (k : nat) (ed : gedge) (s : gside) (H : nth_error (gedges m) k = Some ed) (Hb : (s_b s < 3)%nat).
    Lemma fphi_face : forall i gp, fphi m (s_b s) i gp = GetPhi i (at_face (s_b s) (z1 m gp)).
    Proof. intros. unfold fphi. rewrite on_face_model by exact Hb. reflexivity. Qed.
    Lemma fpp_int : forall i c w, rsum n2 (fun j => s_fpp m ed (s_b s) i j (fun _ => c) * w j) = c * face_int m k (tri3 s) (fun z => GetPhi i z * val m w z).
    Proof.
      intros. rewrite face_int_eq, <- rsum_scal.
      rewrite (swap_sum n2 (ngp1 m) _ (fun gp => c * (fphi m (s_b s) i gp * (w1 m gp * len m ed))) (fun j gp => fphi m (s_b s) j gp)).
      - apply rsum_ext. intros gp _. rewrite fphi_face, (spec_len k ed H). unfold val. change (dubiner_ndof (m_p m)) with n2. cbn [tri3 fst snd].
        rewrite (rsum_ext n2 (fun j => w j * fphi m (s_b s) j gp) (fun j => w j * GetPhi j (at_face (s_b s) (z1 m gp)))) by (intros; rewrite fphi_face; reflexivity). ring.
      - intros j _. unfold s_fpp. rewrite vmsum_rsum. apply rsum_ext. intros. ring.
    Qed.
    Lemma fphi_int : forall U i, s_fphi m ed (s_b s) (fun gp => U gp) i = half_len m k * rsum (ngp1 m) (fun gp => wgt m gp * U gp * GetPhi i (at_face (s_b s) (pos m gp))).
    Proof.
      intros. rewrite <- rsum_scal. unfold s_fphi. rewrite vmsum_rsum. apply rsum_ext. intros gp _. rewrite fphi_face, (spec_len k ed H). unfold wgt, pos, w1, z1. ring.
    Qed.
    Lemma pl_lam_int : forall i U w, rsum (S (m_p m)) (fun j => s_pl m ed s i j (fun gp => U (gp_hat m s gp)) * w j) =
      edge_int m k (tri3 s) (fun gp z => GetPhi i z * (U gp * lam m w (pos m gp))).
    Proof.
      intros. rewrite edge_int_eq.
      rewrite (swap_sum (S (m_p m)) (ngp1 m) _ (fun gp => U (gp_hat m s gp) * (fphi m (s_b s) i gp * (w1 m (gp_hat m s gp) * len m ed))) (fun j gp => legendre_phi j (z1 m (gp_hat m s gp)))).
      - apply rsum_ext. intros gp _. rewrite fphi_face, (spec_len k ed H), spec_own. unfold lam. cbn [tri3 fst snd]. change (pos m (own m (tri3 s) gp)) with (z1 m (own m (tri3 s) gp)). ring.
      - intros j _. unfold s_pl. rewrite vmsum_rsum. apply rsum_ext. intros. ring.
    Qed.
    Lemma pl_phi_int : forall i c w, rsum n2 (fun j => s_pl m ed s j i (fun _ => c) * w j) =
      c * edge_int m k (tri3 s) (fun gp z => legendre_phi i (pos m gp) * val m w z).
    Proof.
      intros. rewrite edge_int_eq, <- rsum_scal.
      rewrite (swap_sum n2 (ngp1 m) _ (fun gp => c * (legendre_phi i (z1 m (gp_hat m s gp)) * (w1 m (gp_hat m s gp) * len m ed))) (fun j gp => fphi m (s_b s) j gp)).
      - apply rsum_ext. intros gp _. rewrite (spec_len k ed H), spec_own. unfold val. change (dubiner_ndof (m_p m)) with n2. cbn [tri3 fst snd]. change (pos m (own m (tri3 s) gp)) with (z1 m (own m (tri3 s) gp)).
        rewrite (rsum_ext n2 (fun j => w j * fphi m (s_b s) j gp) (fun j => w j * GetPhi j (at_face (s_b s) (z1 m gp)))) by (intros; rewrite fphi_face; reflexivity). ring.
      - intros j _. unfold s_pl. rewrite vmsum_rsum. apply rsum_ext. intros. ring.
    Qed.
    Lemma ll_int : forall i c w, rsum (S (m_p m)) (fun j => s_ll m ed i j (fun _ => c) * w j) =
      c * edge_int m k (tri3 s) (fun gp z => legendre_phi i (pos m gp) * lam m w (pos m gp)).
    Proof.
      intros. unfold edge_int. rewrite <- Rmult_assoc, <- rsum_scal.
      rewrite (swap_sum (S (m_p m)) (ngp1 m) _ (fun gp => c * (legendre_phi i (z1 m gp) * (w1 m gp * len m ed))) (fun j gp => legendre_phi j (z1 m gp))).
      - apply rsum_ext. intros gp _. rewrite (spec_len k ed H). unfold lam. change (pos m gp) with (z1 m gp). change (wgt m gp) with (w1 m gp). ring.
      - intros j _. unfold s_ll. rewrite vmsum_rsum. apply rsum_ext. intros. ring.
    Qed.
  End OneEdge.

  (** Means over the sides. *)
  Lemma hat_mean : forall v k ed gp, nth_error (gedges m) k = Some ed -> hat m v ed gp = mean m v k gp.
  Proof.
    intros v k ed gp H. unfold mean. rewrite (spec_sides k ed H).
    destruct (edge_cases k ed H) as [(f & E & ->)|(b & E & Eb & ->)]; unfold hat, lsum, own, mirror, ngp1; cbn [ge_sides map tri3 s_e s_b s_ex fst snd fold_right length INR]; unfold Rdiv; [lra|].
    rewrite Rinv_1. ring.
  Qed.
End Integrals.

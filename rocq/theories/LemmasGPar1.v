(** Distributed Green-Naghdi correction: messages, means and projected derivatives. *)
From Coq Require Import Reals ZArith List Bool Arith Lia Lra Permutation.
From Verif Require Import Num ModelSWE Outcome ModelShape ModelBasis ModelJac ModelStep ModelIHDG SpecComm
  SpecSWE SpecStepper SpecStep SpecIHDG SpecIHDG2
  LemmasSWE LemmasRK LemmasBasis2 LemmasStep LemmasStage LemmasPar2 LemmasPar4 LemmasIHDG4 LemmasIHDG6 LemmasIPar LemmasIPar2 LemmasIPar3 LemmasIPar4 LemmasIPar5
  ModelIPar SpecIPar ModelGN ModelGPar SpecGPar.
Import ListNotations.
Open Scope R_scope.

(** ** Messages *)
Lemma block_nth : forall (f : nat -> nat -> R) K n s gp c l, (gp < n)%nat -> (c < K)%nat ->
  nth_error (flat_map (fun gp => map (fun c => f c gp) (seq 0 K)) (seq s n) ++ l) (K * gp + c) = Some (f c (s + gp)%nat).
Proof.
  intros f K n. induction n as [|n IH]; intros s gp c l H Hc; [lia|]. cbn [seq flat_map]. rewrite <- app_assoc. destruct gp as [|gp].
  - rewrite Nat.mul_0_r, Nat.add_0_l, Nat.add_0_r. rewrite nth_error_app1 by (rewrite map_length, seq_length; exact Hc).
    rewrite nth_error_map, (nth_error_nth' _ 0%nat) by (rewrite seq_length; exact Hc). rewrite seq_nth by exact Hc. reflexivity.
  - rewrite nth_error_app2; rewrite map_length, seq_length; [|nia]. replace (K * S gp + c - K)%nat with (K * gp + c)%nat by nia.
    rewrite IH by lia. f_equal. f_equal. lia.
Qed.
Lemma block_length : forall (f : nat -> nat -> R) K n s, length (flat_map (fun gp => map (fun c => f c gp) (seq 0 K)) (seq s n)) = (K * n)%nat.
Proof. intros f K n. induction n as [|n IH]; intros s; [cbn; lia|]. cbn [seq flat_map]. rewrite app_length, map_length, seq_length, IH. lia. Qed.
Lemma packed_nth : forall m K f l w L gp c, carries w (packed m K f ++ l) L -> (K * ngp1 m <= L)%nat -> (gp < ngp1 m)%nat -> (c < K)%nat ->
  nth (K * (ngp1 m - gp - 1) + c) w 0 = f c (mirror m gp).
Proof.
  intros m K f l w L gp c [LW W] HL Hg Hc. apply nth_error_nth. unfold mirror. set (g' := (ngp1 m - gp - 1)%nat). assert (G : (g' < ngp1 m)%nat) by (unfold g'; lia).
  pose proof (block_nth f K (ngp1 m) 0 g' c l G Hc) as E. rewrite W; [exact E| |].
  - nia.
  - apply nth_error_Some. unfold packed. rewrite E. discriminate.
Qed.
Lemma packed_last : forall m K f x w, carries w (packed m K f ++ [x]) (K * ngp1 m + 1) -> nth (K * ngp1 m) w 0 = x.
Proof.
  intros m K f x w [LW W]. apply nth_error_nth. rewrite W; [|lia|rewrite app_length; unfold packed; rewrite block_length; cbn; lia].
  rewrite nth_error_app2; unfold packed; rewrite block_length; [|lia]. rewrite Nat.sub_diag. reflexivity.
Qed.

(** ** Sums of contributions by key *)
Lemma fold_add : forall (Y : Type) (key : Y -> nat) (c : Y -> nat -> R) l D e dof,
  fold_left (fun D y => upd D (key y) (fun dof => D (key y) dof + c y dof)) l D e dof = D e dof + lsum l (fun y => on e (key y) (c y dof)).
Proof.
  intros Y key c l. induction l as [|y l IH]; intros D e dof; cbn [fold_left]; [unfold lsum; cbn; ring|].
  rewrite IH, lsum_cons. unfold upd, on. destruct (Nat.eqb_spec e (key y)) as [->|]; ring.
Qed.
Lemma fold_add2 : forall (X Y : Type) (g : X -> list Y) (key : Y -> nat) (c : X -> Y -> nat -> R) l D e dof,
  fold_left (fun D x => fold_left (fun D y => upd D (key y) (fun dof => D (key y) dof + c x y dof)) (g x) D) l D e dof =
  D e dof + lsum l (fun x => lsum (g x) (fun y => on e (key y) (c x y dof))).
Proof.
  intros X Y g key c l. induction l as [|x l IH]; intros D e dof; cbn [fold_left]; [unfold lsum; cbn; ring|].
  rewrite IH, lsum_cons, (fold_add Y key (c x)). ring.
Qed.

(** ** Edges *)
Section Edges.
  Context (m : mesh).
  Notation ni := (length (m_intfaces m)).
  Notation nb := (length (m_bounds m)).
  Definition kind_of (f : intface) : gkind := match i_kind f with Internal => KInternal | Levee _ => KLevee end.
  Lemma gedge_int : forall k, (k < ni)%nat -> the_gedge m k = GEdge (kind_of (the_int m k)) (i_in (the_int m k), i_bin (the_int m k))
    [GSide (i_in (the_int m k)) (i_bin (the_int m k)) false (normal m (i_in (the_int m k)) (i_bin (the_int m k)));
     GSide (i_ex (the_int m k)) (i_bex (the_int m k)) true (opp (normal m (i_in (the_int m k)) (i_bin (the_int m k))))].
  Proof.
    intros k H. unfold the_gedge, gedges. rewrite app_nth1 by (rewrite map_length; exact H). unfold the_int.
    erewrite (nth_indep (map _ _)) by (rewrite map_length; exact H).
    rewrite (map_nth (fun f => let n := normal m (i_in f) (i_bin f) in
           GEdge (match i_kind f with Internal => KInternal | Levee _ => KLevee end) (i_in f, i_bin f)
             [GSide (i_in f) (i_bin f) false n; GSide (i_ex f) (i_bex f) true (opp n)]) (m_intfaces m) (Intf 0 0 0 0 Internal) k). reflexivity.
  Qed.
  Lemma gedge_bnd : forall k, (ni <= k < ni + nb)%nat -> the_gedge m k = GEdge (match b_bc (the_bnd m k) with Land => KLand | Exterior _ => KOpen end)
    (b_elt (the_bnd m k), b_id (the_bnd m k)) [GSide (b_elt (the_bnd m k)) (b_id (the_bnd m k)) false (normal m (b_elt (the_bnd m k)) (b_id (the_bnd m k)))].
  Proof.
    intros k H. unfold the_gedge, gedges. rewrite app_nth2; rewrite map_length; [|lia]. unfold the_bnd.
    erewrite (nth_indep (map _ _)) by (rewrite map_length; lia).
    rewrite (map_nth (fun b => GEdge (match b_bc b with Land => KLand | Exterior _ => KOpen end) (b_elt b, b_id b)
                    [GSide (b_elt b) (b_id b) false (normal m (b_elt b) (b_id b))]) (m_bounds m) (Bnd 0 0 Land) (k - ni)). reflexivity.
  Qed.
  Lemma gedges_len : length (gedges m) = (ni + nb)%nat.
  Proof. unfold gedges. rewrite app_length, !map_length. reflexivity. Qed.
  Lemma gedges_list : gedges m = map (the_gedge m) (seq 0 (ni + nb)).
  Proof.
    apply (nth_ext _ _ (GEdge KLand (0, 0)%nat []) (GEdge KLand (0, 0)%nat [])); [rewrite map_length, seq_length; exact gedges_len|].
    intros k H. rewrite gedges_len in H. erewrite (nth_indep (map _ _)) by (rewrite map_length, seq_length; exact H).
    rewrite (map_nth (the_gedge m) (seq 0 (ni + nb)) 0%nat k), seq_nth by exact H. reflexivity.
  Qed.
  Lemma side_pairs : forall k, (k < ni + nb)%nat -> map (fun s => (s_e s, s_b s)) (ge_sides (the_gedge m k)) = sides m k.
  Proof.
    intros k H. destruct (Nat.lt_ge_cases k ni) as [L|G].
    - rewrite gedge_int, side_int by exact L. reflexivity.
    - rewrite gedge_bnd, side_bnd by lia. reflexivity.
  Qed.
End Edges.

Section Div.
  Context (m : mesh) (us : list iunit) (cuts : list nat) (own : nat -> bool).
  Context (Dv : divides m us cuts own) (Cf : conforming m) (Ft : forall ed, In ed cuts -> fits m ed).
  Notation ni := (length (m_intfaces m)).
  Notation nb := (length (m_bounds m)).
  Notation fI k := (the_int m k).

  Section U.
    Context (u : nat) (Hu : (u < length us)%nat).
    Notation un := (the_unit us u).
    Lemma own_edge : forall k s, In k (un_ints un ++ un_bnds un) -> In s (ge_sides (the_gedge m k)) -> In (s_e s) (un_elts un).
    Proof.
      intros k s H I. assert (R : (k < ni + nb)%nat) by (pose proof (u_edge_range m us cuts own Dv u Hu k H) as Q; apply in_seq in Q; lia).
      apply (dv_own _ _ _ _ Dv un k (s_e s, s_b s) (unit_in us u Hu) H). rewrite <- (side_pairs m k R). apply (in_map (fun s => (s_e s, s_b s))) in I. exact I.
    Qed.
    Lemma dcase : forall d, In d (un_dist un) -> (de_edge d < ni)%nat /\ i_in (fI (de_edge d)) <> i_ex (fI (de_edge d)) /\ fits m (de_edge d) /\
      ((de_elt d = i_in (fI (de_edge d)) /\ de_face d = i_bin (fI (de_edge d)) /\ de_ccw d = own (de_edge d)) \/
       (de_elt d = i_ex (fI (de_edge d)) /\ de_face d = i_bex (fI (de_edge d)) /\ de_ccw d = negb (own (de_edge d)))).
    Proof.
      intros d H. destruct (dist_half m us cuts own Dv un d (unit_in us u Hu) H) as (C & I).
      split; [eapply cut_range; eassumption|]. split; [eapply cut_two; eassumption|]. split; [apply Ft; exact C|].
      destruct (half_cases _ _ _ _ I) as [E|E]; [left|right]; rewrite E; cbn [de_elt de_face de_ccw de_edge]; auto.
    Qed.
  End U.
  (** The other half. *)
  Lemma other_half : forall u v d d', (u < length us)%nat -> (v < length us)%nat -> In d (un_dist (the_unit us u)) -> In d' (un_dist (the_unit us v)) ->
    de_edge d = de_edge d' -> u <> v ->
    (de_elt d = i_in (fI (de_edge d)) /\ de_face d = i_bin (fI (de_edge d)) /\ de_elt d' = i_ex (fI (de_edge d)) /\ de_face d' = i_bex (fI (de_edge d))) \/
    (de_elt d = i_ex (fI (de_edge d)) /\ de_face d = i_bex (fI (de_edge d)) /\ de_elt d' = i_in (fI (de_edge d)) /\ de_face d' = i_bin (fI (de_edge d))).
  Proof.
    intros u v d d' Hu Hv H H' E N.
    assert (A : de_elt d <> de_elt d').
    { intros Q. apply N. pose proof (dv_half _ _ _ _ Dv _ d (unit_in us u Hu) H) as O. pose proof (dv_half _ _ _ _ Dv _ d' (unit_in us v Hv) H') as O'.
      rewrite Q in O. pose proof (elts_once m us cuts own Dv) as ND. clear - ND O O' Hu Hv. revert u v Hu Hv O O'.
      induction us as [|x l IH]; intros u v Hu Hv O O'; [cbn in Hu; lia|]. cbn [flat_map] in ND. apply nodup_app in ND as (_ & N2 & N3).
      destruct u as [|u], v as [|v]; [reflexivity| | |].
      - exfalso. apply (N3 (de_elt d') O). apply in_flat_map. exists (the_unit l v). split; [unfold the_unit; apply nth_In; cbn in Hv; lia|exact O'].
      - exfalso. apply (N3 (de_elt d') O'). apply in_flat_map. exists (the_unit l u). split; [unfold the_unit; apply nth_In; cbn in Hu; lia|exact O].
      - f_equal. apply IH; try assumption; cbn in Hu, Hv; lia. }
    destruct (dcase u Hu d H) as (_ & _ & _ & C). destruct (dcase v Hv d' H') as (_ & _ & _ & C'). rewrite <- E in C'.
    destruct C as [(C1 & C2 & _)|(C1 & C2 & _)], C' as [(C3 & C4 & _)|(C3 & C4 & _)]; [exfalso; congruence|left|right|exfalso; congruence]; auto.
  Qed.

  (** Means over a cut. *)
  Lemma mean_cut : forall u v d d' vf K c f own_v w l L, (u < length us)%nat -> (v < length us)%nat -> In d (un_dist (the_unit us u)) -> In d' (un_dist (the_unit us v)) ->
    de_edge d = de_edge d' -> u <> v -> (c < K)%nat -> (K * ngp1 m <= L)%nat ->
    (forall gp, (gp < ngp1 m)%nat -> own_v gp = vf (de_elt d) (de_face d) gp) -> (forall gp, (gp < ngp1 m)%nat -> f c gp = vf (de_elt d') (de_face d') gp) ->
    carries w (packed m K f ++ l) L -> forall gp, (gp < ngp1 m)%nat ->
    averaged m K c own_v w gp = hat m vf (the_gedge m (de_edge d)) (point_of m d gp).
  Proof.
    intros u v d d' vf K c f own_v w l L Hu Hv H H' E N Hc HL O F W gp Hg. unfold averaged.
    rewrite (packed_nth m K f l w L gp c W HL Hg Hc), O, F by (exact Hg || apply mirror_lt; exact Hg).
    destruct (dcase u Hu d H) as (R & T & _ & _). rewrite gedge_int by exact R. unfold hat. cbn [ge_sides s_e s_b]. unfold point_of. fold (the_int m (de_edge d)).
    destruct (other_half u v d d' Hu Hv H H' E N) as [(E1 & E2 & E3 & E4)|(E1 & E2 & E3 & E4)]; rewrite E1, E2, E3, E4.
    - rewrite Nat.eqb_refl. reflexivity.
    - destruct (Nat.eqb_spec (i_ex (fI (de_edge d))) (i_in (fI (de_edge d)))) as [Q|_]; [congruence|].
      change (length (m_rule1 m) - gp - 1)%nat with (mirror m gp). rewrite (mirror_mirror m gp Hg). f_equal. ring.
  Qed.

  (** Contributions of sides, summed over the edges around an own element. *)
  Notation side_i k := (GSide (i_in (fI k)) (i_bin (fI k)) false (normal m (i_in (fI k)) (i_bin (fI k)))).
  Notation side_e k := (GSide (i_ex (fI k)) (i_bex (fI k)) true (opp (normal m (i_in (fI k)) (i_bin (fI k))))).
  Definition side_of (d : dedge) : gside := if (de_elt d =? i_in (fI (de_edge d)))%nat then side_i (de_edge d) else side_e (de_edge d).
  Lemma sum_sides : forall u e (T : nat -> gside -> R), (u < length us)%nat -> In e (un_elts (the_unit us u)) ->
    lsum (seq 0 (ni + nb)) (fun k => lsum (ge_sides (the_gedge m k)) (fun s => on e (s_e s) (T k s))) =
    lsum (un_ints (the_unit us u) ++ un_bnds (the_unit us u)) (fun k => lsum (ge_sides (the_gedge m k)) (fun s => on e (s_e s) (T k s))) +
    lsum (un_dist (the_unit us u)) (fun d => on e (de_elt d) (T (de_edge d) (side_of d))).
  Proof.
    intros u e T Hu He. set (G := fun k => lsum (ge_sides (the_gedge m k)) (fun s => on e (s_e s) (T k s))).
    rewrite seq_app, lsum_app. cbn [Nat.add].
    assert (B : lsum (seq ni nb) G = lsum (un_bnds (the_unit us u)) G).
    { rewrite <- (sum_bnds m us cuts own Dv u Hu e G He).
      - clear. generalize ni as k. induction nb as [|n IH]; intros k; [reflexivity|]. rewrite <- lsum_seq. cbn [seq]. rewrite !lsum_cons, Nat.add_0_r. f_equal.
        rewrite IH. rewrite <- seq_shift, lsum_map, <- lsum_seq. apply lsum_ext. intros x _. f_equal. lia.
      - intros k R Nk. unfold G. rewrite gedge_bnd by exact R. cbn [ge_sides]. rewrite lsum_cons. unfold lsum; cbn [map fold_right s_e]. unfold on. destruct (Nat.eqb_spec e (b_elt (the_bnd m k))) as [Q|_]; [congruence|ring]. }
    rewrite B. rewrite lsum_seq.
    assert (GI : forall k, (k < ni)%nat -> G k = on e (i_in (fI k)) (T k (side_i k)) + on e (i_ex (fI k)) (T k (side_e k))).
    { intros k R. unfold G. rewrite gedge_int by exact R. cbn [ge_sides]. rewrite !lsum_cons. unfold lsum; cbn [map fold_right s_e]. ring. }
    rewrite (rsum_ext ni G _ GI).
    pose proof (sum_ints m us cuts own Dv Cf u Hu e (fun k => T k (side_i k)) (fun k => T k (side_e k)) He) as Q. cbv zeta in Q. rewrite Q.
    rewrite (lsum_app _ (un_ints (the_unit us u))). rewrite (lsum_ext _ (un_ints (the_unit us u)) G _ (fun k Hk => GI k (u_Ri m us cuts own Dv u Hu k Hk))).
    rewrite (lsum_ext _ (un_dist (the_unit us u)) (fun d => on e (de_elt d) (T (de_edge d) (side_of d))) (fun d => on e (de_elt d) (pick m (fun k => T k (side_i k)) (fun k => T k (side_e k)) d))); [ring|].
    intros d _. f_equal. unfold pick, side_of. destruct (_ =? _)%nat; reflexivity.
  Qed.

  (** ** Projected derivatives *)
  Section P.
    Context (v vu : nat -> nat -> R) (vf vfu : nat -> nat -> nat -> R) (hd : dedge -> nat -> R) (a u : nat) (Hu : (u < length us)%nat).
    Notation un := (the_unit us u).
    Context (Ev : forall e gp, In e (un_elts un) -> (gp < ngp2 m)%nat -> vu e gp = v e gp).
    Context (Ef : forall e b gp, In e (un_elts un) -> (gp < ngp1 m)%nat -> vfu e b gp = vf e b gp).
    Context (Ed : forall d gp, In d (un_dist un) -> (gp < ngp1 m)%nat -> hd d gp = hat m vf (the_gedge m (de_edge d)) (point_of m d gp)).
    Definition part (w : nat -> nat -> nat -> R) (dof k : nat) (s : gside) : R :=
      s_fphi m (the_gedge m k) (s_b s) (fun gp => hat m w (the_gedge m k) (gp_hat m s gp) * comp (s_n s) a) dof.
    Lemma gp_hat_lt : forall s gp, (gp < ngp1 m)%nat -> (gp_hat m s gp < ngp1 m)%nat.
    Proof. intros s gp H. unfold gp_hat. destruct (s_ex s); [apply mirror_lt; exact H|exact H]. Qed.
    Lemma hat_own : forall k gp, In k (un_ints un ++ un_bnds un) -> (gp < ngp1 m)%nat -> hat m vfu (the_gedge m k) gp = hat m vf (the_gedge m k) gp.
    Proof.
      intros k gp H Hg. pose proof (fun s => own_edge u Hu k s H) as O. unfold hat. destruct (ge_sides (the_gedge m k)) as [|s [|t [|? ?]]]; try reflexivity.
      - apply Ef; [apply O; left; reflexivity|exact Hg].
      - rewrite !Ef; [reflexivity| | | |]; try (apply O; cbn; auto); [apply mirror_lt; exact Hg|exact Hg].
    Qed.
    Lemma part_own : forall dof k s, In k (un_ints un ++ un_bnds un) -> part vfu dof k s = part vf dof k s.
    Proof.
      intros dof k s H. unfold part, s_fphi. rewrite !vmsum_rsum. apply rsum_ext. intros gp Hg. rewrite hat_own; [reflexivity|exact H|apply gp_hat_lt; exact Hg].
    Qed.
    Lemma sum_parts : forall e dof, In e (un_elts un) ->
      lsum (gedges m) (fun ed => lsum (ge_sides ed) (fun s => on e (s_e s) (s_fphi m ed (s_b s) (fun gp => hat m vf ed (gp_hat m s gp) * comp (s_n s) a) dof))) =
      lsum (un_ints un ++ un_bnds un) (fun k => lsum (ge_sides (the_gedge m k)) (fun s => on e (s_e s) (part vf dof k s))) +
      lsum (un_dist un) (fun d => on e (de_elt d) (part vf dof (de_edge d) (side_of d))).
    Proof. intros e dof He. rewrite gedges_list, lsum_map. exact (sum_sides u e (part vf dof) Hu He). Qed.
    Lemma comp_opp : forall n, comp (opp n) a = - comp n a.
    Proof. intros n. unfold comp, opp. destruct a; reflexivity. Qed.
    Lemma half_part : forall dof d, In d (un_dist un) ->
      s_fphi m (d_edge m d) (de_face d) (fun gp => hd d gp * comp (s_n (d_side m d)) a) dof =
      part vf dof (de_edge d) (side_of d).
    Proof.
      intros dof d H. destruct (dcase u Hu d H) as (R & T & FT & C). unfold side_of, part, s_fphi.
      destruct C as [(E1 & E2 & _)|(E1 & E2 & _)].
      - rewrite E1, Nat.eqb_refl, !vmsum_rsum. apply rsum_ext. intros gp Hg. rewrite Ed by assumption. unfold point_of. fold (the_int m (de_edge d)). rewrite E1, Nat.eqb_refl.
        cbn [d_side s_n s_b s_ex gp_hat]. rewrite E1, E2. unfold len at 2. rewrite gedge_int by exact R. unfold d_edge, len. cbn [ge_len fst snd]. rewrite E1, E2. reflexivity.
      - rewrite E1. destruct (Nat.eqb_spec (i_ex (fI (de_edge d))) (i_in (fI (de_edge d)))) as [Q|_]; [congruence|]. rewrite !vmsum_rsum. apply rsum_ext. intros gp Hg. rewrite Ed by assumption.
        unfold point_of. fold (the_int m (de_edge d)). rewrite E1. destruct (Nat.eqb_spec (i_ex (fI (de_edge d))) (i_in (fI (de_edge d)))) as [Q|_]; [congruence|].
        cbn [d_side s_n s_b s_ex gp_hat]. rewrite E1, E2, (n_ex m (de_edge d) FT). change (length (m_rule1 m) - gp - 1)%nat with (mirror m gp). unfold gp_hat. cbn [s_ex].
        f_equal. f_equal. f_equal. unfold len. rewrite gedge_int by exact R. unfold d_edge. cbn [ge_len fst snd]. rewrite E1, E2. exact (J_ex m (de_edge d) FT).
    Qed.
    Theorem project_same : forall e dof, In e (un_elts un) -> unit_project m un vu vfu hd a e dof = project m v vf a e dof.
    Proof.
      intros e dof He. unfold unit_project, project. rewrite !vmsum_rsum. apply rsum_ext. intros i Hi. f_equal.
      unfold unit_proj_rhs, proj_rhs, d_proj, proj_side.
      rewrite (fold_add dedge de_elt (fun d => s_fphi m (d_edge m d) (de_face d) (fun gp => hd d gp * comp (s_n (d_side m d)) a))).
      rewrite !(fold_add2 gedge gside ge_sides s_e (fun ed s => s_fphi m ed (s_b s) (fun gp => hat m _ ed (gp_hat m s gp) * comp (s_n s) a))).
      rewrite sum_parts by exact He. rewrite <- Rplus_assoc. f_equal; [f_equal|].
      - f_equal. unfold s_dphi. rewrite !vmsum_rsum. apply rsum_ext. intros gp Hg. rewrite Ev by assumption. reflexivity.
      - unfold unit_edges. rewrite lsum_map. apply lsum_ext. intros k Hk. apply lsum_ext. intros s Hs. f_equal. apply (part_own i k s Hk).
      - apply lsum_ext. intros d Hd. f_equal. apply half_part. exact Hd.
    Qed.
  End P.
End Div.

(** Distributed implicit HDG: the data the units start from. *)
From Coq Require Import Reals ZArith List Bool Arith Lia Lra Permutation FunctionalExtensionality.
From Verif Require Import Num ModelSWE Outcome ModelShape ModelBasis ModelJac ModelStep ModelIHDG SpecComm
  SpecSWE SpecStepper SpecStep SpecIHDG SpecIHDG2
  LemmasSWE LemmasRK LemmasStep LemmasStage LemmasPar2 LemmasPar3 LemmasIHDG4 LemmasIHDG6 LemmasIPar2 LemmasIPar3 LemmasIPar4 LemmasIPar5
  ModelIPar SpecIPar.
Import ListNotations.
Open Scope R_scope.

Lemma nth_triples : forall (f g h : nat -> R) n s l k, (k < n)%nat ->
  nth (3 * k) (flat_map (fun x => [f x; g x; h x]) (seq s n) ++ l) 0 = f (s + k)%nat /\
  nth (3 * k + 1) (flat_map (fun x => [f x; g x; h x]) (seq s n) ++ l) 0 = g (s + k)%nat /\
  nth (3 * k + 2) (flat_map (fun x => [f x; g x; h x]) (seq s n) ++ l) 0 = h (s + k)%nat.
Proof.
  intros f g h n. induction n as [|n IH]; intros s l k Hk; [lia|]. cbn [seq flat_map]. destruct k as [|k].
  - cbn. rewrite Nat.add_0_r. repeat split.
  - destruct (IH (S s) l k ltac:(lia)) as (A & B & C). replace (3 * S k)%nat with (S (S (S (3 * k)))) by lia. cbn [app nth].
    replace (s + S k)%nat with (S s + k)%nat by lia. cbn [Nat.add nth] in *. repeat split; assumption.
Qed.
Lemma length_triples : forall (f g h : nat -> R) n s, length (flat_map (fun x => [f x; g x; h x]) (seq s n)) = (3 * n)%nat.
Proof. intros f g h n. induction n as [|n IH]; intros s; [reflexivity|]. cbn [seq flat_map app length]. rewrite IH. lia. Qed.

Section St.
  Context (m : mesh).
  Notation n1 := (ngp1 m).
  Lemma reversed_at : forall (A : Type) (z : A) f gp, (gp < n1)%nat -> reversed m z f gp = f (mirror m gp).
  Proof.
    intros A z f gp H. unfold reversed. set (N := n1) in *.
    assert (K : forall k b x, (k <= N)%nat -> (x < N)%nat -> fold_left (fun b y => upd b (N - y - 1)%nat (f y)) (seq 0 k) b x = if (N - x - 1 <? k)%nat then f (N - x - 1)%nat else b x).
    { induction k as [|k IH]; intros b x Hk Hx; [reflexivity|]. rewrite seq_S, fold_left_app. cbn [fold_left Nat.add].
      unfold upd at 1. destruct (Nat.eqb_spec x (N - k - 1)) as [->|Nx].
      - replace (N - (N - k - 1) - 1)%nat with k by lia. destruct (Nat.ltb_spec k (S k)); [reflexivity|lia].
      - rewrite IH by lia. destruct (Nat.ltb_spec (N - x - 1) k), (Nat.ltb_spec (N - x - 1) (S k)); try reflexivity; lia. }
    rewrite K by (exact H || lia). unfold mirror. fold N. destruct (Nat.ltb_spec (N - gp - 1) N); [reflexivity|lia].
  Qed.
  Section W.
    Context (q : nat -> coeffs) (first : R) (d : dedge) (w : list R) (Cw : carries w (init_message m q first d) (1 + 4 * n1)%nat).
    Lemma msg_length : length (init_message m q first d) = (4 * n1 + (if de_ccw d then 1 else 0))%nat.
    Proof. unfold init_message. rewrite !app_length, length_triples, map_length, seq_length. destruct (de_ccw d); cbn [length]; lia. Qed.
    Lemma w_q : forall gp, (gp < n1)%nat -> q_received m w gp = u_face m q (de_elt d) (de_face d) (mirror m gp).
    Proof.
      intros gp H. unfold q_received. rewrite reversed_at by exact H. pose proof (LemmasIHDG6.mirror_lt m gp H) as L.
      pose proof msg_length as ML.
      rewrite !(carries_nth w _ _ _ Cw) by (rewrite ?ML; lia). unfold init_message.
      destruct (nth_triples (fun gp => ze (u_face m q (de_elt d) (de_face d) gp)) (fun gp => qx (u_face m q (de_elt d) (de_face d) gp)) (fun gp => qy (u_face m q (de_elt d) (de_face d) gp)) n1 0
        (map (fun gp => bath (m_faux m (de_elt d) (de_face d) gp)) (seq 0 n1) ++ (if de_ccw d then [first] else [])) (mirror m gp) L) as (A & B & C).
      cbv zeta. rewrite A, B, C. cbn [Nat.add]. destruct (u_face m q (de_elt d) (de_face d) (mirror m gp)); reflexivity.
    Qed.
    Lemma w_bath : forall gp, (gp < n1)%nat -> bath_received m w gp = bath (m_faux m (de_elt d) (de_face d) (mirror m gp)).
    Proof.
      intros gp H. unfold bath_received. rewrite reversed_at by exact H. pose proof (LemmasIHDG6.mirror_lt m gp H) as L.
      pose proof msg_length as ML.
      rewrite (carries_nth w _ _ _ Cw) by (rewrite ?ML; lia). unfold init_message. cbv zeta. rewrite app_nth2; rewrite length_triples; [|lia].
      replace (3 * n1 + mirror m gp - 3 * n1)%nat with (mirror m gp) by lia. rewrite app_nth1 by (rewrite map_length, seq_length; exact L).
      rewrite (nth_indep _ 0 (bath (m_faux m (de_elt d) (de_face d) 0%nat))) by (rewrite map_length, seq_length; exact L).
      rewrite (map_nth (fun gp => bath (m_faux m (de_elt d) (de_face d) gp))), seq_nth by exact L. reflexivity.
    Qed.
    Lemma w_first : de_ccw d = true -> first_received w = first.
    Proof.
      intros E. unfold first_received. pose proof msg_length as ML. rewrite E in ML. rewrite (proj1 Cw). replace (1 + 4 * n1 - 1)%nat with (4 * n1)%nat by lia.
      rewrite (carries_nth w _ _ _ Cw) by (rewrite ?ML; lia). unfold init_message. rewrite E. cbv zeta. rewrite app_nth2; rewrite length_triples; [|lia].
      rewrite app_nth2; rewrite map_length, seq_length; [|lia]. replace (4 * n1 - 3 * n1 - n1)%nat with 0%nat by lia. reflexivity.
    Qed.
  End W.

  Lemma leg_diag : forall (s : nat -> R) k (F : nat -> R) j J, vmsum k (fun i => s i * F i * (legendre_minv i j / J)) = s j * vmsum k (fun i => F i * (legendre_minv i j / J)).
  Proof.
    intros s k F j J. rewrite !vmsum_rsum, <- rsum_scal. apply rsum_ext. intros i _. unfold legendre_minv. destruct (Nat.eqb_spec i j) as [->|_]; [ring|]. unfold Rdiv. ring.
  Qed.
  Lemma vadd_comm : forall x y : vec3 R, vadd x y = vadd y x.
  Proof. intros [a b c] [a' b' c']. unfold vadd. cbn. f_equal; apply Rplus_comm. Qed.

  Context (own : nat -> bool) (ed : nat) (Sw : symmetric_weights m) (Sp : symmetric_points m) (Ft : fits m ed).
  Notation f := (the_int m ed).
  Notation dI := (DEdge ed (i_in (the_int m ed)) (i_bin (the_int m ed)) (own ed)).
  Notation dE := (DEdge ed (i_ex (the_int m ed)) (i_bex (the_int m ed)) (negb (own ed))).
  Context (q qu qv : nat -> coeffs) (Ei : forall a i, (a < 3)%nat -> (i < ndof m)%nat -> qu (i_in f) a i = q (i_in f) a i)
    (Ee : forall a i, (a < 3)%nat -> (i < ndof m)%nat -> qv (i_ex f) a i = q (i_ex f) a i).
  Lemma fI_same : forall gp, u_face m qu (i_in f) (i_bin f) gp = u_face m q (i_in f) (i_bin f) gp.
  Proof. intros gp. unfold u_face. apply expand_same. exact Ei. Qed.
  Lemma fE_same : forall gp, u_face m qv (i_ex f) (i_bex f) gp = u_face m q (i_ex f) (i_bex f) gp.
  Proof. intros gp. unfold u_face. apply expand_same. exact Ee. Qed.
  Lemma start_in : forall w first, carries w (init_message m qv first dE) (1 + 4 * n1)%nat ->
    (forall gp, (gp < n1)%nat -> bath (init_aux m w dI gp) = bath (int_aux m ed gp)) /\
    (forall a j, (a < 3)%nat -> init_trace m qu w dI a j = flip own ed j * int_trace m q ed a j).
  Proof.
    intros w first Cw. split.
    - intros gp H. unfold init_aux, int_aux. cbv zeta. cbn [bath]. rewrite (w_bath _ _ _ _ Cw gp H). reflexivity.
    - intros a j Ha. unfold init_trace, dist_projection, int_trace. cbv zeta. rewrite <- leg_diag. rewrite !vmsum_rsum. apply rsum_ext. intros i Hi. cbn [de_elt de_face]. f_equal.
      rewrite int_lam_in by exact Sp. f_equal. apply edge_lambda_ext. intros gp Hg. f_equal. f_equal; [apply fI_same|].
      rewrite (w_q _ _ _ _ Cw gp Hg). cbn [de_elt de_face]. apply fE_same.
  Qed.
  Lemma start_ex : forall w first, carries w (init_message m qu first dI) (1 + 4 * n1)%nat ->
    (forall gp, (gp < n1)%nat -> bath (init_aux m w dE gp) = bath (int_aux m ed (mirror m gp))) /\
    (forall a j, (a < 3)%nat -> init_trace m qv w dE a j = flip own ed j * int_trace m q ed a j).
  Proof.
    intros w first Cw. split.
    - intros gp H. unfold init_aux, int_aux. cbv zeta. cbn [bath]. rewrite (w_bath _ _ _ _ Cw gp H). cbn [de_elt de_face]. rewrite mirror_mirror by exact H. f_equal. apply Rplus_comm.
    - intros a j Ha. unfold init_trace, dist_projection, int_trace. cbv zeta. rewrite <- leg_diag. rewrite !vmsum_rsum. apply rsum_ext. intros i Hi. cbn [de_elt de_face].
      rewrite (J_ex m ed Ft). f_equal.
      rewrite int_lam_ex by (exact Sp || exact Sw || exact Ft). f_equal. apply edge_lambda_ext. intros gp Hg. f_equal. rewrite vadd_comm. f_equal; [|apply fE_same].
      rewrite (w_q _ _ _ _ Cw _ (LemmasIHDG6.mirror_lt m gp Hg)). cbn [de_elt de_face]. rewrite mirror_mirror by exact Hg. apply fI_same.
  Qed.
End St.

Lemma flags : forall here there ed e b e' b', here <> there -> exists o,
  create_edge_distributed here there ed e b = Ok (DEdge ed e b o) /\ create_edge_distributed there here ed e' b' = Ok (DEdge ed e' b' (negb o)).
Proof.
  intros (r, s) (r', s') ed e b e' b' N. unfold create_edge_distributed, first_side. cbn [fst snd].
  destruct (Nat.ltb_spec r r'), (Nat.ltb_spec r' r), (Nat.eqb_spec r r'), (Nat.eqb_spec r' r), (Nat.ltb_spec s s'), (Nat.ltb_spec s' s); cbn [orb andb]; try lia;
    try (exists true; split; reflexivity); try (exists false; split; reflexivity).
  all: exfalso; apply N; f_equal; lia.
Qed.
Lemma flags_lower : forall here there ed e b, (fst here < fst there \/ fst here = fst there /\ snd here < snd there)%nat ->
  create_edge_distributed here there ed e b = Ok (DEdge ed e b true) /\ create_edge_distributed there here ed e b = Ok (DEdge ed e b false).
Proof.
  intros (r, s) (r', s') ed e b N. unfold create_edge_distributed, first_side. cbn [fst snd] in *.
  destruct (Nat.ltb_spec r r'), (Nat.ltb_spec r' r), (Nat.eqb_spec r r'), (Nat.eqb_spec r' r), (Nat.ltb_spec s s'), (Nat.ltb_spec s' s); cbn [orb andb]; try lia; split; reflexivity.
Qed.
Lemma flags_same : forall here ed e b, create_edge_distributed here here ed e b = UB.
Proof. intros (r, s) ed e b. unfold create_edge_distributed, first_side. cbn [fst snd]. rewrite !Nat.ltb_irrefl, Nat.eqb_refl. reflexivity. Qed.

Section Units.
  Context (m : mesh) (us : list iunit) (cuts : list nat) (own : nat -> bool).
  Context (Dv : divides m us cuts own) (Cf : conforming m) (Sw : symmetric_weights m) (Sp : symmetric_points m) (Ft : forall ed, In ed cuts -> fits m ed).
  Context (q : nat -> coeffs) (qs : nat -> nat -> coeffs) (Hq : elts_shared m us q qs).
  Context (eaux : nat -> nat -> aux3 R) (qh : nat -> coeffs) (eauxs : nat -> nat -> nat -> aux3 R) (qhs : nat -> nat -> coeffs).
  Theorem started_shared : started m us cuts q qs eaux qh eauxs qhs -> baths_shared m us eaux eauxs /\ traces_shared m us own qh qhs.
  Proof.
    intros (A & B & C).
    assert (K : forall u d, (u < length us)%nat -> In d (un_dist (the_unit us u)) ->
      (forall gp, (gp < ngp1 m)%nat -> bath (eauxs u (de_edge d) gp) = bath (eaux (de_edge d) (if (de_elt d =? i_in (the_int m (de_edge d)))%nat then gp else mirror m gp))) /\
      (forall a j, (a < 3)%nat -> qhs u (de_edge d) a j = flip own (de_edge d) j * qh (de_edge d) a j)).
    { intros u d Hu Hd. destruct (C u d Hu Hd) as (v & d' & first & w & Hv & Hd' & E & N & Cw & Ea & Eq).
      pose proof (d_cut m us cuts own Dv u Hu d Hd) as Hc. destruct (A _ Hc) as (Sa & Sq). pose proof (Ft _ Hc) as F.
      assert (T : i_in (the_int m (de_edge d)) <> i_ex (the_int m (de_edge d))) by (exact (cut_two m us cuts own Dv Cf _ Hc)).
      assert (NE : d <> d').
      { intros <-. apply N. exact (flat_index _ _ un_dist (IUnit [] [] [] []) us u v d (dist_all_once m us cuts own Dv Cf) Hu Hv Hd Hd'). }
      pose proof (d_elt m us cuts own Dv u Hu d Hd) as O. pose proof (d_elt m us cuts own Dv v Hv d' Hd') as O'.
      pose proof (d_cases m us cuts own Dv u Hu d Hd) as I. pose proof (d_cases m us cuts own Dv v Hv d' Hd') as I'. unfold is_in, is_ex in I, I'. rewrite <- E in I'.
      assert (Q : forall x y, (x < 3)%nat -> (y < ndof m)%nat -> qs u (de_elt d) x y = q (de_elt d) x y) by (intros x y Hx Hy; apply Hq; assumption).
      assert (Q' : forall x y, (x < 3)%nat -> (y < ndof m)%nat -> qs v (de_elt d') x y = q (de_elt d') x y) by (intros x y Hx Hy; apply Hq; assumption).
      destruct I as [I|I], I' as [I'|I']; [exfalso; apply NE; congruence| | |exfalso; apply NE; congruence].
      - remember (de_edge d) as ed eqn:Hed. clear E Hed. subst d d'. cbn [de_elt] in *.
        destruct (start_in m own ed Sp q (qs u) (qs v) Q Q' w first Cw) as (S1 & S2). split.
        + intros gp Hg. rewrite Nat.eqb_refl, Ea, Sa by exact Hg. exact (S1 gp Hg).
        + intros a j Ha. rewrite Eq, Sq by exact Ha. exact (S2 a j Ha).
      - remember (de_edge d) as ed eqn:Hed. clear E Hed. subst d d'. cbn [de_elt] in *.
        destruct (start_ex m own ed Sw Sp F q (qs v) (qs u) Q' Q w first Cw) as (S1 & S2). split.
        + intros gp Hg. destruct (Nat.eqb_spec (i_ex (the_int m ed)) (i_in (the_int m ed))) as [X|_]; [congruence|]. rewrite Ea by exact Hg. rewrite (S1 gp Hg). f_equal. symmetry. apply Sa. apply LemmasIHDG6.mirror_lt. exact Hg.
        + intros a j Ha. rewrite Eq, Sq by exact Ha. exact (S2 a j Ha). }
    split.
    - split; [intros u ed gp Hu He Hg; apply (B u ed Hu He); exact Hg|]. intros u d gp Hu Hd Hg. exact (proj1 (K u d Hu Hd) gp Hg).
    - split; [intros u ed a j Hu He Ha Hj; apply (B u ed Hu He); [exact Ha|exact Hj]|]. intros u d a j Hu Hd Ha Hj. exact (proj2 (K u d Hu Hd) a j Ha).
  Qed.
End Units.

(** Distributed Green-Naghdi correction: the units solve the serial equations. *)
From Coq Require Import Reals ZArith List Bool Arith Lia Lra Permutation.
From Verif Require Import Num ModelSWE Outcome ModelShape ModelBasis ModelJac ModelStep ModelIHDG SpecComm
  SpecSWE SpecStepper SpecStep SpecStage SpecIHDG SpecIHDG2
  LemmasSWE LemmasRK LemmasBasis2 LemmasStep LemmasStage LemmasPar2 LemmasPar4 LemmasIHDG4 LemmasIHDG6 LemmasIPar LemmasIPar2 LemmasIPar3 LemmasIPar4 LemmasIPar5
  LemmasGN3 ModelIPar SpecIPar ModelGN ModelGPar SpecGPar LemmasGPar1 LemmasGPar2 LemmasGPar4 LemmasGPar5.
Import ListNotations.
Open Scope R_scope.

Section Sys.
  Context (m : mesh) (us : list iunit) (cuts : list nat) (own : nat -> bool).
  Context (Dv : divides m us cuts own) (Cf : conforming m) (Ft : forall ed, In ed cuts -> fits m ed).
  Context (wet : nat -> bool) (wets : nat -> nat -> bool) (Hw : wets_shared us wet wets).
  Context (s : dcsys) (ss : nat -> dcsys) (Bs : blocks_shared m us own wet s ss).
  Context (x y z : nat -> nat -> R) (xs ys zs : nat -> nat -> nat -> R).
  Context (Hx : field_shared us (2 * ndof m) x xs) (Hy : field_shared us (ndof m) y ys) (Hz : gtraces_shared m us own z zs).
  Notation ni := (length (m_intfaces m)).
  Notation nb := (length (m_bounds m)).
  Notation fI k := (the_int m k).
  Notation UN u := (the_unit us u).
  Notation nh := (2 * S (m_p m))%nat.

  Lemma edge_lt : forall u k, (u < length us)%nat -> In k (un_ints (UN u) ++ un_bnds (UN u)) -> (k < ni + nb)%nat.
  Proof. intros u k Hu H. pose proof (u_edge_range m us cuts own Dv u Hu k H) as Q. apply in_seq in Q. lia. Qed.
  Lemma split_sides : forall u e (F Fu : nat -> nat -> R), (u < length us)%nat -> In e (un_elts (UN u)) ->
    (forall k b, In k (un_ints (UN u) ++ un_bnds (UN u)) -> In (e, b) (sides m k) -> Fu k b = F k b) ->
    (forall d, In d (un_dist (UN u)) -> de_elt d = e -> Fu (de_edge d) (de_face d) = F (de_edge d) (de_face d)) ->
    on_sides m (un_ints (UN u) ++ un_bnds (UN u)) e Fu + on_halves (UN u) e Fu = on_sides m (seq 0 (ni + nb)) e F.
  Proof.
    intros u e F Fu Hu He A B.
    transitivity (lsum (seq 0 (ni + nb)) (fun k => lsum (ge_sides (the_gedge m k)) (fun t => on e (s_e t) (F k (s_b t))))).
    - rewrite (sum_sides m us cuts own Dv Cf u e (fun k t => F k (s_b t)) Hu He). unfold on_sides, on_halves. f_equal.
      + apply lsum_ext. intros k Hk. rewrite <- (side_pairs m k (edge_lt u k Hu Hk)), lsum_map. apply lsum_ext. intros t Ht. cbn [fst snd]. unfold on. rewrite (Nat.eqb_sym e).
        destruct (Nat.eqb_spec (s_e t) e) as [E|_]; [|reflexivity]. apply A; [exact Hk|]. rewrite <- (side_pairs m k (edge_lt u k Hu Hk)), <- E. apply (in_map (fun t => (s_e t, s_b t))). exact Ht.
      + apply lsum_ext. intros d Hd. unfold on. rewrite (Nat.eqb_sym e). destruct (Nat.eqb_spec (de_elt d) e) as [E|_]; [|reflexivity].
        rewrite (sd_b m us cuts own Dv Cf Ft u Hu d Hd). apply B; assumption.
    - unfold on_sides. apply lsum_ext. intros k Hk. apply in_seq in Hk. rewrite <- (side_pairs m k) by lia. rewrite lsum_map. apply lsum_ext. intros t _. cbn [fst snd]. unfold on. rewrite (Nat.eqb_sym e). reflexivity.
  Qed.
  Lemma flips : forall k j a b, flip own k j * a * (flip own k j * b) = a * b.
  Proof. intros k j a b. pose proof (flip_sq own k j) as F. transitivity (flip own k j * flip own k j * (a * b)); [ring|rewrite F; ring]. Qed.

  Lemma row_1 : forall u e r, (u < length us)%nat -> In e (un_elts (UN u)) -> wet e = true ->
    inner_1 m (ss u) (xs u) (ys u) e r + on_sides m (un_ints (UN u) ++ un_bnds (UN u)) e (fun k b => face_1 m (ss u) (zs u) k e b r) +
    on_halves (UN u) e (fun k b => face_1 m (ss u) (zs u) k e b r) =
    inner_1 m s x y e r + on_sides m (seq 0 (ni + nb)) e (fun k b => face_1 m s z k e b r).
  Proof.
    intros u e r Hu He W. rewrite Rplus_assoc. rewrite (split_sides u e (fun k b => face_1 m s z k e b r) _ Hu He).
    - f_equal. unfold inner_1. destruct (bs_elt _ _ _ _ _ _ Bs u e Hu He) as (E1 & E2 & _ & _ & E5). rewrite E5. f_equal. f_equal; apply rsum_ext; intros c Hc.
      + rewrite E1, (Hx u e c Hu He Hc). reflexivity.
      + rewrite E2, (Hy u e c Hu He Hc). reflexivity.
    - intros k b Hk Hs. unfold face_1. apply rsum_ext. intros c Hc. destruct (bs_side _ _ _ _ _ _ Bs u k e b r c Hu Hk Hs W) as (-> & _). rewrite (proj1 Hz u k c Hu Hk Hc). reflexivity.
    - intros d Hd E. unfold face_1. apply rsum_ext. intros c Hc. rewrite <- E in W |- *. destruct (bs_half _ _ _ _ _ _ Bs u d r c Hu Hd W) as (-> & _). rewrite (proj2 Hz u d c Hu Hd Hc). apply flips.
  Qed.
  Lemma row_2 : forall u e r, (u < length us)%nat -> In e (un_elts (UN u)) -> wet e = true ->
    inner_2 m (ss u) (xs u) (ys u) e r + on_sides m (un_ints (UN u) ++ un_bnds (UN u)) e (fun k b => face_2 m (ss u) (zs u) k e b r) +
    on_halves (UN u) e (fun k b => face_2 m (ss u) (zs u) k e b r) =
    inner_2 m s x y e r + on_sides m (seq 0 (ni + nb)) e (fun k b => face_2 m s z k e b r).
  Proof.
    intros u e r Hu He W. rewrite Rplus_assoc. rewrite (split_sides u e (fun k b => face_2 m s z k e b r) _ Hu He).
    - f_equal. unfold inner_2. destruct (bs_elt _ _ _ _ _ _ Bs u e Hu He) as (_ & _ & E3 & E4 & _). f_equal; apply rsum_ext; intros c Hc.
      + rewrite E3, (Hx u e c Hu He Hc). reflexivity.
      + rewrite E4, (Hy u e c Hu He Hc). reflexivity.
    - intros k b Hk Hs. unfold face_2. apply rsum_ext. intros c Hc. destruct (bs_side _ _ _ _ _ _ Bs u k e b r c Hu Hk Hs W) as (_ & -> & _). rewrite (proj1 Hz u k c Hu Hk Hc). reflexivity.
    - intros d Hd E. unfold face_2. apply rsum_ext. intros c Hc. rewrite <- E in W |- *. destruct (bs_half _ _ _ _ _ _ Bs u d r c Hu Hd W) as (_ & -> & _). rewrite (proj2 Hz u d c Hu Hd Hc). apply flips.
  Qed.
  Lemma wet_sides_same : forall u k, (u < length us)%nat -> In k (un_ints (UN u) ++ un_bnds (UN u)) ->
    filter (wet_side (wets u)) (sides m k) = filter (wet_side wet) (sides m k) /\ existsb (wet_side (wets u)) (sides m k) = existsb (wet_side wet) (sides m k).
  Proof.
    intros u k Hu Hk. assert (O : forall eb, In eb (sides m k) -> wet_side (wets u) eb = wet_side wet eb).
    { intros eb H. apply Hw; [exact Hu|]. exact (dv_own _ _ _ _ Dv _ k eb (unit_in us u Hu) Hk H). }
    split; [apply filter_ext_in; exact O|]. revert O. induction (sides m k) as [|p l IH]; intros O; [reflexivity|]. cbn [existsb].
    rewrite (O p (or_introl eq_refl)), IH by (intros eb H; apply O; right; exact H). reflexivity.
  Qed.
  Lemma row_edge_same : forall u k r, (u < length us)%nat -> In k (un_ints (UN u) ++ un_bnds (UN u)) -> existsb (wet_side wet) (sides m k) = true ->
    lsum (filter (wet_side (wets u)) (sides m k)) (fun eb => balance_side m (ss u) (xs u) (ys u) (fst eb) (snd eb) r) + balance_edge m (ss u) (zs u) k r =
    lsum (filter (wet_side wet) (sides m k)) (fun eb => balance_side m s x y (fst eb) (snd eb) r) + balance_edge m s z k r.
  Proof.
    intros u k r Hu Hk W. destruct (wet_sides_same u k Hu Hk) as (-> & _). f_equal.
    - apply lsum_ext. intros [e b] H. apply filter_In in H as (H & We). unfold wet_side in We. cbn [fst snd] in *.
      pose proof (dv_own _ _ _ _ Dv _ k (e, b) (unit_in us u Hu) Hk H) as O. cbn [fst] in O. unfold balance_side. f_equal; apply rsum_ext; intros c Hc;
      destruct (bs_side _ _ _ _ _ _ Bs u k e b r c Hu Hk H We) as (_ & _ & Q1 & Q2); [rewrite Q1, (Hx u e c Hu O Hc)|rewrite Q2, (Hy u e c Hu O Hc)]; reflexivity.
    - unfold balance_edge. apply rsum_ext. intros c Hc. rewrite (bs_edge _ _ _ _ _ _ Bs u k r c Hu Hk W), (proj1 Hz u k c Hu Hk Hc). reflexivity.
  Qed.
  Lemma half_side : forall u d r, (u < length us)%nat -> In d (un_dist (UN u)) -> wet (de_elt d) = true ->
    balance_side m (ss u) (xs u) (ys u) (de_elt d) (de_face d) r = flip own (de_edge d) (r / 2) * balance_side m s x y (de_elt d) (de_face d) r.
  Proof.
    intros u d r Hu Hd W. pose proof (own_half m us cuts own Dv u d Hu Hd) as O. unfold balance_side. rewrite Rmult_plus_distr_l, <- !rsum_scal. f_equal; apply rsum_ext; intros c Hc;
    destruct (bs_half _ _ _ _ _ _ Bs u d r c Hu Hd W) as (_ & _ & Q1 & Q2); [rewrite Q1, (Hx u _ c Hu O Hc)|rewrite Q2, (Hy u _ c Hu O Hc)]; ring.
  Qed.
  Lemma row_cut : forall u v d d' r, (u < length us)%nat -> (v < length us)%nat -> In d (un_dist (UN u)) -> In d' (un_dist (UN v)) -> de_edge d = de_edge d' -> u <> v ->
    half_balance m (wets u) (ss u) (xs u) (ys u) (zs u) d r + half_balance m (wets v) (ss v) (xs v) (ys v) (zs v) d' r =
    if existsb (wet_side wet) (sides m (de_edge d)) then flip own (de_edge d) (r / 2) *
      (lsum (filter (wet_side wet) (sides m (de_edge d))) (fun eb => balance_side m s x y (fst eb) (snd eb) r) + balance_edge m s z (de_edge d) r) else 0.
  Proof.
    intros u v d d' r Hu Hv Hd Hd' Ee N. unfold half_balance.
    rewrite (Hw u _ Hu (own_half m us cuts own Dv u d Hu Hd)), (Hw v _ Hv (own_half m us cuts own Dv v d' Hv Hd')).
    destruct (dcase m us cuts own Dv Cf Ft u Hu d Hd) as (RR & _ & _).
    assert (P : existsb (wet_side wet) (sides m (de_edge d)) = wet (de_elt d) || wet (de_elt d') /\
      lsum (filter (wet_side wet) (sides m (de_edge d))) (fun eb => balance_side m s x y (fst eb) (snd eb) r) =
      (if wet (de_elt d) then balance_side m s x y (de_elt d) (de_face d) r else 0) + (if wet (de_elt d') then balance_side m s x y (de_elt d') (de_face d') r else 0)).
    { rewrite side_int, lsum_filter by exact RR. cbn [existsb]. rewrite !lsum_cons. assert (Z0 : forall h : nat * nat -> R, lsum nil h = 0) by reflexivity. rewrite Z0. unfold wet_side. cbn [fst snd]. rewrite orb_false_r.
      destruct (other_half m us cuts own Dv Cf Ft u v d d' Hu Hv Hd Hd' Ee N) as [(-> & -> & -> & ->)|(-> & -> & -> & ->)]; [split; [reflexivity|ring]|split; [apply orb_comm|ring]]. }
    destruct P as (-> & ->).
    assert (Q : wet (de_elt d) || wet (de_elt d') = true ->
      (if wet (de_elt d) then balance_edge m (ss u) (zs u) (de_edge d) r else 0) + (if wet (de_elt d') then balance_edge m (ss v) (zs v) (de_edge d') r else 0) = flip own (de_edge d) (r / 2) * balance_edge m s z (de_edge d) r).
    { intros W. unfold balance_edge. rewrite <- rsum_scal.
      transitivity (rsum nh (fun c => ((if wet (de_elt d) then d_hh (ss u) (de_edge d) r c else 0) + (if wet (de_elt d') then d_hh (ss v) (de_edge d) r c else 0)) * (flip own (de_edge d) (c / 2) * z (de_edge d) c))).
      - symmetry. rewrite (rsum_ext nh _ (fun c => (if wet (de_elt d) then d_hh (ss u) (de_edge d) r c else 0) * (flip own (de_edge d) (c / 2) * z (de_edge d) c) + (if wet (de_elt d') then d_hh (ss v) (de_edge d) r c else 0) * (flip own (de_edge d) (c / 2) * z (de_edge d) c))) by (intros; ring).
        symmetry. rewrite rsum_plus. f_equal.
        + destruct (wet (de_elt d)); [|symmetry; transitivity (rsum nh (fun _ => 0)); [apply rsum_ext; intros; ring|rewrite <- lsum_seq; apply lsum_zero]].
          apply rsum_ext. intros c Hc. rewrite (proj2 Hz u d c Hu Hd Hc). reflexivity.
        + destruct (wet (de_elt d')); [|symmetry; transitivity (rsum nh (fun _ => 0)); [apply rsum_ext; intros; ring|rewrite <- lsum_seq; apply lsum_zero]].
          apply rsum_ext. intros c Hc. rewrite (proj2 Hz v d' c Hv Hd' Hc), <- Ee. reflexivity.
      - apply rsum_ext. intros c Hc. rewrite (bs_cut _ _ _ _ _ _ Bs u v d d' r c Hu Hv Hd Hd' Ee N W).
        transitivity (flip own (de_edge d) (r / 2) * (flip own (de_edge d) (c / 2) * d_hh s (de_edge d) r c * (flip own (de_edge d) (c / 2) * z (de_edge d) c))); [ring|]. rewrite flips. reflexivity. }
    pose proof (half_side u d r Hu Hd) as S1. pose proof (half_side v d' r Hv Hd') as S2. rewrite <- Ee in S2.
    destruct (wet (de_elt d)), (wet (de_elt d')); cbn [orb] in *.
    - rewrite S1, S2 by reflexivity. specialize (Q eq_refl). rewrite <- Ee in *. lra.
    - rewrite S1 by reflexivity. specialize (Q eq_refl). lra.
    - rewrite S2 by reflexivity. specialize (Q eq_refl). rewrite <- Ee in *. lra.
    - ring.
  Qed.

  Theorem dc_same : solves_dc m wet s x y z <-> solves_dc_par m us wets ss xs ys zs.
  Proof.
    assert (EL : forall u e, (u < length us)%nat -> In e (un_elts (UN u)) -> (e < m_n m)%nat).
    { intros u e Hu He. assert (I : In e (seq 0 (m_n m))) by (apply (Permutation_in _ (dv_elts _ _ _ _ Dv)); apply in_flat_map; exists (UN u); split; [exact (unit_in us u Hu)|exact He]). apply in_seq in I. lia. }
    split.
    - intros (A & B & C). split; [|split; [|split]].
      + intros u e r Hu He W Hr. rewrite (Hw u e Hu He) in W. rewrite row_1 by assumption. apply A; [exact (EL u e Hu He)|exact W|exact Hr].
      + intros u e r Hu He W Hr. rewrite (Hw u e Hu He) in W. rewrite row_2 by assumption. apply B; [exact (EL u e Hu He)|exact W|exact Hr].
      + intros u k r Hu Hk W Hr. rewrite (proj2 (wet_sides_same u k Hu Hk)) in W. rewrite row_edge_same by assumption. apply C; [exact (edge_lt u k Hu Hk)|exact W|exact Hr].
      + intros u v d d' r Hu Hv Hd Hd' Ee N Hr. rewrite row_cut by assumption. destruct (existsb (wet_side wet) (sides m (de_edge d))) eqn:W; [|reflexivity].
        destruct (dcase m us cuts own Dv Cf Ft u Hu d Hd) as (RR & _). rewrite (C (de_edge d) r) by (assumption || lia). ring.
    - intros (A & B & C & D). split; [|split].
      + intros e r He W Hr. destruct (owner m us cuts own Dv e He) as (u & Hu & Hm). rewrite <- (row_1 u) by assumption. apply A; try assumption. rewrite (Hw u e Hu Hm). exact W.
      + intros e r He W Hr. destruct (owner m us cuts own Dv e He) as (u & Hu & Hm). rewrite <- (row_2 u) by assumption. apply B; try assumption. rewrite (Hw u e Hu Hm). exact W.
      + intros k r Hk W Hr. destruct (unit_edge m us cuts own Dv k Hk) as [Hc|(u & Hu & Hm)].
        * destruct (half_owner m us cuts own Dv k (DEdge k (i_in (fI k)) (i_bin (fI k)) (own k)) Hc (or_introl eq_refl)) as (u & Hu & Hd).
          destruct (half_owner m us cuts own Dv k (DEdge k (i_ex (fI k)) (i_bex (fI k)) (negb (own k))) Hc (or_intror (or_introl eq_refl))) as (v & Hv & Hd').
          assert (N : u <> v).
          { intros <-. apply (dv_apart _ _ _ _ Dv (the_unit us u) k (unit_in us u Hu) Hc). split; [exact (dv_half _ _ _ _ Dv _ _ (unit_in us u Hu) Hd)|exact (dv_half _ _ _ _ Dv _ _ (unit_in us u Hu) Hd')]. }
          pose proof (D u v _ _ r Hu Hv Hd Hd' eq_refl N Hr) as Q. rewrite (row_cut u v _ _ r Hu Hv Hd Hd' eq_refl N) in Q. cbn [de_edge] in Q. rewrite W in Q.
          apply Rmult_integral in Q as [Q|Q]; [|exact Q]. pose proof (flip_sq own k (r / 2)) as F. rewrite Q in F. lra.
        * rewrite <- (row_edge_same u) by assumption. apply C; try assumption. rewrite (proj2 (wet_sides_same u k Hu Hm)). exact W.
  Qed.
End Sys.

(** Combinations for the property theorems. *)
Section Both.
  Context (m : mesh) (us : list iunit) (cuts : list nat) (own : nat -> bool).
  Context (Dv : divides m us cuts own) (Cf : conforming m) (Fo : faces_once m) (Sw : symmetric_weights m) (Sp : symmetric_points m) (Ft : forall ed, In ed cuts -> fits m ed).
  Context (g : R) (q : nat -> coeffs) (qs : nat -> nat -> coeffs) (Hq : elts_shared m us q qs).
  Context (wet : nat -> bool) (wets : nat -> nat -> bool) (Hw : wets_shared us wet wets) (Lv : no_wet_levee m wet).
  Context (boxes : nat -> mailbox) (Ml : mailed m us boxes qs wets).
  Theorem blocks_both : exists s ss, dc_blocks m g q wet = Ok s /\
    (forall u, (u < length us)%nat -> unit_blocks m (the_unit us u) (boxes u) g (qs u) (wets u) = Ok (ss u)) /\ blocks_shared m us own wet s ss.
  Proof.
    destruct (blocks_same m us cuts own Dv Cf Fo Sw Sp Ft g q qs Hq wet wets Hw Lv boxes Ml) as (s & A & B & C). exists s. eexists. split; [exact A|]. split; [exact B|exact C].
  Qed.
  Theorem system_same : forall s ss, dc_blocks m g q wet = Ok s -> (forall u, (u < length us)%nat -> unit_blocks m (the_unit us u) (boxes u) g (qs u) (wets u) = Ok (ss u)) ->
    forall x y z xs ys zs, field_shared us (2 * ndof m) x xs -> field_shared us (ndof m) y ys -> gtraces_shared m us own z zs ->
    solves_dc m wet s x y z <-> solves_dc_par m us wets ss xs ys zs.
  Proof.
    intros s ss A B x y z xs ys zs Hx Hy Hz. destruct blocks_both as (s' & ss' & A' & B' & C). rewrite A in A'. injection A' as <-.
    apply (dc_same m us cuts own Dv Cf Ft wet wets Hw s ss); try assumption.
    assert (E : forall u, (u < length us)%nat -> ss u = ss' u) by (intros u Hu; pose proof (B u Hu) as P; rewrite (B' u Hu) in P; injection P as ->; reflexivity).
    destruct C as [C1 C2 C3 C4 C5]. constructor; intros; rewrite ?E by assumption; first [apply C1|eapply C2|eapply C3|eapply C4|eapply C5]; eassumption.
  Qed.
End Both.

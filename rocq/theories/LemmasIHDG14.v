(** A single element between land edges, order 0: solutions of a pass. *)
From Coq Require Import Reals List Bool Arith Lra Lia.
From Coquelicot Require Import Coquelicot.
From Verif Require Import Num ModelSWE ModelShape ModelBasis SpecBasis ModelJac SpecJac SpecShape SpecSWE SpecStepper SpecStep LemmasShape LemmasSWE LemmasRK LemmasBasis4 LemmasStep
  ModelStep ModelIHDG SpecIHDG SpecIHDG2 LemmasIHDG1 LemmasIHDG2 LemmasIHDG3 LemmasIHDG4 LemmasIHDG5 LemmasIHDG6 LemmasIHDG7 LemmasIHDG9 LemmasIHDG10 LemmasIHDG11 LemmasIHDG12 LemmasIHDG13.
Import ListNotations.
Open Scope R_scope.

Lemma rsum_zero_ext : forall n f, (forall k, (k < n)%nat -> f k = 0) -> rsum n f = 0.
Proof. intros n f H. induction n as [|n IH]; [reflexivity|]. cbn [rsum]. rewrite IH by (intros; apply H; lia). rewrite H by lia. ring. Qed.

Lemma land_after_bc : forall m eaux g dt theta t qp rp s0 q qh dq dqh ed,
  conforming m -> in_range m -> regular m -> solves m (newton_system m eaux g dt theta t qp rp q qh s0) dq dqh ->
  is_boundary m ed -> edge_bc m ed = Some Land -> land_met m (plus q dq) (plus qh dqh) ed.
Proof.
  intros m eaux g dt theta t qp rp s0 q qh dq dqh ed C Rg Re H Hb E. apply (land_after m eaux g dt theta t qp rp s0 q qh dq dqh ed); try assumption.
  unfold edge_bc in E. unfold is_boundary in Hb. destruct (Nat.ltb_spec ed (length (m_intfaces m))); [lia|]. injection E as E. exact E.
Qed.

Section Single.
  Context (m : mesh) (eaux : nat -> nat -> aux3 R) (g dt theta t : R) (qp rp : nat -> coeffs) (s0 : newton).
  Context (N1 : m_n m = 1%nat) (P0 : m_p m = 0%nat) (I0 : m_intfaces m = []).

  Lemma solves_single : forall q qh dq dqh, conforming m -> in_range m -> closed_basin m -> dt <> 0 ->
    (forall a, (a < 3)%nat -> total m (plus q dq) a - total m qp a = dt * (theta * rsum (m_n m) (fun e => rp e a 0%nat) +
      (1 - theta) * (volume_int m (linear_source m g t q dq) a - bsum_edges m (fun ed => edge_int m ed (linear_flux m eaux g q qh dq dqh ed) a)))) ->
    (forall ed, is_boundary m ed -> land_met m (plus q dq) (plus qh dqh) ed) ->
    solves m (newton_system m eaux g dt theta t qp rp q qh s0) dq dqh.
  Proof.
    intros q qh dq dqh C Rg Cl Hdt B L.
    assert (Nd : ndof m = 1%nat) by (unfold ndof; rewrite P0; reflexivity).
    assert (Ne : nedof m = 1%nat) by (unfold nedof; rewrite P0; reflexivity).
    assert (Ni : length (m_intfaces m) = 0%nat) by (rewrite I0; reflexivity).
    split.
    - intros e a i He Ha Hi. assert (e = 0%nat) by lia. subst e. assert (i = 0%nat) by lia. subst i.
      pose proof (balance_elt m g dt theta t qp rp q dq a Hdt Ha) as E1.
      pose proof (balance_bnd m eaux g theta q qh dq dqh a Ha) as E2. specialize (B a Ha).
      rewrite N1 in E1. cbn [rsum] in E1.
      set (sys := newton_system m eaux g dt theta t qp rp q qh s0).
      assert (F : rsum (length (m_bounds m)) (fun k => applied (ndof m) (bnd_delta m eaux g theta qh (length (m_intfaces m) + k) 0) (dq 0%nat) a 0 +
          face_lhs m eaux g dt theta t qp rp s0 q qh dq dqh 0 (length (m_intfaces m) + k) a) =
        rsum (length (m_bounds m)) (fun k => bd_lhs m eaux g theta q qh dq dqh (length (m_intfaces m) + k) a)).
      { apply rsum_ext. intros k Hk. pose proof (bnd_lhs_0 m eaux g dt theta t qp rp s0 q qh dq dqh (length (m_intfaces m) + k) a C Rg ltac:(lia)) as E.
        rewrite N1 in E. cbn [rsum] in E. rewrite <- E. ring. }
      assert (G : rsum (length (m_bounds m)) (fun k => bnd_rhs m eaux g theta q qh (length (m_intfaces m) + k) 0 a 0%nat) =
        rsum (length (m_bounds m)) (fun k => bd_rhs0 m eaux g theta q qh (length (m_intfaces m) + k) a)).
      { apply rsum_ext. intros k Hk. unfold bnd_rhs, bd_rhs0. cbv zeta.
        destruct (Rg (length (m_intfaces m) + k)%nat (b_elt (the_bnd m (length (m_intfaces m) + k))) (b_id (the_bnd m (length (m_intfaces m) + k))) ltac:(unfold nedges, nint; lia) ltac:(rewrite side_bnd by lia; left; reflexivity)) as [R1 _].
        rewrite N1 in R1. assert (Z : b_elt (the_bnd m (length (m_intfaces m) + k)) = 0%nat) by lia. rewrite Z. unfold on. rewrite Nat.eqb_refl. reflexivity. }
      assert (D : applied (ndof m) (nw_delta sys 0) (dq 0%nat) a 0 = applied (ndof m) (elt_delta m g dt theta t qp rp q 0) (dq 0%nat) a 0 +
        rsum (length (m_bounds m)) (fun k => applied (ndof m) (bnd_delta m eaux g theta qh (length (m_intfaces m) + k) 0) (dq 0%nat) a 0)).
      { rewrite <- (applied_rsum _ (length (m_bounds m)) (fun k => bnd_delta m eaux g theta qh (length (m_intfaces m) + k) 0)), <- applied_plus.
        apply applied_ext. intros j b _ _. unfold sys. rewrite delta_entry by lia. rewrite Ni at 1. cbn [rsum]. ring. }
      assert (H : nw_rhs sys 0 a 0%nat = elt_rhs m g dt theta t qp rp q 0 a 0%nat + rsum (length (m_bounds m)) (fun k => bnd_rhs m eaux g theta q qh (length (m_intfaces m) + k) 0 a 0%nat)).
      { unfold sys. rewrite rhs_entry by lia. rewrite Ni at 1. cbn [rsum]. ring. }
      assert (S : rsum (nedges m) (fun ed => face_lhs m eaux g dt theta t qp rp s0 q qh dq dqh 0 ed a) =
        rsum (length (m_bounds m)) (fun k => face_lhs m eaux g dt theta t qp rp s0 q qh dq dqh 0 (length (m_intfaces m) + k) a)).
      { unfold nedges, nint. rewrite rsum_split. rewrite Ni at 1. cbn [rsum]. ring. }
      change (applied (ndof m) (nw_delta sys 0) (dq 0%nat) a 0 + rsum (nedges m) (fun ed => face_lhs m eaux g dt theta t qp rp s0 q qh dq dqh 0 ed a) = nw_rhs sys 0 a 0%nat).
      rewrite D, H, S, G. rewrite rsum_plus in F.
      rewrite N1 in B. cbn [rsum] in B. rewrite B in E1.
      match type of E1 with _ = dt * ?x / dt - _ - _ => replace (dt * x / dt) with x in E1 by (field; exact Hdt) end.
      lra.
    - intros ed a i He Ha Hi. assert (Hb : is_boundary m ed) by (unfold is_boundary; unfold nedges, nint in He; lia).
      pose proof (land_row m eaux g dt theta t qp rp s0 q qh dq dqh ed a i C Hb (bnd_land m ed Cl Hb) Ha Hi) as E.
      match type of E with _ = ?X => assert (Z : X = 0) end.
      { apply rsum_zero_ext. intros gp Hgp. replace (land_res m q qh dq dqh ed a gp) with 0; [ring|].
        specialize (L ed Hb gp Hgp). unfold edge_normal in L. rewrite side_bnd in L by (unfold is_boundary in Hb; lia). cbn [nth fst snd] in L. cbv zeta in L.
        destruct L as (L0 & L1 & L2). unfold land_res, land_rhs. cbv zeta. destruct a as [|[|[|a]]]; try lia; cbn [vget ze qx qy]; lra. }
      rewrite Z in E. cbv beta in E. lra.
  Qed.
End Single.

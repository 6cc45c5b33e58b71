(** Numbers for an example: fast outflow, state (0, 2, 0) over depth 1 with g = 1. *)
From Coq Require Import Reals List Lia Lra.
From Verif Require Import Num ModelSWE ModelJac ModelIHDG.
Import ListNotations.
Open Scope R_scope.

Definition fast_hat : mat3 := M3 0 (-1) 0 3 (-4) 0 (-2) 1 (-2).
Lemma fast_point : forall qinf, let u := V3 0 2 0 in let a := Aux 1 1 0 in let n := V2 1 0 in let q := V3 0 2 1 in
  open_hat 1 u a n q qinf = fast_hat /\ open_rhs 1 u a n q qinf = V3 0 0 2.
Proof.
  intros [a b d] u au n q.
  assert (S1 : sqrt (1 * 1) = 1) by (rewrite Rmult_1_l; exact sqrt_1). assert (S2 : sqrt (1 / 1) = 1) by (replace (1 / 1) with 1 by field; exact sqrt_1).
  assert (Sg : forall x, 0 < x -> nsign x = 1). { intros x Hx. unfold nsign. cbn. unfold Rltb. repeat destruct (Rlt_dec _ _); cbn; lra. }
  assert (L : eigL 1 1 (2 / 1) (0 / 1) 1 0 = mdiag 1 2 3) by (unfold eigL; rewrite S1; f_equal; field).
  assert (A : absL 1 1 (2 / 1) (0 / 1) 1 0 = mdiag 1 2 3).
  { unfold absL. rewrite S1. replace (2 / 1 * 1 + 0 / 1 * 0) with 2 by field. f_equal; rewrite Rabs_pos_eq; lra. }
  assert (Dz : dabsL_dze 1 1 (2 / 1) (0 / 1) 1 0 = dL_dze 1 1 (2 / 1) (0 / 1) 1 0).
  { unfold dabsL_dze, dL_dze. rewrite S1, S2. replace (2 / 1 * 1 + 0 / 1 * 0) with 2 by field. rewrite !Sg by lra. f_equal; field. }
  assert (Dx : dabsL_dqx 1 1 (2 / 1) (0 / 1) 1 0 = dL_dqx 1 1 (2 / 1) (0 / 1) 1 0).
  { unfold dabsL_dqx, dL_dqx. rewrite S1. replace (2 / 1 * 1 + 0 / 1 * 0) with 2 by field. rewrite !Sg by lra. f_equal; field. }
  assert (Dy : dabsL_dqy 1 1 (2 / 1) (0 / 1) 1 0 = dL_dqy 1 1 (2 / 1) (0 / 1) 1 0).
  { unfold dabsL_dqy, dL_dqy. rewrite S1. replace (2 / 1 * 1 + 0 / 1 * 0) with 2 by field. rewrite !Sg by lra. f_equal; field. }
  Ltac mats := unfold at_point, half5, dconj3, halfconj3, plus5, minus5; cbn [hh qx qy nx ny].
  assert (F0 : eigR 1 1 (2 / 1) (0 / 1) 1 0 = M3 1 0 1 1 0 3 0 1 0) by (unfold eigR; rewrite ?S1, ?S2; f_equal; field).
  assert (F1 : invR 1 1 (2 / 1) (0 / 1) 1 0 = M3 (3 / 2) (-1 / 2) 0 0 0 1 (-1 / 2) (1 / 2) 0) by (unfold invR; rewrite ?S1, ?S2; f_equal; field).
  assert (F2 : dR_dze 1 1 (2 / 1) (0 / 1) 1 0 = M3 0 0 0 (-5 / 2) 0 (-3 / 2) 0 0 0) by (unfold dR_dze; rewrite ?S1, ?S2; f_equal; field).
  assert (F3 : dR_dqx 1 1 (2 / 1) (0 / 1) 1 0 = M3 0 0 0 1 0 1 0 0 0) by (unfold dR_dqx; rewrite ?S1, ?S2; f_equal; field).
  assert (F4 : dR_dqy 1 1 (2 / 1) (0 / 1) 1 0 = M3 0 0 0 0 0 0 1 0 1) by (unfold dR_dqy; rewrite ?S1, ?S2; f_equal; field).
  assert (F5 : dinvR_dze 1 1 (2 / 1) (0 / 1) 1 0 = M3 (-3 / 2) (1 / 4) 0 0 0 0 (3 / 2) (-1 / 4) 0) by (unfold dinvR_dze; rewrite ?S1, ?S2; f_equal; field).
  assert (F6 : dinvR_dqx 1 1 (2 / 1) (0 / 1) 1 0 = M3 (1 / 2) 0 0 0 0 0 (-1 / 2) 0 0) by (unfold dinvR_dqx; rewrite ?S1, ?S2; f_equal; field).
  assert (F7 : dinvR_dqy 1 1 (2 / 1) (0 / 1) 1 0 = M3 0 0 0 (-1) 0 0 0 0 0) by (unfold dinvR_dqy; rewrite ?S1, ?S2; f_equal; field).
  assert (G0 : dL_dze 1 1 (2 / 1) (0 / 1) 1 0 = mdiag (-5 / 2) (-2) (-3 / 2)) by (unfold dL_dze; rewrite ?S1, ?S2; f_equal; field).
  assert (G1 : dL_dqx 1 1 (2 / 1) (0 / 1) 1 0 = mdiag 1 1 1) by (unfold dL_dqx; rewrite ?S1, ?S2; f_equal; field).
  assert (G2 : dL_dqy 1 1 (2 / 1) (0 / 1) 1 0 = mdiag 0 0 0) by (unfold dL_dqy; rewrite ?S1, ?S2; f_equal; field).
  Ltac nums := unfold msub; unfold madd, mmul, mscale, mdiag; cbn [m00 m01 m02 m10 m11 m12 m20 m21 m22]; f_equal; lra.
  assert (X0 : mmul (M3 (1 / 2) 0 (1 / 2) (1 / 2) 0 (3 / 2) 0 (1 / 2) 0) (M3 2 0 0 0 4 0 0 0 6) = (M3 1 0 3 1 0 9 0 2 0)) by nums.
  assert (X1 : mmul (M3 1 0 3 1 0 9 0 2 0) (M3 (3 / 2) (-1 / 2) 0 0 0 1 (-1 / 2) (1 / 2) 0) = (M3 0 1 0 (-3) 4 0 0 0 2)) by nums.
  assert (X2 : mmul (M3 0 0 0 (-5 / 2) 0 (-3 / 2) 0 0 0) (M3 2 0 0 0 4 0 0 0 6) = (M3 0 0 0 (-5) 0 (-9) 0 0 0)) by nums.
  assert (X3 : mmul (M3 0 0 0 (-5) 0 (-9) 0 0 0) (M3 (3 / 2) (-1 / 2) 0 0 0 1 (-1 / 2) (1 / 2) 0) = (M3 0 0 0 (-3) (-2) 0 0 0 0)) by nums.
  assert (X4 : mmul (M3 1 0 1 1 0 3 0 1 0) (M3 (-5) 0 0 0 (-4) 0 0 0 (-3)) = (M3 (-5) 0 (-3) (-5) 0 (-9) 0 (-4) 0)) by nums.
  assert (X5 : mmul (M3 (-5) 0 (-3) (-5) 0 (-9) 0 (-4) 0) (M3 (3 / 2) (-1 / 2) 0 0 0 1 (-1 / 2) (1 / 2) 0) = (M3 (-6) 1 0 (-3) (-2) 0 0 0 (-4))) by nums.
  assert (X6 : mmul (M3 1 0 1 1 0 3 0 1 0) (M3 2 0 0 0 4 0 0 0 6) = (M3 2 0 6 2 0 18 0 4 0)) by nums.
  assert (X7 : mmul (M3 2 0 6 2 0 18 0 4 0) (M3 (-3 / 2) (1 / 4) 0 0 0 0 (3 / 2) (-1 / 4) 0) = (M3 6 (-1) 0 24 (-4) 0 0 0 0)) by nums.
  assert (X8 : mmul (M3 0 0 0 1 0 1 0 0 0) (M3 2 0 0 0 4 0 0 0 6) = (M3 0 0 0 2 0 6 0 0 0)) by nums.
  assert (X9 : mmul (M3 0 0 0 2 0 6 0 0 0) (M3 (3 / 2) (-1 / 2) 0 0 0 1 (-1 / 2) (1 / 2) 0) = (M3 0 0 0 0 2 0 0 0 0)) by nums.
  assert (X10 : mmul (M3 1 0 1 1 0 3 0 1 0) (M3 2 0 0 0 2 0 0 0 2) = (M3 2 0 2 2 0 6 0 2 0)) by nums.
  assert (X11 : mmul (M3 2 0 2 2 0 6 0 2 0) (M3 (3 / 2) (-1 / 2) 0 0 0 1 (-1 / 2) (1 / 2) 0) = (M3 2 0 0 0 2 0 0 0 2)) by nums.
  assert (X12 : mmul (M3 2 0 6 2 0 18 0 4 0) (M3 (1 / 2) 0 0 0 0 0 (-1 / 2) 0 0) = (M3 (-2) 0 0 (-8) 0 0 0 0 0)) by nums.
  assert (X13 : mmul (M3 0 0 0 0 0 0 1 0 1) (M3 2 0 0 0 4 0 0 0 6) = (M3 0 0 0 0 0 0 2 0 6)) by nums.
  assert (X14 : mmul (M3 0 0 0 0 0 0 2 0 6) (M3 (3 / 2) (-1 / 2) 0 0 0 1 (-1 / 2) (1 / 2) 0) = (M3 0 0 0 0 0 0 0 2 0)) by nums.
  assert (X15 : mmul (M3 1 0 1 1 0 3 0 1 0) (M3 0 0 0 0 0 0 0 0 0) = (M3 0 0 0 0 0 0 0 0 0)) by nums.
  assert (X16 : mmul (M3 0 0 0 0 0 0 0 0 0) (M3 (3 / 2) (-1 / 2) 0 0 0 1 (-1 / 2) (1 / 2) 0) = (M3 0 0 0 0 0 0 0 0 0)) by nums.
  assert (X17 : mmul (M3 2 0 6 2 0 18 0 4 0) (M3 0 0 0 (-1) 0 0 0 0 0) = (M3 0 0 0 0 0 0 (-4) 0 0)) by nums.
  assert (X18 : mmul (M3 (1 / 2) 0 (1 / 2) (1 / 2) 0 (3 / 2) 0 (1 / 2) 0) (M3 0 0 0 0 0 0 0 0 0) = (M3 0 0 0 0 0 0 0 0 0)) by nums.
  assert (X19 : mmul (M3 0 0 0 (-5 / 2) 0 (-3 / 2) 0 0 0) (M3 0 0 0 0 0 0 0 0 0) = (M3 0 0 0 0 0 0 0 0 0)) by nums.
  assert (X20 : mmul (M3 0 0 0 0 0 0 0 0 0) (M3 (-3 / 2) (1 / 4) 0 0 0 0 (3 / 2) (-1 / 4) 0) = (M3 0 0 0 0 0 0 0 0 0)) by nums.
  assert (X21 : mmul (M3 0 0 0 1 0 1 0 0 0) (M3 0 0 0 0 0 0 0 0 0) = (M3 0 0 0 0 0 0 0 0 0)) by nums.
  assert (X22 : mmul (M3 0 0 0 0 0 0 0 0 0) (M3 (1 / 2) 0 0 0 0 0 (-1 / 2) 0 0) = (M3 0 0 0 0 0 0 0 0 0)) by nums.
  assert (X23 : mmul (M3 0 0 0 0 0 0 1 0 1) (M3 0 0 0 0 0 0 0 0 0) = (M3 0 0 0 0 0 0 0 0 0)) by nums.
  assert (X24 : mmul (M3 0 0 0 0 0 0 0 0 0) (M3 0 0 0 (-1) 0 0 0 0 0) = (M3 0 0 0 0 0 0 0 0 0)) by nums.
  assert (W0 : mscale (1 / 2) (M3 1 0 1 1 0 3 0 1 0) = (M3 (1 / 2) 0 (1 / 2) (1 / 2) 0 (3 / 2) 0 (1 / 2) 0)) by nums.
  assert (Wp1 : madd (mdiag 1 2 3) (mdiag 1 2 3) = (M3 2 0 0 0 4 0 0 0 6)) by nums.
  assert (Wm1 : msub (mdiag 1 2 3) (mdiag 1 2 3) = (M3 0 0 0 0 0 0 0 0 0)) by nums.
  assert (Wp2 : madd (mdiag (-5 / 2) (-2) (-3 / 2)) (mdiag (-5 / 2) (-2) (-3 / 2)) = (M3 (-5) 0 0 0 (-4) 0 0 0 (-3))) by nums.
  assert (Wm2 : msub (mdiag (-5 / 2) (-2) (-3 / 2)) (mdiag (-5 / 2) (-2) (-3 / 2)) = (M3 0 0 0 0 0 0 0 0 0)) by nums.
  assert (Wp3 : madd (mdiag 1 1 1) (mdiag 1 1 1) = (M3 2 0 0 0 2 0 0 0 2)) by nums.
  assert (Wm3 : msub (mdiag 1 1 1) (mdiag 1 1 1) = (M3 0 0 0 0 0 0 0 0 0)) by nums.
  assert (Wp4 : madd (mdiag 0 0 0) (mdiag 0 0 0) = (M3 0 0 0 0 0 0 0 0 0)) by nums.
  assert (Wm4 : msub (mdiag 0 0 0) (mdiag 0 0 0) = (M3 0 0 0 0 0 0 0 0 0)) by nums.
  assert (P0 : get_Aplus 1 u au n = M3 0 1 0 (-3) 4 0 0 0 2) by (unfold get_Aplus, u, au, n; mats; rewrite L, A; rewrite ?F0, ?F1, ?F2, ?F3, ?F4, ?F5, ?F6, ?F7, ?G0, ?G1, ?G2; rewrite ?W0, ?Wp1, ?Wp2, ?Wp3, ?Wp4, ?Wm1, ?Wm2, ?Wm3, ?Wm4; repeat first [rewrite X0|rewrite X1|rewrite X2|rewrite X3|rewrite X4|rewrite X5|rewrite X6|rewrite X7|rewrite X8|rewrite X9|rewrite X10|rewrite X11|rewrite X12|rewrite X13|rewrite X14|rewrite X15|rewrite X16|rewrite X17|rewrite X18|rewrite X19|rewrite X20|rewrite X21|rewrite X22|rewrite X23|rewrite X24]; nums).
  assert (M0 : get_Aminus 1 u au n = M3 0 0 0 0 0 0 0 0 0) by (unfold get_Aminus, u, au, n; mats; rewrite L, A; rewrite ?F0, ?F1, ?F2, ?F3, ?F4, ?F5, ?F6, ?F7, ?G0, ?G1, ?G2; rewrite ?W0, ?Wp1, ?Wp2, ?Wp3, ?Wp4, ?Wm1, ?Wm2, ?Wm3, ?Wm4; repeat first [rewrite X0|rewrite X1|rewrite X2|rewrite X3|rewrite X4|rewrite X5|rewrite X6|rewrite X7|rewrite X8|rewrite X9|rewrite X10|rewrite X11|rewrite X12|rewrite X13|rewrite X14|rewrite X15|rewrite X16|rewrite X17|rewrite X18|rewrite X19|rewrite X20|rewrite X21|rewrite X22|rewrite X23|rewrite X24]; nums).
  assert (Mz : get_dAminus_dze 1 u au n = M3 0 0 0 0 0 0 0 0 0) by (unfold get_dAminus_dze, u, au, n; mats; rewrite L, A, Dz; rewrite ?F0, ?F1, ?F2, ?F3, ?F4, ?F5, ?F6, ?F7, ?G0, ?G1, ?G2; rewrite ?W0, ?Wp1, ?Wp2, ?Wp3, ?Wp4, ?Wm1, ?Wm2, ?Wm3, ?Wm4; repeat first [rewrite X0|rewrite X1|rewrite X2|rewrite X3|rewrite X4|rewrite X5|rewrite X6|rewrite X7|rewrite X8|rewrite X9|rewrite X10|rewrite X11|rewrite X12|rewrite X13|rewrite X14|rewrite X15|rewrite X16|rewrite X17|rewrite X18|rewrite X19|rewrite X20|rewrite X21|rewrite X22|rewrite X23|rewrite X24]; nums).
  assert (Mx : get_dAminus_dqx 1 u au n = M3 0 0 0 0 0 0 0 0 0) by (unfold get_dAminus_dqx, u, au, n; mats; rewrite L, A, Dx; rewrite ?F0, ?F1, ?F2, ?F3, ?F4, ?F5, ?F6, ?F7, ?G0, ?G1, ?G2; rewrite ?W0, ?Wp1, ?Wp2, ?Wp3, ?Wp4, ?Wm1, ?Wm2, ?Wm3, ?Wm4; repeat first [rewrite X0|rewrite X1|rewrite X2|rewrite X3|rewrite X4|rewrite X5|rewrite X6|rewrite X7|rewrite X8|rewrite X9|rewrite X10|rewrite X11|rewrite X12|rewrite X13|rewrite X14|rewrite X15|rewrite X16|rewrite X17|rewrite X18|rewrite X19|rewrite X20|rewrite X21|rewrite X22|rewrite X23|rewrite X24]; nums).
  assert (My : get_dAminus_dqy 1 u au n = M3 0 0 0 0 0 0 0 0 0) by (unfold get_dAminus_dqy, u, au, n; mats; rewrite L, A, Dy; rewrite ?F0, ?F1, ?F2, ?F3, ?F4, ?F5, ?F6, ?F7, ?G0, ?G1, ?G2; rewrite ?W0, ?Wp1, ?Wp2, ?Wp3, ?Wp4, ?Wm1, ?Wm2, ?Wm3, ?Wm4; repeat first [rewrite X0|rewrite X1|rewrite X2|rewrite X3|rewrite X4|rewrite X5|rewrite X6|rewrite X7|rewrite X8|rewrite X9|rewrite X10|rewrite X11|rewrite X12|rewrite X13|rewrite X14|rewrite X15|rewrite X16|rewrite X17|rewrite X18|rewrite X19|rewrite X20|rewrite X21|rewrite X22|rewrite X23|rewrite X24]; nums).
  assert (Pz : get_dAplus_dze 1 u au n = M3 0 0 0 9 (-4) 0 0 0 (-2)) by (unfold get_dAplus_dze, u, au, n; mats; rewrite L, A, Dz; rewrite ?F0, ?F1, ?F2, ?F3, ?F4, ?F5, ?F6, ?F7, ?G0, ?G1, ?G2; rewrite ?W0, ?Wp1, ?Wp2, ?Wp3, ?Wp4, ?Wm1, ?Wm2, ?Wm3, ?Wm4; repeat first [rewrite X0|rewrite X1|rewrite X2|rewrite X3|rewrite X4|rewrite X5|rewrite X6|rewrite X7|rewrite X8|rewrite X9|rewrite X10|rewrite X11|rewrite X12|rewrite X13|rewrite X14|rewrite X15|rewrite X16|rewrite X17|rewrite X18|rewrite X19|rewrite X20|rewrite X21|rewrite X22|rewrite X23|rewrite X24]; nums).
  assert (Px : get_dAplus_dqx 1 u au n = M3 0 0 0 (-4) 2 0 0 0 1) by (unfold get_dAplus_dqx, u, au, n; mats; rewrite L, A, Dx; rewrite ?F0, ?F1, ?F2, ?F3, ?F4, ?F5, ?F6, ?F7, ?G0, ?G1, ?G2; rewrite ?W0, ?Wp1, ?Wp2, ?Wp3, ?Wp4, ?Wm1, ?Wm2, ?Wm3, ?Wm4; repeat first [rewrite X0|rewrite X1|rewrite X2|rewrite X3|rewrite X4|rewrite X5|rewrite X6|rewrite X7|rewrite X8|rewrite X9|rewrite X10|rewrite X11|rewrite X12|rewrite X13|rewrite X14|rewrite X15|rewrite X16|rewrite X17|rewrite X18|rewrite X19|rewrite X20|rewrite X21|rewrite X22|rewrite X23|rewrite X24]; nums).
  assert (Py : get_dAplus_dqy 1 u au n = M3 0 0 0 0 0 0 (-2) 1 0) by (unfold get_dAplus_dqy, u, au, n; mats; rewrite L, A, Dy; rewrite ?F0, ?F1, ?F2, ?F3, ?F4, ?F5, ?F6, ?F7, ?G0, ?G1, ?G2; rewrite ?W0, ?Wp1, ?Wp2, ?Wp3, ?Wp4, ?Wm1, ?Wm2, ?Wm3, ?Wm4; repeat first [rewrite X0|rewrite X1|rewrite X2|rewrite X3|rewrite X4|rewrite X5|rewrite X6|rewrite X7|rewrite X8|rewrite X9|rewrite X10|rewrite X11|rewrite X12|rewrite X13|rewrite X14|rewrite X15|rewrite X16|rewrite X17|rewrite X18|rewrite X19|rewrite X20|rewrite X21|rewrite X22|rewrite X23|rewrite X24]; nums).
  unfold open_hat, open_rhs. cbv zeta. rewrite P0, M0, Pz, Px, Py, Mz, Mx, My. unfold fast_hat, u, q. 
  unfold ModelSWE.vsub, ModelIHDG.mvec, columns. unfold msub. unfold madd, mscale. cbn. split; f_equal; ring.
Qed.

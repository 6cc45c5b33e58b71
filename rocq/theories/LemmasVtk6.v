From Coq Require Import String ZArith Reals List Bool Arith Lia Lra.
From Verif Require Import Num Outcome ModelSWE ModelShape ModelBasis SpecBasis LemmasBasis LemmasBasis2 LemmasBasis3 LemmasBasis4.
From Verif Require Import ModelVtk SpecStepper SpecShape SpecVtk LemmasStep LemmasVtk1 LemmasVtk2 LemmasVtk3 LemmasVtk4.
Import ListNotations.
Open Scope R_scope.

Lemma ref_ok : forall z, in_reference z -> ok_point z.
Proof.
  intros [z1 z2] [H1 [H2 H3]]. cbn [fst snd] in *. unfold ok_point. cbn [snd]. destruct (Req_dec z2 1) as [E | E]; [right | left; exact E].
  subst z2. f_equal. lra.
Qed.
Lemma phi4 : forall z, in_reference z -> GetPhi 4 z = (fst z + (1 + snd z) / 2) * (3 + 5 * snd z) / 2.
Proof.
  intros [z1 z2] H. pose proof (pq_of_dof 1 1) as [E1 E2]. change (LemmasBasis3.tri (1 + 1) + 1)%nat with 4%nat in *.
  destruct (ref_ok _ H) as [N | N]; cbn [fst snd] in *; rewrite GetPhi_phi, E1, E2.
  - rewrite phi_in by (assumption || lia). change (2 * 1 + 1)%nat with 3%nat. rewrite !classical_1. unfold nn. cbn. field. lra.
  - injection N as -> ->. rewrite Phi_top. unfold Phi. cbn. field.
Qed.
Lemma value_field : forall p u z, value p u z = field p u z.
Proof. intros. unfold value, field. apply vmsum_rsum. Qed.
Lemma field1 : forall u z, in_reference z -> field 1 u z = u 0%nat + u 1%nat * ((1 + 3 * snd z) / 2) + u 2%nat * (fst z + (1 + snd z) / 2).
Proof.
  intros u z H. destruct (first_three z (ref_ok z H)) as [E0 [E1 E2]]. unfold field. change ((1 + 1) * (1 + 2) / 2)%nat with 3%nat. cbn [rsum].
  rewrite E0, E1, E2. ring.
Qed.

(** What a file of order two does not show. *)
Definition hidden (d : nat) : R := match d with 2%nat | 4%nat => 1 | _ => 0 end.
Lemma hidden_value : forall z, in_reference z -> value 2 hidden z = (fst z + (1 + snd z) / 2) * (5 * (1 + snd z) / 2).
Proof.
  intros z H. destruct (first_three z (ref_ok z H)) as [E0 [E1 E2]]. unfold value. change (dubiner_ndof 2) with 6%nat. cbn [vmsum hidden].
  rewrite E2, (phi4 z H). field.
Qed.

(** Proofs: meshes for the reconstruction. *)
From Coq Require Import Reals List Bool Arith Lra Lia Psatz Permutation.
From Verif Require Import Num Outcome ModelSWE LemmasSWE ModelShape ModelBasis ModelJac ModelSlope ModelStepper ModelStep ModelGN ModelInit SpecShape SpecStepper SpecStage LemmasRK SpecRest LemmasBasis4 LemmasStep LemmasRest2 LemmasRest6 ModelGrad SpecGrad
  LemmasGrad1 LemmasGrad2 LemmasGrad3 LemmasGrad4 LemmasGrad5.
Import ListNotations.
Open Scope R_scope.

(** The triangle (0,0) (10,0) (0,10) with a neighbour across each face. *)
Definition star_nodes (x0 x1 x2 : pt) (e v : nat) : pt :=
  match e, v with
  | 0%nat, 0%nat => (0, 0) | 0%nat, 1%nat => (10, 0) | 0%nat, _ => (0, 10)
  | 1%nat, 0%nat => x0 | 1%nat, 1%nat => (0, 10) | 1%nat, _ => (10, 0)
  | 2%nat, 0%nat => x1 | 2%nat, 1%nat => (0, 0) | 2%nat, _ => (0, 10)
  | _, 0%nat => x2 | _, 1%nat => (10, 0) | _, _ => (0, 0)
  end.
Definition star (x0 x1 x2 : pt) : input := Input 4 1 (star_nodes x0 x1 x2) (fun _ _ => 2) rule2_2 rule1_3 (fun _ => SourceIn true 1 true 1) None
  [Intf 0 0 1 0 Internal; Intf 0 1 2 0 Internal; Intf 0 2 3 0 Internal]
  [Bnd 1 1 Land; Bnd 1 2 Land; Bnd 2 1 Land; Bnd 2 2 Land; Bnd 3 1 Land; Bnd 3 2 Land] None (V3 0 0 0) 10 0 1.
Definition smesh (x0 x1 x2 : pt) : mesh := init_mesh (star x0 x1 x2).

Lemma star_faces : forall x0 x1 x2, faces_once (smesh x0 x1 x2).
Proof.
  intros x0 x1 x2. split.
  - cbn. repeat (constructor; [cbn; intuition discriminate|]). constructor.
  - intros e b. cbn. split.
    + intuition; match goal with H : (_, _) = (_, _) |- _ => injection H as <- <- end; lia.
    + intros [He Hb]. destruct e as [|[|[|[|e]]]]; try lia; destruct b as [|[|[|b]]]; try lia; auto 20.
Qed.
Lemma star_joined : forall x0 x1 x2, joined (smesh x0 x1 x2).
Proof. intros x0 x1 x2 f H. cbn in H. destruct H as [<-|[<-|[<-|[]]]]; split; reflexivity. Qed.
Lemma inner_half : forall a b c x p q r, inner a b c x -> p * fst a + q * snd a <= r -> p * fst b + q * snd b <= r -> p * fst c + q * snd c <= r ->
  p * fst a + q * snd a < r \/ p * fst b + q * snd b < r \/ p * fst c + q * snd c < r -> p * fst x + q * snd x < r.
Proof.
  intros a b c x p q r (u & v & w & Hu & Hv & Hw & E & ->) A B C S. unfold comb. cbn [fst snd].
  replace (p * (u * fst a + v * fst b + w * fst c) + q * (u * snd a + v * snd b + w * snd c)) with (u * (p * fst a + q * snd a) + v * (p * fst b + q * snd b) + w * (p * fst c + q * snd c)) by ring.
  replace r with (u * r + v * r + w * r) by (rewrite <- !Rmult_plus_distr_r, E; ring).
  assert (U : u * (p * fst a + q * snd a) <= u * r) by (apply Rmult_le_compat_l; lra). assert (V : v * (p * fst b + q * snd b) <= v * r) by (apply Rmult_le_compat_l; lra). assert (W : w * (p * fst c + q * snd c) <= w * r) by (apply Rmult_le_compat_l; lra).
  destruct S as [S|[S|S]]; [pose proof (Rmult_lt_compat_l u _ _ Hu S)|pose proof (Rmult_lt_compat_l v _ _ Hv S)|pose proof (Rmult_lt_compat_l w _ _ Hw S)]; lra.
Qed.
(** Two triangles on the two sides of a line. *)
Lemma separate : forall a b c a' b' c' x p q r, inner a b c x -> inner a' b' c' x ->
  p * fst a + q * snd a <= r -> p * fst b + q * snd b <= r -> p * fst c + q * snd c <= r -> 
  p * fst a + q * snd a < r \/ p * fst b + q * snd b < r \/ p * fst c + q * snd c < r ->
  r <= p * fst a' + q * snd a' -> r <= p * fst b' + q * snd b' -> r <= p * fst c' + q * snd c' -> False.
Proof.
  intros a b c a' b' c' x p q r I I' A B C S A' B' C'. pose proof (inner_half _ _ _ _ _ _ _ I A B C S) as L.
  destruct I' as (u & v & w & Hu & Hv & Hw & E & ->). unfold comb in L. cbn [fst snd] in L. nra.
Qed.
Ltac sep p q r := match goal with X : inner _ _ _ ?x, Y : inner _ _ _ ?x |- False =>
  (apply (separate _ _ _ _ _ _ x p q r X Y) || apply (separate _ _ _ _ _ _ x p q r Y X)); cbn [star_nodes fst snd]; lra end.

Definition gap : mesh := smesh (-20, 40) (-10, 0) (0, -10).
Lemma gap_ok : triangulation gap.
Proof.
  constructor; [apply star_faces| |apply star_joined|].
  - intros e He. destruct e as [|[|[|[|e]]]]; [..|cbn in He; lia]; cbn; unfold orient; cbn; lra.
  - intros e e' x He He' N X Y. change (m_n gap) with 4%nat in *. cbn [gap smesh star init_mesh m_nodes in_nodes] in X, Y.
    destruct e as [|[|[|[|e]]]]; try lia; destruct e' as [|[|[|[|e']]]]; try lia;
      first [sep 1 1 10|sep (-1) (-1) (-10)|sep 1 0 0|sep (-1) 0 0|sep 0 1 0|sep 0 (-1) 0].
Qed.
Definition twist : mesh := smesh (11, 9) (-1, 60) (-30, -1).
Lemma twist_ok : triangulation twist.
Proof.
  constructor; [apply star_faces| |apply star_joined|].
  - intros e He. destruct e as [|[|[|[|e]]]]; [..|cbn in He; lia]; cbn; unfold orient; cbn; lra.
  - intros e e' x He He' N X Y. change (m_n twist) with 4%nat in *. cbn [twist smesh star init_mesh m_nodes in_nodes] in X, Y.
    destruct e as [|[|[|[|e]]]]; try lia; destruct e' as [|[|[|[|e']]]]; try lia;
      first [sep 1 1 10|sep (-1) (-1) (-10)|sep 1 0 0|sep (-1) 0 0|sep 0 1 0|sep 0 (-1) 0].
Qed.
Lemma star_beyond : forall x0 x1 x2 b, (b < 3)%nat -> beyond (smesh x0 x1 x2) 0 b (Some (S b)).
Proof.
  intros x0 x1 x2 b Hb. destruct b as [|[|[|b]]]; [| | |lia].
  - exact (beyond_in (smesh x0 x1 x2) 0 0 (Intf 0 0 1 0 Internal) (or_introl eq_refl) eq_refl eq_refl).
  - exact (beyond_in (smesh x0 x1 x2) 0 1 (Intf 0 1 2 0 Internal) (or_intror (or_introl eq_refl)) eq_refl eq_refl).
  - exact (beyond_in (smesh x0 x1 x2) 0 2 (Intf 0 2 3 0 Internal) (or_intror (or_intror (or_introl eq_refl))) eq_refl eq_refl).
Qed.
Lemma star_nb : forall x0 x1 x2 b, (b < 3)%nat -> nb_coord (smesh x0 x1 x2) 0 b = bary (star_nodes x0 x1 x2 (S b)).
Proof. intros x0 x1 x2 b Hb. rewrite (nb_site _ 0 b _ (star_faces x0 x1 x2) Hb (star_beyond x0 x1 x2 b Hb)). reflexivity. Qed.

Lemma eps_small : epsilon * 100 < / 1000.
Proof.
  unfold epsilon. assert (L : 1000000 < 2 ^ 52) by (cbn; lra). assert (P : 0 < 2 ^ 52) by lra.
  apply (Rmult_lt_reg_l (2 ^ 52)); [exact P|]. rewrite <- Rmult_assoc, Rinv_r by lra. lra.
Qed.
Lemma no_pair : forall solve, solves2 solve -> pairs_of gap solve 0 0 = None.
Proof.
  intros solve S2. pose proof eps_small as ES. unfold pairs_of, pairs_serial, search. cbn [negb andb].
  assert (N0 : nb_coord gap 0 0 = (-10 / 3, 50 / 3)) by (unfold gap; rewrite star_nb by lia; unfold bary; cbn; f_equal; field).
  assert (N1 : nb_coord gap 0 1 = (-10 / 3, 10 / 3)) by (unfold gap; rewrite star_nb by lia; unfold bary; cbn; f_equal; field).
  assert (N2 : nb_coord gap 0 2 = (10 / 3, -10 / 3)) by (unfold gap; rewrite star_nb by lia; unfold bary; cbn; f_equal; field).
  assert (Ce : centre gap 0 = (10 / 3, 10 / 3)) by (rewrite centre_bary; unfold bary, gap, smesh, star; cbn [m_nodes init_mesh in_nodes star_nodes fst snd]; f_equal; field).
  assert (Mi : mid_of gap 0 0 = (5, 5)) by (rewrite mid_mid by lia; unfold mid_face, gap, smesh, star; cbn; f_equal; field).
  rewrite (try_none solve S2 (centre gap 0) (mid_of gap 0) (nb_coord gap 0) 0 0 (1 / 8) (- 3 / 8)).
  - rewrite (try_none solve S2 (centre gap 0) (mid_of gap 0) (nb_coord gap 0) 0 1 (- 1 / 4) (- 3 / 4)); [reflexivity|..]; change ((0 + 1 + 1) mod 3)%nat with 2%nat; rewrite ?N0, ?N2, ?Ce, ?Mi.
    + unfold orient. cbn [fst snd]. lra.
    + unfold vsub. cbn [fst snd]. f_equal; field.
    + left. lra.
  - change ((0 + 0 + 1) mod 3)%nat with 1%nat. rewrite N0, N1, Ce. unfold orient. cbn [fst snd]. lra.
  - change ((0 + 0 + 1) mod 3)%nat with 1%nat. rewrite N0, N1, Ce, Mi. unfold vsub. cbn [fst snd]. f_equal; field.
  - right. lra.
Qed.
Lemma no_recon : forall solve s old, solves2 solve -> reconstruct gap solve ReconInt s old 0 = UB.
Proof. intros solve s old S2. unfold reconstruct, recon_int, int_mid. rewrite (no_pair solve S2). reflexivity. Qed.

Lemma two_choices : forall solve, solves2 solve ->
  pairs_of twist solve 0 0 = Some (clean (355 / 759), clean (10 / 759), 0%nat, 1%nat) /\
  pairs_received solve (centre twist 0) (mid_of twist 0) (nb_coord twist 0) (fun b => Nat.eqb b 2) 0 = Some (clean (95 / 149), clean (10 / 149), 0%nat, 2%nat).
Proof.
  intros solve S2.
  assert (N0 : nb_coord twist 0 0 = (7, 19 / 3)) by (unfold twist; rewrite star_nb by lia; unfold bary; cbn; f_equal; field).
  assert (N1 : nb_coord twist 0 1 = (-1 / 3, 70 / 3)) by (unfold twist; rewrite star_nb by lia; unfold bary; cbn; f_equal; field).
  assert (N2 : nb_coord twist 0 2 = (-20 / 3, -1 / 3)) by (unfold twist; rewrite star_nb by lia; unfold bary; cbn; f_equal; field).
  assert (Ce : centre twist 0 = (10 / 3, 10 / 3)) by (rewrite centre_bary; unfold bary, twist, smesh, star; cbn [m_nodes init_mesh in_nodes star_nodes fst snd]; f_equal; field).
  assert (Mi : mid_of twist 0 0 = (5, 5)) by (rewrite mid_mid by lia; unfold mid_face, twist, smesh, star; cbn; f_equal; field).
  assert (T0 : try_pair solve (centre twist 0) (mid_of twist 0) (nb_coord twist 0) 0 0 = Some (clean (355 / 759), clean (10 / 759), 0%nat, 1%nat)).
  { apply (try_complete solve S2 (centre twist 0) (mid_of twist 0) (nb_coord twist 0) 0 0); change ((0 + 0 + 1) mod 3)%nat with 1%nat; rewrite N0, N1, Ce, ?Mi.
    - unfold orient. cbn [fst snd]. lra.
    - unfold in_cone, vsub. cbn [fst snd]. split; [lra|]. split; [lra|]. f_equal; field. }
  assert (T1 : try_pair solve (centre twist 0) (mid_of twist 0) (nb_coord twist 0) 0 1 = Some (clean (95 / 149), clean (10 / 149), 0%nat, 2%nat)).
  { apply (try_complete solve S2 (centre twist 0) (mid_of twist 0) (nb_coord twist 0) 0 1); change ((0 + 1 + 1) mod 3)%nat with 2%nat; rewrite N0, N2, Ce, ?Mi.
    - unfold orient. cbn [fst snd]. lra.
    - unfold in_cone, vsub. cbn [fst snd]. split; [lra|]. split; [lra|]. f_equal; field. }
  unfold pairs_of, pairs_received, pairs_serial, search. cbn [negb andb]. rewrite T0, T1. split; reflexivity.
Qed.
Lemma split_differs : forall solve, solves2 solve -> exists x y, let sn := fun b => if Nat.eqb b 1 then 1 else 0 in
  int_mid (pairs_of twist solve 0) 0 sn 0 = Ok x /\
  int_mid (pairs_received solve (centre twist 0) (mid_of twist 0) (nb_coord twist 0) (fun b => Nat.eqb b 2)) 0 sn 0 = Ok y /\ x <> y.
Proof.
  intros solve S2. destruct (two_choices solve S2) as [P Q]. unfold int_mid. rewrite P, Q. cbn [Nat.eqb]. eexists. eexists. cbv zeta. split; [reflexivity|]. split; [reflexivity|].
  pose proof (clean_near (10 / 759)) as N. pose proof eps_small as ES. apply Rabs_def2 in N. intros E. ring_simplify in E. lra.
Qed.

(** A triangle by itself. *)
Definition lone : mesh := Mesh 1 1 (fun _ v => match v with 0%nat => (0, 0) | 1%nat => (10, 0) | _ => (0, 10) end) rule2_2 rule1_3 (fun _ _ => Aux 0 0 0) (fun _ _ => V2 0 0) (fun _ _ _ => Aux 0 0 0)
  (fun _ => SourceIn true 1 true 1) None [] [Bnd 0 0 Land; Bnd 0 1 Land; Bnd 0 2 Land] (fun _ _ => 0) (fun _ => 0) (fun _ => m_sl twist 0%nat).
Lemma lone_ok : triangulation lone.
Proof.
  constructor.
  - split.
    + cbn. repeat (constructor; [cbn; intuition discriminate|]). constructor.
    + intros e b. cbn. split.
      * intuition; match goal with H : (_, _) = (_, _) |- _ => injection H as <- <- end; lia.
      * intros [He Hb]. destruct e as [|e]; [|lia]. destruct b as [|[|[|b]]]; try lia; auto.
  - intros e He. unfold orient. cbn. lra.
  - intros f [].
  - intros e e' x He He' N. cbn in *. lia.
Qed.
Lemma lone_flat : forall solve old, exists l, reconstruct lone solve ReconLs (fun e => affine 0 (1, 0) (bary (m_nodes lone e))) old 0 = Ok l /\ l 0%nat <> affine 0 (1, 0) (m_nodes lone 0%nat 0%nat).
Proof.
  intros solve old. destruct (recon_const lone solve (tr_faces _ lone_ok) ReconLs (fun e => affine 0 (1, 0) (bary (m_nodes lone e))) old 0 (10 / 3)) as (l & E & L).
  - cbn. lia.
  - intros e _. unfold affine, vdot, bary. cbn. field.
  - discriminate.
  - exists l. split; [exact E|]. rewrite (L 0%nat) by lia. unfold affine, vdot. cbn. lra.
Qed.
Lemma star_conforming : forall x0 x1 x2, (forall e, (e < 4)%nat -> 0 < orient (star_nodes x0 x1 x2 e 0%nat) (star_nodes x0 x1 x2 e 1%nat) (star_nodes x0 x1 x2 e 2%nat)) -> conforming (star x0 x1 x2).
Proof.
  intros x0 x1 x2 O. constructor; cbn.
  - lia.
  - exact rule2_2_exact.
  - exact rule1_3_exact.
  - exact rule2_2_off.
  - exact rule1_3_sym.
  - exact O.
  - apply NoDup_Permutation.
    + exact (proj1 (star_faces x0 x1 x2)).
    + repeat (constructor; [cbn; intuition discriminate|]). constructor.
    + intros [e b]. rewrite (proj2 (star_faces x0 x1 x2) e b). change [(0, 0); (0, 1); (0, 2); (1, 0); (1, 1); (1, 2); (2, 0); (2, 1); (2, 2); (3, 0); (3, 1); (3, 2)]%nat with (list_prod (seq 0 4) (seq 0 3)).
      rewrite in_prod_iff, !in_seq. cbn [smesh m_n init_mesh star in_n]. lia.
  - intros f H. destruct H as [<-|[<-|[<-|[]]]]; reflexivity.
  - intros f H _. destruct H as [<-|[<-|[<-|[]]]]; split; reflexivity.
Qed.
Lemma twist_conforming : conforming (star (11, 9) (-1, 60) (-30, -1)).
Proof. apply star_conforming. intros e He. exact (tr_orient _ twist_ok e He). Qed.
Lemma affine_coeffs : forall m k g, (1 <= m_p m)%nat -> exists u, affine_field m k g u.
Proof.
  intros m k g Hp. 
  exists (fun e => match ProjectLinearToBasis (m_p m) (fun v => affine k g (m_nodes m e v)) with Ok u => u | _ => fun _ => 0 end). intros e He.
  destruct (l2b (m_p m) (fun v => affine k g (m_nodes m e v)) Hp) as (u & -> & U0 & U1 & U2 & UZ). split; [intros j Hj; apply UZ; lia|].
  intros v Hv. rewrite <- vmsum_rsum, vmsum_3; [|exact (ndof_ge3 (m_p m) Hp)|intros j Hj; rewrite UZ by lia; ring].
  assert (O : ok_point (corner v)) by (destruct v as [|[|v]]; [left; cbn; lra|left; cbn; lra|right; reflexivity]). destruct (first_three _ O) as (-> & -> & ->).
  rewrite U0, U1, U2. destruct v as [|[|[|v]]]; [| | |lia]; cbn [corner fst snd]; field.
Qed.
(** Interpolated midpoint values on a mesh. *)
Lemma int_mesh : forall m solve k g s old e b a0 a1 e1 e2, triangulation m -> solves2 solve -> (e < m_n m)%nat -> (b < 3)%nat ->
  (forall e, (e < m_n m)%nat -> s e = affine k g (bary (m_nodes m e))) ->
  pairs_of m solve e b = Some (a0, a1, e1, e2) -> orient (centre m e) (nb_coord m e e1) (nb_coord m e e2) <> 0 ->
  (forall o, beyond m e e1 o \/ beyond m e e2 o -> o <> None) ->
  exists x, int_mid (pairs_of m solve e) (s e) (exchange m s (fun e _ => s e) old e) b = Ok x /\
    Rabs (x - affine k g (mid_face (m_nodes m e) b)) <= 100 / 2 ^ 52 * (Rabs (vdot g (vsub (nb_coord m e e1) (centre m e))) + Rabs (vdot g (vsub (nb_coord m e e2) (centre m e)))).
Proof.
  intros m solve k g s old e b a0 a1 e1 e2 T S2 He Hb Hs P N I. set (sn := exchange m s (fun e _ => s e) old e).
  destruct (pairs_range m solve e b a0 a1 e1 e2 Hb P) as [R1 R2].
  assert (Sn : forall k0, (k0 < 3)%nat -> (forall o, beyond m e k0 o -> o <> None) -> sn k0 = affine k g (nb_coord m e k0)).
  { intros k0 Hk Ho. destruct (beyond_ex_o m e k0 (tr_faces m T) He Hk) as [o B]. unfold sn. rewrite (exchange_ok m _ _ _ _ e k0 o (tr_faces m T) B), (nb_site m e k0 o (tr_faces m T) Hk B).
    pose proof (Ho o B) as No. destruct o as [e'|]; [|congruence]. apply Hs. exact (beyond_range m e k0 e' (tr_faces m T) B). }
  pose proof (Sn e1 R1 (fun o B => I o (or_introl B))) as S1. pose proof (Sn e2 R2 (fun o B => I o (or_intror B))) as S2'.
  assert (TP : exists perm, try_pair solve (centre m e) (mid_of m e) (nb_coord m e) b perm = Some (a0, a1, e1, e2)).
  { unfold pairs_of, pairs_serial in P. destruct (search_cases _ _ _ _ _ _ _ _ P) as [(perm & _ & E)|E]; [exists perm; exact E|discriminate]. }
  destruct TP as [perm TP]. destruct (try_sound solve S2 _ _ _ _ _ _ _ _ _ TP) as (_ & _ & _ & _ & X). destruct (X N) as (p & q & A0 & A1 & E).
  destruct (int_near (centre m e) (mid_of m e) (nb_coord m e) a0 a1 e1 e2 p q k g b (pairs_of m solve e) sn P A0 A1 E S1 S2') as (x & Ex & Bx).
  exists x. rewrite (Hs e He). rewrite centre_bary in Ex. split; [exact Ex|]. rewrite mid_mid in Bx by exact Hb. replace (100 / 2 ^ 52) with (epsilon * 100) by (unfold epsilon; field; apply pow_nonzero; lra).
  rewrite S1, S2' in Bx. eapply Rle_trans; [exact Bx|]. apply Req_le. f_equal. f_equal; f_equal; unfold affine, vdot, vsub; cbn [fst snd]; ring.
Qed.

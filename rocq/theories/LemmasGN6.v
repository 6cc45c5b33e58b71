(** Proofs: the blocks are those of the system of the specification. *)
From Coq Require Import Reals List Arith Bool Lia Lra.
From Verif Require Import Num Outcome ModelSWE LemmasSWE ModelShape ModelBasis ModelJac ModelStep ModelIHDG ModelCond SpecShape SpecBasis SpecStepper SpecStep SpecStage SpecCond
  LemmasRK LemmasStep LemmasStage3 LemmasCond ModelGN SpecGN LemmasGN1 LemmasGN2 LemmasGN3 LemmasGN4 LemmasGN5.
Import ListNotations.
Open Scope R_scope.

Lemma rsum_two : forall n f, rsum (2 * n) f = rsum n (fun i => f (2 * i + 0)%nat + f (2 * i + 1)%nat).
Proof.
  induction n as [|n IH]; intros f; [reflexivity|]. replace (2 * S n)%nat with (S (S (2 * n))) by lia. cbn [rsum]. rewrite IH.
  rewrite Nat.add_0_r. replace (2 * n + 1)%nat with (S (2 * n)) by lia. ring.
Qed.
Lemma half_of : forall i a, (a < 2)%nat -> ((2 * i + a) / 2 = i)%nat /\ ((2 * i + a) mod 2 = a)%nat.
Proof. intros i a H. split; [symmetry; apply (Nat.div_unique _ 2 i a); lia|symmetry; apply (Nat.mod_unique _ 2 i a); lia]. Qed.
Lemma mul_flat11 : forall n F x i a, (a < 2)%nat -> mul (2 * n) (flat11 F) x (2 * i + a) =
  rsum n (fun j => F i a j 0%nat * x (2 * j + 0)%nat) + rsum n (fun j => F i a j 1%nat * x (2 * j + 1)%nat).
Proof.
  intros n F x i a Ha. unfold mul. rewrite rsum_two, <- rsum_plus. apply rsum_ext. intros j _. unfold flat11.
  destruct (half_of i a Ha) as [-> ->]. destruct (half_of j 0 ltac:(lia)) as [-> ->]. destruct (half_of j 1 ltac:(lia)) as [-> ->]. reflexivity.
Qed.
Lemma mul_flat12 : forall n F x i a, (a < 2)%nat -> mul n (flat12 F) x (2 * i + a) = rsum n (fun j => F i a j * x j).
Proof. intros n F x i a Ha. unfold mul. apply rsum_ext. intros j _. unfold flat12. destruct (half_of i a Ha) as [-> ->]. reflexivity. Qed.
Lemma mul_flat21 : forall n F x i, mul (2 * n) (flat21 F) x i = rsum n (fun j => F i j 0%nat * x (2 * j + 0)%nat) + rsum n (fun j => F i j 1%nat * x (2 * j + 1)%nat).
Proof.
  intros n F x i. unfold mul. rewrite rsum_two, <- rsum_plus. apply rsum_ext. intros j _. unfold flat21.
  destruct (half_of j 0 ltac:(lia)) as [-> ->]. destruct (half_of j 1 ltac:(lia)) as [-> ->]. reflexivity.
Qed.
Lemma mul_plus2' : forall n A B C v i, (forall c, (c < n)%nat -> A i c = B i c + C i c) -> mul n A v i = mul n B v i + mul n C v i.
Proof. intros n A B C v i H. unfold mul. rewrite <- rsum_plus. apply rsum_ext. intros c Hc. rewrite H by exact Hc. ring. Qed.
Lemma mul_lsum : forall (X : Type) n (l : list X) (M : X -> nat -> nat -> R) v i, mul n (fun r c => lsum l (fun p => M p r c)) v i = lsum l (fun p => mul n (M p) v i).
Proof.
  intros X n l M v i. induction l as [|p l IH]; unfold mul in *.
  - unfold lsum. cbn. apply rsum_const0. intros. ring.
  - rewrite lsum_cons, <- IH, <- rsum_plus. apply rsum_ext. intros. rewrite lsum_cons. ring.
Qed.
Lemma if_lin : forall (b : bool) (x y : R), (if b then x else 0) + (if b then y else 0) = if b then x + y else 0.
Proof. intros [] x y; ring. Qed.

Section System.
  Context (m : mesh) (g : R) (q : nat -> coeffs) (wet : nat -> bool) (nb : numbering) (d : dcsys).
  Context (HM : faces_once m) (HN : num_ok m wet nb) (HT : forall e, (e < m_n m)%nat -> good m e) (HB : blocks_ok m g q wet d).
  Notation n1 := (2 * ndof m)%nat.
  Notation n2 := (ndof m).
  Notation nh := (nhat m).
  (** The fields of the specification. *)
  Definition f_h : nat -> nat -> R := h_elt m q.
  Definition f_b : nat -> nat -> nat -> R := b1 m.
  Definition f_hh : nat -> nat -> R := mean m (h_fc m q).
  Definition f_bh : nat -> nat -> nat -> R := fun k gp a => - mean m (at_fgp m (dbath m a)) k gp.
  Definition f_K : nat -> nat -> nat -> R := source_at_gp m g q.

  Context (x y : nat -> nat -> R) (z : nat -> R) (w1 : nat -> nat -> nat -> R) (w2 : nat -> nat -> R) (wh : nat -> nat -> nat -> R).
  Definition rel : Prop :=
    (forall e a i, (e < m_n m)%nat -> wet e = true -> (a < 2)%nat -> (i < n2)%nat -> x e (2 * i + a)%nat = w1 e a i) /\
    (forall e i, (e < m_n m)%nat -> wet e = true -> (i < n2)%nat -> y e i = w2 e i) /\
    (forall k a j, In k (numbered_edges m) -> wet_edge wet (snd k) = true -> (a < 2)%nat -> (j < S (m_p m))%nat -> z (n_edge nb (fst k) * nh + (2 * j + a))%nat = wh (fst k) a j).
  Context (HR : rel).

  Lemma x_of_w : forall e a F, (e < m_n m)%nat -> wet e = true -> (a < 2)%nat -> rsum n2 (fun j => F j * x e (2 * j + a)%nat) = rsum n2 (fun j => F j * w1 e a j).
  Proof. intros e a F He We Ha. apply rsum_ext. intros j Hj. rewrite (proj1 HR) by assumption. reflexivity. Qed.
  Lemma y_of_w : forall e F, (e < m_n m)%nat -> wet e = true -> rsum n2 (fun j => F j * y e j) = rsum n2 (fun j => F j * w2 e j).
  Proof. intros e F He We. apply rsum_ext. intros j Hj. rewrite (proj1 (proj2 HR)) by assumption. reflexivity. Qed.
  Lemma z_of_w : forall k a F, In k (numbered_edges m) -> wet_edge wet (snd k) = true -> (a < 2)%nat ->
    rsum (S (m_p m)) (fun j => F j * ze_ m nb z (fst k) (2 * j + a)%nat) = rsum (S (m_p m)) (fun j => F j * wh (fst k) a j).
  Proof. intros k a F Hk Wk Ha. apply rsum_ext. intros j Hj. unfold ze_. rewrite (proj2 (proj2 HR)) by assumption. reflexivity. Qed.

  (** Sums over faces of a wet element become sums over its sides. *)
  Lemma faces_sides : forall e (M : nat -> nat -> nat -> R) l, (e < m_n m)%nat -> wet e = true ->
    fsum nh (zf m nb z e) M l = lsum (numbered_edges m) (fun k => lsum (ge_sides (snd k)) (fun s => if Nat.eqb (s_e s) e then mul nh (M (s_b s)) (ze_ m nb z (fst k)) l else 0)).
  Proof.
    intros e M l He We. unfold fsum. rewrite <- (sides_sum m e (fun b => mul nh (M b) (zf m nb z e b) l) HM He).
    rewrite <- (numbered_snd m), lsum_map. apply lsum_ext. intros k Hk. apply lsum_ext. intros s Hs. destruct (Nat.eqb_spec (s_e s) e) as [E|]; [|reflexivity].
    apply mul_ext; [reflexivity|]. intros j _. unfold zf, ze_. f_equal. f_equal. f_equal. rewrite <- E. apply (no_face m wet nb HN); [exact Hk| |exact Hs].
    apply existsb_exists. exists s. rewrite E. auto.
  Qed.
  Lemma pairs_sides : forall e (F : gedge -> gside -> R), (e < m_n m)%nat -> wet e = true ->
    lsum (pairs m wet) (fun p => if Nat.eqb (s_e (snd p)) e then F (fst p) (snd p) else 0) =
    lsum (numbered_edges m) (fun k => lsum (ge_sides (snd k)) (fun s => if Nat.eqb (s_e s) e then F (snd k) s else 0)).
  Proof.
    intros e F He We. unfold pairs. rewrite <- (lsum_map _ _ snd (numbered_edges m) (fun ed => lsum (ge_sides ed) (fun s => if Nat.eqb (s_e s) e then F ed s else 0))), numbered_snd.
    rewrite lsum_flat_map. apply lsum_ext. intros ed _. rewrite lsum_map. cbn [fst snd]. unfold wet_sides. rewrite lsum_filter. apply lsum_ext. intros s _.
    destruct (Nat.eqb_spec (s_e s) e) as [->|]; [rewrite We; reflexivity|destruct (wet (s_e s)); reflexivity].
  Qed.

  Lemma vol_1_eq : forall e i a, (e < m_n m)%nat -> wet e = true -> (a < 2)%nat ->
    mul n1 (vol_11 m q e) (x e) (2 * i + a) + mul n2 (vol_12 m q e) (y e) (2 * i + a) =
    vol_int m e (fun gp p => GetPhi i p * (val m (w1 e a) p + alpha * f_b e gp a * bw m f_b w1 e gp p)) -
    alpha / 2 * vol_int m e (fun gp p => grad m a e (GetDPhi i p) * (f_h e gp * bw m f_b w1 e gp p)) -
    alpha / 3 * vol_int m e (fun gp p => GetPhi i p * dval m a e (w2 e) p) -
    alpha / 2 * vol_int m e (fun gp p => GetPhi i p * (f_b e gp a / f_h e gp * val m (w2 e) p)).
  Proof.
    intros e i a He We Ha. pose proof (HT e He) as G. unfold vol_11, vol_12. rewrite mul_flat11, mul_flat12 by exact Ha. rewrite !x_of_w, y_of_w by (assumption || lia).
    assert (E1 : forall c, (c < 2)%nat -> rsum n2 (fun j => (s_pp m e i j (fun gp => delta a c + alpha * (b1 m e gp a * b1 m e gp c)) + s_pdp m e j a i (fun gp => - alpha / 2 * (h_elt m q e gp * b1 m e gp c))) * w1 e c j) =
      vol_int m e (fun gp p => GetPhi i p * ((delta a c + alpha * (f_b e gp a * f_b e gp c)) * val m (w1 e c) p)) + - alpha / 2 * vol_int m e (fun gp p => grad m a e (GetDPhi i p) * (f_h e gp * (f_b e gp c * val m (w1 e c) p)))).
    { intros c Hc. rewrite <- vol_int_scal. rewrite (rsum_ext n2 _ (fun j => s_pp m e i j (fun gp => delta a c + alpha * (b1 m e gp a * b1 m e gp c)) * w1 e c j + s_pdp m e j a i (fun gp => - alpha / 2 * (h_elt m q e gp * b1 m e gp c)) * w1 e c j)) by (intros; ring).
      rewrite rsum_plus, pp_int, pdp_int by assumption. f_equal. apply vol_int_ext. intros. unfold f_h, f_b. ring. }
    rewrite (E1 0%nat), (E1 1%nat) by lia.
    assert (E2 : rsum n2 (fun j => (s_pdp m e i a j (fun _ => - alpha / 3) + s_pp m e i j (fun gp => - alpha / 2 * (b1 m e gp a / h_elt m q e gp))) * w2 e j) =
      - alpha / 3 * vol_int m e (fun gp p => GetPhi i p * dval m a e (w2 e) p) + - alpha / 2 * vol_int m e (fun gp p => GetPhi i p * (f_b e gp a / f_h e gp * val m (w2 e) p))).
    { rewrite <- !vol_int_scal. rewrite (rsum_ext n2 _ (fun j => s_pdp m e i a j (fun _ => - alpha / 3) * w2 e j + s_pp m e i j (fun gp => - alpha / 2 * (b1 m e gp a / h_elt m q e gp)) * w2 e j)) by (intros; ring).
      rewrite rsum_plus, pdp_int2, pp_int by assumption. f_equal; apply vol_int_ext; intros; unfold f_h, f_b; ring. }
    rewrite E2. unfold bw.
    rewrite (vol_int_ext m e (fun gp p => grad m a e (GetDPhi i p) * (f_h e gp * (f_b e gp 0%nat * val m (w1 e 0%nat) p + f_b e gp 1%nat * val m (w1 e 1%nat) p)))
      (fun gp p => grad m a e (GetDPhi i p) * (f_h e gp * (f_b e gp 0%nat * val m (w1 e 0%nat) p)) + grad m a e (GetDPhi i p) * (f_h e gp * (f_b e gp 1%nat * val m (w1 e 1%nat) p)))) by (intros; ring).
    rewrite vol_int_plus.
    rewrite (vol_int_ext m e (fun gp p => GetPhi i p * (val m (w1 e a) p + alpha * f_b e gp a * (f_b e gp 0%nat * val m (w1 e 0%nat) p + f_b e gp 1%nat * val m (w1 e 1%nat) p)))
      (fun gp p => GetPhi i p * ((delta a 0 + alpha * (f_b e gp a * f_b e gp 0%nat)) * val m (w1 e 0%nat) p) + GetPhi i p * ((delta a 1 + alpha * (f_b e gp a * f_b e gp 1%nat)) * val m (w1 e 1%nat) p))).
    - rewrite vol_int_plus. lra.
    - intros gp p. destruct a as [|[|a]]; [| |lia]; unfold delta; cbn [Nat.eqb]; ring.
  Qed.
  Lemma side_1_eq : forall e k s i a, (e < m_n m)%nat -> wet e = true -> (a < 2)%nat -> In k (numbered_edges m) -> In s (ge_sides (snd k)) -> s_e s = e ->
    mul n1 (loc_11 m (snd k) s) (x e) (2 * i + a) + mul nh (loc_1h m q (snd k) s) (ze_ m nb z (fst k)) (2 * i + a) =
    - alpha / 3 * tau * face_int m (fst k) (tri3 s) (fun p => GetPhi i p * val m (w1 e a) p) +
    edge_int m (fst k) (tri3 s) (fun gp p => GetPhi i p * (alpha / 3 * tau * lam m (wh (fst k) a) (pos m gp) + alpha / 2 * (f_hh (fst k) gp * bwh m f_bh wh (fst k) gp) * out_n m (fst k) (tri3 s) a)).
  Proof.
    intros e k s i a He We Ha Hk Hs Es. pose proof (proj1 (numbered_nth m k) Hk) as Hn. destruct (side_range m (snd k) s HM (in_numbered m k Hk) Hs) as [_ Hb].
    assert (Wk : wet_edge wet (snd k) = true) by (apply existsb_exists; exists s; rewrite Es; auto).
    unfold loc_11, loc_1h, nhat. rewrite !mul_flat11 by exact Ha. rewrite !x_of_w by (assumption || lia). rewrite !z_of_w by (assumption || lia).
    assert (E1 : forall c, rsum n2 (fun j => s_fpp m (snd k) (s_b s) i j (fun _ => - alpha / 3 * tau * delta a c) * w1 e c j) = - alpha / 3 * tau * delta a c * face_int m (fst k) (tri3 s) (fun p => GetPhi i p * val m (w1 e c) p)).
    { intros c. apply (fpp_int m (fst k) (snd k) s Hn Hb). }
    assert (E2 : forall c, rsum (S (m_p m)) (fun j => s_pl m (snd k) s i j (fun gp => alpha / 3 * tau * delta a c + alpha / 2 * (b_hat_at m (snd k) (gp_hat m s gp) c * comp (s_n s) a * hat m (h_fc m q) (snd k) (gp_hat m s gp))) * wh (fst k) c j) =
      edge_int m (fst k) (tri3 s) (fun gp p => GetPhi i p * ((alpha / 3 * tau * delta a c + alpha / 2 * (f_bh (fst k) gp c * out_n m (fst k) (tri3 s) a * f_hh (fst k) gp)) * lam m (wh (fst k) c) (pos m gp)))).
    { intros c. rewrite (pl_lam_int m (fst k) (snd k) s Hn Hb i (fun gp => alpha / 3 * tau * delta a c + alpha / 2 * (b_hat_at m (snd k) gp c * comp (s_n s) a * hat m (h_fc m q) (snd k) gp))).
      apply edge_int_ext. intros gp p. unfold b_hat_at, f_bh, f_hh. rewrite !(hat_mean m _ (fst k) (snd k) gp Hn), (spec_normal m (fst k) (snd k) s a Hn Hs). reflexivity. }
    rewrite !E1, !E2, <- edge_int_plus. f_equal.
    - destruct a as [|[|a]]; [| |lia]; unfold delta; cbn [Nat.eqb]; ring.
    - apply edge_int_ext. intros gp p. unfold bwh. destruct a as [|[|a]]; [| |lia]; unfold delta; cbn [Nat.eqb]; ring.
  Qed.
  Lemma d_11_mul : forall e l, (e < m_n m)%nat -> wet e = true -> mul n1 (d_11 d e) (x e) l = mul n1 (vol_11 m q e) (x e) l +
    lsum (numbered_edges m) (fun k => lsum (ge_sides (snd k)) (fun s => if Nat.eqb (s_e s) e then mul n1 (loc_11 m (snd k) s) (x e) l else 0)).
  Proof.
    intros e l He We. rewrite (mul_plus2' n1 (d_11 d e) (vol_11 m q e) (fun r c => lsum (pairs m wet) (fun p => if Nat.eqb (s_e (snd p)) e then loc_11 m (fst p) (snd p) r c else 0))) by (intros; apply (bo_11 m g q wet d HB)).
    f_equal. rewrite mul_lsum. rewrite <- (pairs_sides e (fun ed s => mul n1 (loc_11 m ed s) (x e) l) He We). apply lsum_ext. intros p _.
    destruct (Nat.eqb (s_e (snd p)) e); [reflexivity|]. unfold mul. apply rsum_const0. intros. ring.
  Qed.
  Lemma lsum2_plus : forall F G : nat * gedge -> gside -> R, forall e,
    lsum (numbered_edges m) (fun k => lsum (ge_sides (snd k)) (fun s => if Nat.eqb (s_e s) e then F k s else 0)) + lsum (numbered_edges m) (fun k => lsum (ge_sides (snd k)) (fun s => if Nat.eqb (s_e s) e then G k s else 0)) =
    lsum (numbered_edges m) (fun k => lsum (ge_sides (snd k)) (fun s => if Nat.eqb (s_e s) e then F k s + G k s else 0)).
  Proof. intros F G e. rewrite <- lsum_plus. apply lsum_ext. intros k _. rewrite <- lsum_plus. apply lsum_ext. intros s _. apply if_lin. Qed.
  Lemma row_1_form : forall e i a, (e < m_n m)%nat -> wet e = true -> (i < n2)%nat -> (a < 2)%nat ->
    mul n1 (d_11 d e) (x e) (2 * i + a) + mul n2 (d_12 d e) (y e) (2 * i + a) + fsum nh (zf m nb z e) (d_1h d e) (2 * i + a) =
    lhs_w1 m alpha tau f_h f_b f_hh f_bh w1 w2 wh e i a.
  Proof.
    intros e i a He We Hi Ha. unfold lhs_w1. rewrite d_11_mul, faces_sides, (bo_12 m g q wet d HB) by assumption.
    rewrite <- (vol_1_eq e i a He We Ha). rewrite at_sides_eq.
    assert (E : lsum (numbered_edges m) (fun k => lsum (ge_sides (snd k)) (fun s => if Nat.eqb (s_e s) e then mul n1 (loc_11 m (snd k) s) (x e) (2 * i + a) else 0)) +
                lsum (numbered_edges m) (fun k => lsum (ge_sides (snd k)) (fun s => if Nat.eqb (s_e s) e then mul nh (d_1h d e (s_b s)) (ze_ m nb z (fst k)) (2 * i + a) else 0)) =
      lsum (numbered_edges m) (fun k => lsum (ge_sides (snd k)) (fun s => if Nat.eqb (s_e s) e then
        - alpha / 3 * tau * face_int m (fst k) (tri3 s) (fun p => GetPhi i p * val m (w1 e a) p) +
        edge_int m (fst k) (tri3 s) (fun gp p => GetPhi i p * (alpha / 3 * tau * lam m (wh (fst k) a) (pos m gp) + alpha / 2 * (f_hh (fst k) gp * bwh m f_bh wh (fst k) gp) * out_n m (fst k) (tri3 s) a)) else 0))).
    { rewrite lsum2_plus. apply lsum_ext. intros k Hk. apply lsum_ext. intros s Hs. destruct (Nat.eqb_spec (s_e s) e) as [Es|]; [|reflexivity].
      rewrite <- (side_1_eq e k s i a He We Ha Hk Hs Es). f_equal. f_equal. rewrite <- Es.
      apply (bo_1h m g q wet d HB); [apply in_numbered; exact Hk|]. apply in_wet_sides. rewrite Es. auto. }
    lra.
  Qed.

  Lemma row_1 : forall e i a, (e < m_n m)%nat -> wet e = true -> (i < n2)%nat -> (a < 2)%nat ->
    (mul n1 (d_11 d e) (x e) (2 * i + a) + mul n2 (d_12 d e) (y e) (2 * i + a) + fsum nh (zf m nb z e) (d_1h d e) (2 * i + a) = d_r d e (2 * i + a)%nat <->
     eq_w1 m alpha tau f_h f_b f_hh f_bh f_K w1 w2 wh e i a).
  Proof.
    intros e i a He We Hi Ha. unfold eq_w1. rewrite (row_1_form e i a He We Hi Ha), (bo_r m g q wet d HB). unfold vol_r. destruct (half_of i a Ha) as [-> ->]. rewrite phi_int. reflexivity.
  Qed.

  Lemma row_2 : forall e i, (e < m_n m)%nat -> wet e = true -> (i < n2)%nat ->
    (mul n1 (d_21 d e) (x e) i + mul n2 (d_22 d e) (y e) i + fsum nh (zf m nb z e) (d_2h d e) i = 0 <-> eq_w2 m f_h f_hh w1 w2 wh e i).
  Proof.
    intros e i He We Hi. unfold eq_w2. pose proof (HT e He) as G. rewrite faces_sides, (bo_21 m g q wet d HB), (bo_22 m g q wet d HB) by assumption.
    assert (E1 : mul n1 (vol_21 m q e) (x e) i = vol_int m e (fun gp p => (grad m 0 e (GetDPhi i p) * val m (w1 e 0%nat) p + grad m 1 e (GetDPhi i p) * val m (w1 e 1%nat) p) / f_h e gp)).
    { unfold vol_21. rewrite mul_flat21, !x_of_w by (assumption || lia). rewrite !pdp_int by (assumption || lia). rewrite <- vol_int_plus. apply vol_int_ext. intros. unfold f_h, Rdiv. ring. }
    assert (E2 : mul n2 (vol_22 m q e) (y e) i = vol_int m e (fun gp p => GetPhi i p * (val m (w2 e) p / f_h e gp ^ 3))).
    { unfold mul, vol_22. rewrite y_of_w, pp_int by assumption. apply vol_int_ext. intros. unfold f_h, Rdiv. cbn [pow]. replace (h_elt m q e gp * (h_elt m q e gp * (h_elt m q e gp * 1))) with (h_elt m q e gp * h_elt m q e gp * h_elt m q e gp) by ring. ring. }
    rewrite E1, E2, at_sides_eq.
    assert (E3 : lsum (numbered_edges m) (fun k => lsum (ge_sides (snd k)) (fun s => if Nat.eqb (s_e s) e then mul nh (d_2h d e (s_b s)) (ze_ m nb z (fst k)) i else 0)) =
      - lsum (numbered_edges m) (fun k => lsum (ge_sides (snd k)) (fun s => if Nat.eqb (s_e s) e then edge_int m (fst k) (tri3 s) (fun gp p => GetPhi i p *
        ((lam m (wh (fst k) 0%nat) (pos m gp) * out_n m (fst k) (tri3 s) 0 + lam m (wh (fst k) 1%nat) (pos m gp) * out_n m (fst k) (tri3 s) 1) / f_hh (fst k) gp)) else 0))).
    { assert (NEG : forall (X : Type) (l : list X) f, - lsum l f = lsum l (fun a => - f a)).
      { clear. intros X l f. induction l as [|a l IH]; [unfold lsum; cbn; ring|]. rewrite !lsum_cons, <- IH. ring. }
      rewrite NEG. apply lsum_ext. intros k Hk. rewrite NEG. apply lsum_ext. intros s Hs. destruct (Nat.eqb_spec (s_e s) e) as [Es|]; [|ring].
      pose proof (proj1 (numbered_nth m k) Hk) as Hn. destruct (side_range m (snd k) s HM (in_numbered m k Hk) Hs) as [_ Hb].
      assert (Ws : In s (wet_sides wet (snd k))) by (apply in_wet_sides; rewrite Es; auto).
      replace (d_2h d e (s_b s)) with (loc_2h m q (snd k) s) by (rewrite <- Es; symmetry; apply (bo_1h m g q wet d HB); [apply in_numbered; exact Hk|exact Ws]).
      unfold loc_2h, nhat. rewrite mul_flat21, !z_of_w by (try assumption; try lia; eapply wet_edge_side; exact Ws).
      assert (E4 : forall c, rsum (S (m_p m)) (fun j => s_pl m (snd k) s i j (fun gp => - (comp (s_n s) c / hat m (h_fc m q) (snd k) (gp_hat m s gp))) * wh (fst k) c j) =
        edge_int m (fst k) (tri3 s) (fun gp p => GetPhi i p * (- (out_n m (fst k) (tri3 s) c / f_hh (fst k) gp) * lam m (wh (fst k) c) (pos m gp)))).
      { intros c. rewrite (pl_lam_int m (fst k) (snd k) s Hn Hb i (fun gp => - (comp (s_n s) c / hat m (h_fc m q) (snd k) gp))).
        apply edge_int_ext. intros gp p. unfold f_hh. rewrite (hat_mean m _ (fst k) (snd k) gp Hn), (spec_normal m (fst k) (snd k) s c Hn Hs). reflexivity. }
      rewrite !E4, <- edge_int_plus. rewrite <- (Rmult_1_l (edge_int m (fst k) (tri3 s) (fun gp p => GetPhi i p * ((lam m _ _ * _ + _) / _)))), Ropp_mult_distr_l, <- edge_int_scal.
      apply edge_int_ext. intros. unfold Rdiv. ring. }
    rewrite E3. split; intros H; lra.
  Qed.

  (** ** Edges *)
  Lemma edge_int_side : forall k s s' (F : nat -> R), edge_int m k s (fun gp _ => F gp) = edge_int m k s' (fun gp _ => F gp).
  Proof. reflexivity. Qed.
  Notation ia k s j e a := (edge_int m k (tri3 s) (fun gp p => legendre_phi j (pos m gp) * val m (w1 e a) p)).
  Notation ib k s j e := (edge_int m k (tri3 s) (fun gp p => legendre_phi j (pos m gp) * val m (w2 e) p)).
  Notation il k s j a := (edge_int m k (tri3 s) (fun gp _ => legendre_phi j (pos m gp) * lam m (wh k a) (pos m gp))).
  Lemma side_row : forall k s j a, In k (numbered_edges m) -> In s (wet_sides wet (snd k)) -> (a < 2)%nat ->
    side_eq m d x y s (2 * j + a) = snd (fst (kernels_of wet (snd k))) s a 0%nat * ia (fst k) s j (s_e s) 0%nat + snd (fst (kernels_of wet (snd k))) s a 1%nat * ia (fst k) s j (s_e s) 1%nat +
      snd (kernels_of wet (snd k)) s a * ib (fst k) s j (s_e s).
  Proof.
    intros k s j a Hk Hs Ha. pose proof (proj1 (numbered_nth m k) Hk) as Hn. pose proof (wet_edge_side wet (snd k) s Hs) as Wk. pose proof (proj1 (in_wet_sides wet (snd k) s) Hs) as [Hs0 We].
    destruct (side_range m (snd k) s HM (in_numbered m k Hk) Hs0) as [He Hb]. destruct (bo_hh m g q wet d HB k Hk Wk) as [_ Q]. destruct (Q s Hs) as [E1 E2].
    unfold side_eq. rewrite E1, E2. unfold h1_block, h2_block. rewrite mul_flat11, mul_flat12 by exact Ha. rewrite !x_of_w, y_of_w by (assumption || lia).
    rewrite !(pl_phi_int m (fst k) (snd k) s Hn Hb). reflexivity.
  Qed.
  Lemma hh_row : forall k s j a, In k (numbered_edges m) -> wet_edge wet (snd k) = true -> (a < 2)%nat ->
    mul nh (d_hh d (fst k)) (ze_ m nb z (fst k)) (2 * j + a) = fst (fst (kernels_of wet (snd k))) a 0%nat * il (fst k) s j 0%nat + fst (fst (kernels_of wet (snd k))) a 1%nat * il (fst k) s j 1%nat.
  Proof.
    intros k s j a Hk Wk Ha. pose proof (proj1 (numbered_nth m k) Hk) as Hn. destruct (bo_hh m g q wet d HB k Hk Wk) as [E _]. rewrite E. unfold hh_block, nhat.
    rewrite mul_flat11, !z_of_w by (assumption || lia). rewrite !(ll_int m (fst k) (snd k) s Hn). reflexivity.
  Qed.
  Lemma flow_split : forall k s e j a n, edge_int m k (tri3 s) (fun gp p => legendre_phi j (pos m gp) * (val m (w2 e) p * n + tau * (val m (w1 e a) p - lam m (wh k a) (pos m gp)))) =
    n * ib k s j e + tau * ia k s j e a - tau * il k s j a.
  Proof.
    intros. rewrite (edge_int_ext m k (tri3 s) _ (fun gp p => (n * (legendre_phi j (pos m gp) * val m (w2 e) p) + tau * (legendre_phi j (pos m gp) * val m (w1 e a) p)) + - tau * (legendre_phi j (pos m gp) * lam m (wh k a) (pos m gp)))) by (intros; ring).
    rewrite !edge_int_plus, !edge_int_scal. ring.
  Qed.
  Lemma wall_split : forall k s e j a n nx ny, edge_int m k (tri3 s) (fun gp p => legendre_phi j (pos m gp) * (val m (w1 e a) p - n * (nx * val m (w1 e 0%nat) p + ny * val m (w1 e 1%nat) p) - lam m (wh k a) (pos m gp))) =
    ia k s j e a - n * (nx * ia k s j e 0%nat + ny * ia k s j e 1%nat) - il k s j a.
  Proof.
    intros. rewrite (edge_int_ext m k (tri3 s) _ (fun gp p => (1 * (legendre_phi j (pos m gp) * val m (w1 e a) p) + - (n * nx) * (legendre_phi j (pos m gp) * val m (w1 e 0%nat) p)) + (- (n * ny) * (legendre_phi j (pos m gp) * val m (w1 e 1%nat) p) + - 1 * (legendre_phi j (pos m gp) * lam m (wh k a) (pos m gp))))) by (intros; ring).
    rewrite !edge_int_plus, !edge_int_scal. ring.
  Qed.
  Lemma row_3 : forall k j a, In k (numbered_edges m) -> wet_edge wet (snd k) = true -> ge_kind (snd k) <> KLevee -> (a < 2)%nat ->
    (edge_eq m wet nb d x y z k (2 * j + a) = 0 <->
     if is_wall m wet (fst k) then eq_wall m wet w1 wh (fst k) j a else eq_flow m tau w1 w2 wh (fst k) j a).
  Proof.
    intros k j a Hk Wk NL Ha. pose proof (proj1 (numbered_nth m k) Hk) as Hn. unfold edge_eq, eq_wall, eq_flow.
    rewrite (spec_sides m _ _ Hn).
    assert (HS : forall s, In s (wet_sides wet (snd k)) -> side_eq m d x y s (2 * j + a) = snd (fst (kernels_of wet (snd k))) s a 0%nat * ia (fst k) s j (s_e s) 0%nat + snd (fst (kernels_of wet (snd k))) s a 1%nat * ia (fst k) s j (s_e s) 1%nat +
      snd (kernels_of wet (snd k)) s a * ib (fst k) s j (s_e s)) by (intros s Hs; apply side_row; assumption).
    assert (HH : forall s, mul nh (d_hh d (fst k)) (ze_ m nb z (fst k)) (2 * j + a) = fst (fst (kernels_of wet (snd k))) a 0%nat * il (fst k) s j 0%nat + fst (fst (kernels_of wet (snd k))) a 1%nat * il (fst k) s j 1%nat) by (intros s; apply hh_row; assumption).
    assert (HO : forall s c, In s (ge_sides (snd k)) -> comp (s_n s) c = out_n m (fst k) (tri3 s) c) by (intros s c Hs; apply (spec_normal m (fst k) (snd k)); assumption).
    rewrite (lsum_ext _ (wet_sides wet (snd k)) _ _ HS).
    assert (FW : filter (wet_side wet) (map tri3 (ge_sides (snd k))) = map tri3 (wet_sides wet (snd k))).
    { clear. unfold wet_sides. induction (ge_sides (snd k)) as [|s l IH]; [reflexivity|]. cbn [map filter]. unfold wet_side at 1. cbn [tri3 fst]. destruct (wet (s_e s)); cbn [map]; rewrite IH; reflexivity. }
    rewrite FW, !lsum_map.
    assert (FL : lsum (ge_sides (snd k)) (fun s => edge_int m (fst k) (tri3 s) (fun gp p => legendre_phi j (pos m gp) * (val m (w2 (fst (fst (tri3 s)))) p * out_n m (fst k) (tri3 s) a + tau * (val m (w1 (fst (fst (tri3 s))) a) p - lam m (wh (fst k) a) (pos m gp))))) =
      lsum (ge_sides (snd k)) (fun s => comp (s_n s) a * ib (fst k) s j (s_e s) + tau * ia (fst k) s j (s_e s) a - tau * il (fst k) s j a)).
    { apply lsum_ext. intros s Hs. rewrite (HO s a Hs). apply flow_split. }
    assert (WL : lsum (wet_sides wet (snd k)) (fun s => edge_int m (fst k) (tri3 s) (fun gp p => legendre_phi j (pos m gp) * (val m (w1 (fst (fst (tri3 s))) a) p - out_n m (fst k) (tri3 s) a * (out_n m (fst k) (tri3 s) 0 * val m (w1 (fst (fst (tri3 s))) 0%nat) p + out_n m (fst k) (tri3 s) 1 * val m (w1 (fst (fst (tri3 s))) 1%nat) p) - lam m (wh (fst k) a) (pos m gp)))) =
      lsum (wet_sides wet (snd k)) (fun s => ia (fst k) s j (s_e s) a - comp (s_n s) a * (comp (s_n s) 0 * ia (fst k) s j (s_e s) 0%nat + comp (s_n s) 1 * ia (fst k) s j (s_e s) 1%nat) - il (fst k) s j a)).
    { apply lsum_ext. intros s Hs. apply in_wet_sides in Hs. rewrite !(HO s _ (proj1 Hs)). apply wall_split. }
    rewrite FL, WL. clear FL WL HS HO FW.
    assert (Da : (a = 0 \/ a = 1)%nat) by lia. unfold is_wall.
    destruct (edge_cases m (fst k) (snd k) Hn) as [(f & E & Ek)|(b & E & Eb & Ek)]; rewrite E.
    - rewrite Ek in Wk, NL |- *. rewrite Ek in HH. unfold wet_sides, wet_edge, kernels_of in *. cbn [ge_kind ge_sides filter existsb forallb s_e] in *.
      destruct (i_kind f); [|exfalso; apply NL; reflexivity].
      destruct (wet (i_in f)), (wet (i_ex f)); cbn [andb orb negb] in *; try discriminate.
      + rewrite (HH (GSide (i_in f) (i_bin f) false (normal m (i_in f) (i_bin f)))). unfold lsum, flow_kernels. cbn [map fold_right fst snd s_e s_n].
        rewrite (edge_int_side (fst k) (tri3 (GSide (i_ex f) (i_bex f) true (opp (normal m (i_in f) (i_bin f))))) (tri3 (GSide (i_in f) (i_bin f) false (normal m (i_in f) (i_bin f)))) (fun gp => legendre_phi j (pos m gp) * lam m (wh (fst k) a) (pos m gp))).
        destruct Da as [->| ->]; unfold delta; cbn [Nat.eqb]; split; intros H; lra.
      + rewrite (HH (GSide (i_in f) (i_bin f) false (normal m (i_in f) (i_bin f)))). unfold lsum, wall_kernels. cbn [map fold_right fst snd s_e s_n].
        destruct Da as [->| ->]; unfold delta; cbn [Nat.eqb]; split; intros H; lra.
      + rewrite (HH (GSide (i_ex f) (i_bex f) true (opp (normal m (i_in f) (i_bin f))))). unfold lsum, wall_kernels. cbn [map fold_right fst snd s_e s_n].
        destruct Da as [->| ->]; unfold delta; cbn [Nat.eqb]; split; intros H; lra.
    - rewrite Eb. rewrite Ek in Wk |- *. rewrite Ek in HH. unfold wet_sides, wet_edge, kernels_of in *. cbn [ge_kind ge_sides filter existsb s_e] in *.
      destruct (wet (b_elt b)); cbn [orb] in *; [|discriminate].
      rewrite (HH (GSide (b_elt b) (b_id b) false (normal m (b_elt b) (b_id b)))). destruct (b_bc b); unfold lsum, wall_kernels, flow_kernels; cbn [map fold_right fst snd s_e s_n];
      destruct Da as [->| ->]; unfold delta; cbn [Nat.eqb]; split; intros H; lra.
  Qed.

  Lemma wet_k_edge : forall k, In k (numbered_edges m) -> wet_k m wet (fst k) = wet_edge wet (snd k).
  Proof.
    intros k Hk. apply numbered_nth in Hk. unfold wet_k, wet_edge. rewrite (spec_sides m _ _ Hk). induction (ge_sides (snd k)) as [|s l IH]; [reflexivity|]. cbn [map existsb]. rewrite IH. reflexivity.
  Qed.
  Lemma edges_iff : (forall k, In k (numbered_edges m) -> kernels_ok wet k) -> flat_edges m wet nb d x y z <-> edge_system m tau wet w1 w2 wh.
  Proof.
    intros HK. unfold flat_edges, edge_system. split.
    - intros HF k j a Hk Wk Hj Ha. rewrite <- (gedges_length m) in Hk. destruct (nth_error (gedges m) k) as [ed|] eqn:E; [|apply nth_error_None in E; lia].
      assert (Hin : In (k, ed) (numbered_edges m)) by (apply numbered_nth; exact E). pose proof (wet_k_edge _ Hin) as W. cbn [fst snd] in W. rewrite W in Wk.
      apply (row_3 (k, ed) j a Hin Wk (HK _ Hin Wk) Ha). apply HF; [exact Hin|exact Wk|]. unfold nhat. lia.
    - intros HF k l Hin Wk Hl. rewrite (Nat.div_mod l 2) by lia. pose proof (Nat.mod_upper_bound l 2 ltac:(lia)) as Hm. assert (Hj : (l / 2 < S (m_p m))%nat) by (apply Nat.div_lt_upper_bound; unfold nhat in Hl; lia).
      apply (row_3 k (l / 2) (l mod 2) Hin Wk (HK _ Hin Wk) Hm). apply HF; [|rewrite wet_k_edge; assumption|exact Hj|exact Hm].
      rewrite <- gedges_length. apply nth_error_Some. apply numbered_nth in Hin. rewrite Hin. discriminate.
  Qed.
  Theorem system_iff : (forall k, In k (numbered_edges m) -> kernels_ok wet k) ->
    (flat_system m wet nb d x y z <-> gn_system m alpha tau wet f_h f_b f_hh f_bh f_K w1 w2 wh).
  Proof.
    intros HK. unfold flat_system, gn_system, flat_elements, element_system. change (dubiner_ndof (m_p m)) with n2. rewrite (edges_iff HK). split.
    - intros [HE HF]. split; [|exact HF]. intros e i He We Hi. destruct (HE e He We) as [H1 H2]. split.
      + intros a Ha. apply (row_1 e i a He We Hi Ha). apply H1. lia.
      + apply (row_2 e i He We Hi). apply H2. exact Hi.
    - intros [HE HF]. split; [|exact HF]. intros e He We. split; intros l Hl.
      + rewrite (Nat.div_mod l 2) by lia. pose proof (Nat.mod_upper_bound l 2 ltac:(lia)) as Hm. assert (Hi : (l / 2 < n2)%nat) by (apply Nat.div_lt_upper_bound; lia).
        apply (row_1 e (l / 2) (l mod 2) He We Hi Hm). apply (HE e (l / 2)%nat He We Hi). exact Hm.
      + apply (row_2 e l He We Hl). apply (HE e l He We Hl).
  Qed.
End System.

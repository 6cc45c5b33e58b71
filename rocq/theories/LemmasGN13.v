(** Proofs: in water of constant depth over a level bed the dispersive system has one solution. *)
From Coq Require Import Reals List Arith Bool Lia Lra.
From Coquelicot Require Import Hierarchy RInt.
From Verif Require Import Num Outcome ModelSWE SpecSWE LemmasSWE ModelShape ModelBasis ModelJac ModelStep ModelIHDG ModelCond SpecShape SpecBasis SpecStepper SpecStep SpecStage
  LemmasRK LemmasShape LemmasBasis LemmasBasis2 LemmasBasis3 LemmasBasis4 LemmasStep LemmasStage3 LemmasStage4 LemmasCond ModelGN SpecGN LemmasGN1 LemmasGN2 LemmasGN3 LemmasGN4
  ModelInit SpecRest LemmasRest1 LemmasRest2 LemmasRest3 LemmasEHDG5 LemmasGN8 LemmasGN9.
Import ListNotations.
Open Scope R_scope.

Lemma rsum_nonneg : forall n f, (forall k, (k < n)%nat -> 0 <= f k) -> 0 <= rsum n f.
Proof. induction n as [|n IH]; intros f H; cbn [rsum]; [lra|]. pose proof (IH f ltac:(intros; apply H; lia)). pose proof (H n ltac:(lia)). lra. Qed.
Lemma rsum_zero : forall n f, (forall k, (k < n)%nat -> 0 <= f k) -> rsum n f = 0 -> forall k, (k < n)%nat -> f k = 0.
Proof.
  induction n as [|n IH]; intros f H E k Hk; [lia|]. cbn [rsum] in E. pose proof (rsum_nonneg n f ltac:(intros; apply H; lia)) as P. pose proof (H n ltac:(lia)) as Q.
  destruct (Nat.eq_dec k n) as [->|D]; [lra|]. apply (IH f); [intros; apply H; lia|lra|lia].
Qed.
Lemma lsum_nonneg : forall (A : Type) (l : list A) f, (forall x, In x l -> 0 <= f x) -> 0 <= lsum l f.
Proof. induction l as [|x l IH]; intros f H; [unfold lsum; cbn; lra|]. rewrite lsum_cons. pose proof (H x (or_introl eq_refl)). pose proof (IH f ltac:(intros; apply H; right; assumption)). lra. Qed.

(** ** Legendre polynomials by quadrature *)
Lemma leg_poly : forall j, (j <= 500)%nat -> poly_deg j (fun x _ => legendre_phi j x).
Proof.
  intros j Hj. apply (pd_ext j (fun x _ => jacobi_classical j 0 0 x)); [intros x _; unfold legendre_phi; rewrite (jacobi_ok j 0 0) by lia; reflexivity|].
  unfold jacobi_classical. apply (pd_bsum (S j) j (fun k x _ => jacobi_coeff j 0 0 k * ((1 - x) / 2) ^ k)). intros k Hk. apply pd_scal. apply (pd_le k); [lia|].
  apply (pd_pow (fun x _ => (1 - x) / 2)). apply (pd_ext 1 (fun x _ => / 2 + (- / 2) * x)); [intros; field|].
  apply pd_add; [apply (pd_le 0); [lia|apply pd_const]|]. apply (pd_scal (- / 2) 1 (fun x _ => x)). apply pd_x.
Qed.
Lemma quad1_poly : forall r d (f : R -> R) v, exact1 d r -> poly_deg d (fun x _ => f x) -> is_RInt f (-1) 1 v -> quad1 r f = v.
Proof.
  intros r d f v H P Hv. destruct (poly_terms d _ P) as (l & L & E).
  assert (E' : forall x, f x = tval l x 0) by (intros x; exact (E x 0)). clear E P.
  assert (A : quad1 r (fun x => tval l x 0) = lsum l (fun t => fst t * (moment (fst (snd t)) * 0 ^ snd (snd t))) /\
              is_RInt (fun x => tval l x 0) (-1) 1 (lsum l (fun t => fst t * (moment (fst (snd t)) * 0 ^ snd (snd t))))).
  { clear E' Hv v f. induction L as [|[c [a b]] l Hd L [I1 I2]].
    - split; [unfold quad1, tval, lsum; cbn; apply rsum_const0; intros; ring|].
      apply (is_RInt_eq (fun _ => 0) _ (-1) 1 (scal (1 - -1) 0)); [exact (is_RInt_const (-1) 1 0)|reflexivity|].
      unfold lsum, scal; cbn. unfold mult; cbn. ring.
    - cbn [fst snd] in Hd. rewrite lsum_cons. cbn [fst snd]. split.
      + rewrite <- I1, <- (quad1_pow r d a H) by lia. unfold quad1. rewrite <- rsum_scal_r, <- rsum_scal, <- rsum_plus. apply rsum_ext. intros gp _. unfold tval. rewrite lsum_cons. cbn [fst snd]. ring.
      + pose proof (is_RInt_plus _ _ _ _ _ _ (is_RInt_scal _ (-1) 1 (c * 0 ^ b) _ (int_moment a)) I2) as Q.
        refine (is_RInt_eq _ _ _ _ _ _ Q _ _).
        * intros x. unfold tval. rewrite lsum_cons. cbn [fst snd]. unfold plus, scal; cbn. unfold mult; cbn. ring.
        * unfold plus, scal; cbn. unfold mult; cbn. ring. }
  rewrite (quad1_ext r f _ E'). rewrite (proj1 A). apply (RInt_uniq f (-1) 1); [|exact Hv]. refine (is_RInt_ext _ _ _ _ _ _ (proj2 A)). intros x _. symmetry. apply E'.
Qed.

Section Energy.
  Context (i : input) (C : conforming i).
  Notation m := (init_mesh i).

  (** ** Testing with an expansion *)
  Lemma vol_test : forall e c (F : nat -> point -> R),
    rsum (ndof m) (fun j => c j * vol_int m e (fun gp z => GetPhi j z * F gp z)) = vol_int m e (fun gp z => val m c z * F gp z).
  Proof.
    intros e c F. rewrite (vol_int_ext m e (fun gp z => val m c z * F gp z) (fun gp z => rsum (ndof m) (fun j => c j * (GetPhi j z * F gp z)))).
    2:{ intros gp z. unfold val. change (dubiner_ndof (m_p m)) with (ndof m). rewrite <- rsum_scal_r. apply rsum_ext. intros. ring. }
    rewrite (vol_int_sum i e (ndof m) (fun j gp z => c j * (GetPhi j z * F gp z))). apply rsum_ext. intros j _. rewrite vol_int_scal. reflexivity.
  Qed.
  Lemma grad_test : forall e c H (A B : point -> R),
    rsum (ndof m) (fun j => c j * vol_int m e (fun gp z => (grad m 0 e (GetDPhi j z) * A z + grad m 1 e (GetDPhi j z) * B z) / H)) =
    vol_int m e (fun gp z => (dval m 0 e c z * A z + dval m 1 e c z * B z) / H).
  Proof.
    intros e c H A B.
    rewrite (vol_int_ext m e (fun gp z => (dval m 0 e c z * A z + dval m 1 e c z * B z) / H)
      (fun gp z => rsum (ndof m) (fun j => c j * ((grad m 0 e (GetDPhi j z) * A z + grad m 1 e (GetDPhi j z) * B z) / H)))).
    2:{ intros gp z. unfold dval. change (dubiner_ndof (m_p m)) with (ndof m). rewrite <- !rsum_scal_r, <- rsum_plus. unfold Rdiv. rewrite <- rsum_scal_r. apply rsum_ext. intros. ring. }
    rewrite (vol_int_sum i e (ndof m) (fun j gp z => c j * ((grad m 0 e (GetDPhi j z) * A z + grad m 1 e (GetDPhi j z) * B z) / H))). apply rsum_ext. intros j _. rewrite vol_int_scal. reflexivity.
  Qed.
  Lemma edge_int_ok : forall k s F G, (forall gp, (gp < ngp1 m)%nat -> F gp (pt m s gp) = G gp (pt m s gp)) -> edge_int m k s F = edge_int m k s G.
  Proof. intros k s F G H. unfold edge_int. f_equal. apply rsum_ext. intros gp Hg. rewrite (H gp Hg). reflexivity. Qed.
  Lemma edge_int_sum : forall k s n (F : nat -> nat -> point -> R), edge_int m k s (fun gp z => rsum n (fun j => F j gp z)) = rsum n (fun j => edge_int m k s (F j)).
  Proof.
    intros k s. induction n as [|n IH]; intros F; cbn [rsum]; [|rewrite edge_int_plus, IH; reflexivity].
    rewrite (edge_int_ext m k s _ (fun _ _ => 0 * 0)) by (intros; ring). rewrite edge_int_scal. ring.
  Qed.
  Lemma edge_test : forall k s n (c : nat -> R) (P : nat -> nat -> point -> R) (F : nat -> point -> R),
    rsum n (fun j => c j * edge_int m k s (fun gp z => P j gp z * F gp z)) = edge_int m k s (fun gp z => rsum n (fun j => c j * P j gp z) * F gp z).
  Proof.
    intros k s n c P F. rewrite (edge_int_ext m k s (fun gp z => rsum n (fun j => c j * P j gp z) * F gp z) (fun gp z => rsum n (fun j => c j * (P j gp z * F gp z)))).
    2:{ intros gp z. rewrite <- rsum_scal_r. apply rsum_ext. intros. ring. }
    rewrite (edge_int_sum k s n (fun j gp z => c j * (P j gp z * F gp z))). apply rsum_ext. intros j _. rewrite edge_int_scal. reflexivity.
  Qed.
  Lemma at_sides_test : forall e n (c : nat -> R) (G : nat -> nat -> nat * nat * bool -> R),
    rsum n (fun j => c j * at_sides m e (G j)) = at_sides m e (fun k s => rsum n (fun j => c j * G j k s)).
  Proof.
    intros e n c G. unfold at_sides.
    rewrite (rsum_ext n _ (fun j => rsum (n_edges m) (fun k => c j * lsum (edge_sides m k) (fun s => if Nat.eqb (fst (fst s)) e then G j k s else 0)))) by (intros; rewrite rsum_scal; reflexivity).
    rewrite rsum_swap. apply rsum_ext. intros k _.
    rewrite (rsum_ext n _ (fun j => lsum (edge_sides m k) (fun s => c j * (if Nat.eqb (fst (fst s)) e then G j k s else 0)))).
    2:{ intros j _. induction (edge_sides m k) as [|s l IH]; [unfold lsum; cbn; ring|]. rewrite !lsum_cons, <- IH. ring. }
    induction (edge_sides m k) as [|s l IH]; [unfold lsum; cbn; apply rsum_const0; reflexivity|].
    rewrite lsum_cons, <- IH, <- (rsum_ext n (fun j => c j * (if Nat.eqb (fst (fst s)) e then G j k s else 0) + lsum l (fun s => c j * (if Nat.eqb (fst (fst s)) e then G j k s else 0))))
      by (intros; rewrite lsum_cons; reflexivity).
    rewrite rsum_plus. f_equal. destruct (Nat.eqb (fst (fst s)) e); [reflexivity|]. apply rsum_const0. intros. ring.
  Qed.
  Lemma at_sides_ext : forall e G G', (forall k s, (k < n_edges m)%nat -> In s (edge_sides m k) -> fst (fst s) = e -> G k s = G' k s) -> at_sides m e G = at_sides m e G'.
  Proof.
    intros e G G' H. unfold at_sides. apply rsum_ext. intros k Hk. apply lsum_ext. intros s Hs. destruct (Nat.eqb_spec (fst (fst s)) e) as [E|E]; [|reflexivity]. exact (H k s Hk Hs E).
  Qed.
  Lemma at_sides_plus : forall e G G', at_sides m e (fun k s => G k s + G' k s) = at_sides m e G + at_sides m e G'.
  Proof.
    intros e G G'. unfold at_sides. rewrite <- rsum_plus. apply rsum_ext. intros k _. rewrite <- lsum_plus. apply lsum_ext. intros s _. destruct (Nat.eqb (fst (fst s)) e); ring.
  Qed.
  Lemma at_sides_scal : forall e x G, at_sides m e (fun k s => x * G k s) = x * at_sides m e G.
  Proof.
    intros e x G. unfold at_sides. rewrite <- rsum_scal. apply rsum_ext. intros k _. rewrite <- lsum_scal. apply lsum_ext. intros s _. destruct (Nat.eqb (fst (fst s)) e); ring.
  Qed.

  (** ** Sides *)
  Lemma side_in : forall k s, (k < n_edges m)%nat -> In s (edge_sides m k) -> (fst (fst s) < m_n m)%nat /\ (snd (fst s) < 3)%nat.
  Proof.
    intros k s Hk Hs. destruct (side_edge i k s Hs Hk) as (ed & s' & E & H' & ->). exact (side_range m ed s' (once i C) (nth_error_In _ _ E) H').
  Qed.
  Lemma half_side_pos : forall e b, (e < m_n m)%nat -> (b < 3)%nat -> 0 < half_side (m_nodes m e) b.
  Proof.
    intros e b He Hb. rewrite <- half_side_J, surface_j. cbn [m_nodes init_mesh]. rewrite dist_sym. pose proof (dist_pos i C e b He Hb). lra.
  Qed.
  Lemma half_len_pos : forall k s, (k < n_edges m)%nat -> In s (edge_sides m k) -> 0 < half_len m k.
  Proof.
    intros k s Hk Hs. unfold half_len, first_side. destruct (edge_sides m k) as [|[[e b] f] l] eqn:E; [destruct Hs|].
    destruct (side_in k (e, b, f) Hk) as [A B]; [rewrite E; left; reflexivity|]. cbn [fst snd] in A, B |- *. apply half_side_pos; assumption.
  Qed.
  Lemma out_unit : forall k s, (k < n_edges m)%nat -> In s (edge_sides m k) -> out_n m k s 0 * out_n m k s 0 + out_n m k s 1 * out_n m k s 1 = 1.
  Proof.
    intros k s Hk Hs. unfold out_n, first_side. destruct (edge_sides m k) as [|[[e b] f] l] eqn:E; [destruct Hs|].
    destruct (side_in k (e, b, f) Hk) as [A B]; [rewrite E; left; reflexivity|]. cbn [fst snd] in A, B |- *.
    destruct (normal_unit m e b) as [U _]; [pose proof (cf_triangles i C e A); cbn [m_nodes init_mesh]; lra|exact B|]. unfold unit2 in U. destruct (snd s); nra.
  Qed.
  (** Summing over the wet elements meets every wet side once. *)
  Lemma all_wet_sides : forall (wet : nat -> bool) G, rsum (m_n m) (fun e => if wet e then at_sides m e G else 0) =
    rsum (n_edges m) (fun k => lsum (filter (wet_side wet) (edge_sides m k)) (G k)).
  Proof.
    intros wet G. unfold at_sides.
    rewrite (rsum_ext (m_n m) _ (fun e => rsum (n_edges m) (fun k => lsum (edge_sides m k) (fun s => if Nat.eqb e (fst (fst s)) then (if wet (fst (fst s)) then G k s else 0) else 0)))).
    2:{ intros e _. destruct (wet e) eqn:W.
        - apply rsum_ext. intros k _. apply lsum_ext. intros s _. rewrite (Nat.eqb_sym e). destruct (Nat.eqb_spec (fst (fst s)) e) as [->|D]; [rewrite W; reflexivity|reflexivity].
        - symmetry. apply rsum_const0. intros k _. apply lsum_const0. intros s _. destruct (Nat.eqb_spec e (fst (fst s))) as [<-|D]; [rewrite W; reflexivity|reflexivity]. }
    rewrite rsum_swap. apply rsum_ext. intros k Hk. rewrite lsum_filter.
    assert (HL : forall s, In s (edge_sides m k) -> (fst (fst s) < m_n m)%nat) by (intros s Hs; apply (side_in k s Hk Hs)).
    induction (edge_sides m k) as [|s l IH]; [unfold lsum; cbn; apply rsum_const0; reflexivity|].
    rewrite lsum_cons, <- IH by (intros; apply HL; right; assumption).
    rewrite (rsum_ext (m_n m) _ (fun e => (if Nat.eqb e (fst (fst s)) then (if wet (fst (fst s)) then G k s else 0) else 0) +
      lsum l (fun s => if Nat.eqb e (fst (fst s)) then (if wet (fst (fst s)) then G k s else 0) else 0))) by (intros; rewrite lsum_cons; reflexivity).
    rewrite rsum_plus. f_equal. rewrite (LemmasStage4.rsum_one (m_n m) _ (fst (fst s))); [rewrite Nat.eqb_refl; reflexivity|apply HL; left; reflexivity|].
    intros e _ D. destruct (Nat.eqb_spec e (fst (fst s))); [congruence|reflexivity].
  Qed.
End Energy.

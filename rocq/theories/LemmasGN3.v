(** Proofs: the numbering of the edges, and the solution of the condensed system. *)
From Coq Require Import Reals List Arith Bool Lia Lra Permutation.
From Verif Require Import Num Outcome ModelSWE LemmasSWE ModelStep ModelIHDG ModelCond SpecStepper SpecStep SpecStage SpecCond LemmasRK LemmasStep LemmasCond ModelGN LemmasGN1 LemmasGN2 LemmasSquare.
Import ListNotations.
Open Scope R_scope.

(** ** Sums over the sides of the mesh *)
Lemma perm_faces : forall m e, faces_once m -> (e < m_n m)%nat ->
  Permutation (filter (fun p => Nat.eqb (fst p) e) (all_sides m)) (map (fun b => (e, b)) (seq 0 3)).
Proof.
  intros m e [N I] He. apply NoDup_Permutation.
  - apply NoDup_filter. exact N.
  - apply FinFun.Injective_map_NoDup; [intros a b E; injection E; auto|apply seq_NoDup].
  - intros [e' b]. rewrite filter_In, in_map_iff. cbn [fst]. rewrite Nat.eqb_eq. split.
    + intros [H ->]. apply I in H. exists b. split; [reflexivity|apply in_seq; lia].
    + intros (b' & E & H). injection E as <- <-. apply in_seq in H. split; [apply I; lia|reflexivity].
Qed.
Lemma lsum_filter : forall (X : Type) (p : X -> bool) l f, lsum (filter p l) f = lsum l (fun x => if p x then f x else 0).
Proof.
  induction l as [|x l IH]; intros f; [reflexivity|]. cbn [filter]. rewrite lsum_cons. destruct (p x); [rewrite lsum_cons, IH; reflexivity|rewrite IH; ring].
Qed.
Lemma sides_sum : forall m e (g : nat -> R), faces_once m -> (e < m_n m)%nat ->
  lsum (gedges m) (fun ed => lsum (ge_sides ed) (fun s => if Nat.eqb (s_e s) e then g (s_b s) else 0)) = rsum 3 g.
Proof.
  intros m e g HM He. rewrite <- lsum_flat_map.
  rewrite <- (lsum_map _ _ (fun s => (s_e s, s_b s)) _ (fun p => if Nat.eqb (fst p) e then g (snd p) else 0)), gedges_sides.
  rewrite <- (lsum_filter _ (fun p => Nat.eqb (fst p) e) _ (fun p => g (snd p))).
  rewrite (lsum_perm _ _ _ _ (perm_faces m e HM He)), lsum_map. cbn [snd]. rewrite lsum_seq. reflexivity.
Qed.

(** ** The numbering *)
Lemma number_sides : forall (l : list gside) (c : nat) F e b, fold_left (fun F s => upd2 F (s_e s) (s_b s) c) l F e b =
  if existsb (fun s => Nat.eqb (s_e s) e && Nat.eqb (s_b s) b) l then c else F e b.
Proof.
  induction l as [|s l IH]; intros c F e b; [reflexivity|]. cbn [fold_left existsb]. rewrite IH.
  destruct (existsb _ l); [rewrite orb_true_r; reflexivity|]. rewrite orb_false_r. unfold upd2, upd.
  rewrite (Nat.eqb_sym e (s_e s)). destruct (Nat.eqb_spec (s_e s) e) as [<-|]; cbn [andb]; [|reflexivity].
  rewrite (Nat.eqb_sym b (s_b s)). destruct (Nat.eqb (s_b s) b); reflexivity.
Qed.
Section Numbering.
  Context (wet : nat -> bool).
  Definition has (p : nat * nat) (x : nat * gedge) : Prop := In p (map (fun s => (s_e s, s_b s)) (ge_sides (snd x))).
  Lemma number_other : forall l nb, let nb' := fold_left (number_edge wet) l nb in
    (forall i, ~ In i (map fst l) -> n_edge nb' i = n_edge nb i) /\
    (forall e b, (forall x, In x l -> ~ has (e, b) x) -> n_face nb' e b = n_face nb e b).
  Proof.
    induction l as [|[i ed] l IH]; intros nb; cbn [fold_left]; [auto|]. destruct (IH (number_edge wet nb (i, ed))) as [I1 I2]. split.
    - intros j Hj. cbn [map fst In] in Hj. rewrite I1 by tauto. unfold number_edge. destruct (wet_edge wet ed); [|reflexivity]. cbn [n_edge]. apply upd_other. intros E. apply Hj. left. symmetry. exact E.
    - intros e b H. rewrite I2 by (intros x Hx; apply H; right; exact Hx). unfold number_edge. destruct (wet_edge wet ed); [|reflexivity]. cbn [n_face].
      rewrite number_sides. destruct (existsb _ (ge_sides ed)) eqn:E; [|reflexivity]. exfalso. apply existsb_exists in E. destruct E as (s & Hs & E).
      apply andb_true_iff in E. destruct E as [E1 E2]. apply Nat.eqb_eq in E1, E2. apply (H (i, ed)); [left; reflexivity|]. unfold has. apply in_map_iff. exists s. cbn. rewrite E1, E2. auto.
  Qed.
  Lemma number_ok : forall l nb, NoDup (map fst l) -> NoDup (flat_map (fun x => map (fun s => (s_e s, s_b s)) (ge_sides (snd x))) l) ->
    let nb' := fold_left (number_edge wet) l nb in
    (forall x s, In x l -> wet_edge wet (snd x) = true -> In s (ge_sides (snd x)) -> n_face nb' (s_e s) (s_b s) = n_edge nb' (fst x)) /\
    (exists n, n_count nb' = (n_count nb + n)%nat /\ map (fun x => n_edge nb' (fst x)) (filter (fun x => wet_edge wet (snd x)) l) = seq (n_count nb) n).
  Proof.
    induction l as [|[i ed] l IH]; intros nb N1 N2; cbn [fold_left].
    - cbn. split; [intros ? ? []|exists 0%nat; split; [lia|reflexivity]].
    - cbn [map fst] in N1. inversion N1 as [|? ? A1 A2]; subst. cbn [flat_map snd] in N2.
      assert (B : NoDup (flat_map (fun x => map (fun s => (s_e s, s_b s)) (ge_sides (snd x))) l) /\ (forall x s, In x l -> In s (ge_sides ed) -> ~ has (s_e s, s_b s) x)).
      { split.
        - clear - N2. induction (map (fun s => (s_e s, s_b s)) (ge_sides ed)) as [|p q IHq]; [exact N2|]. cbn in N2. inversion N2. auto.
        - intros x s Hx Hs Hh. assert (P : In (s_e s, s_b s) (map (fun s => (s_e s, s_b s)) (ge_sides ed))) by (apply in_map_iff; exists s; auto).
          apply in_split in P. destruct P as (l1 & l2 & P). rewrite P in N2. rewrite <- app_assoc in N2. cbn [app] in N2. apply NoDup_remove_2 in N2. apply N2.
          apply in_or_app. right. apply in_or_app. right. apply in_flat_map. exists x. split; [exact Hx|exact Hh]. }
      destruct B as [B1 B2]. destruct (IH (number_edge wet nb (i, ed)) A2 B1) as (I1 & n & I2 & I3). destruct (number_other l (number_edge wet nb (i, ed))) as [O1 O2].
      cbn [filter snd]. split.
      + intros x s [<-|Hx] Wx Hs; [|apply I1; assumption]. cbn [fst snd] in *. rewrite O1 by exact A1. rewrite O2 by (intros x Hx; apply B2; assumption).
        unfold number_edge. rewrite Wx. cbn [n_edge n_face]. rewrite number_sides, upd_same.
        destruct (existsb _ (ge_sides ed)) eqn:E; [reflexivity|]. exfalso. rewrite <- not_true_iff_false in E. apply E. apply existsb_exists. exists s. rewrite !Nat.eqb_refl. auto.
      + destruct (wet_edge wet ed) eqn:We.
        * exists (S n). cbn [map fst]. unfold number_edge in I2, I3, O1 |- *. rewrite We in *. cbn [n_count n_edge n_face] in *. rewrite I2, I3. split; [lia|]. cbn [seq]. f_equal. rewrite O1 by exact A1. apply upd_same.
        * exists n. unfold number_edge in I2, I3 |- *. rewrite We in *. split; assumption.
  Qed.
End Numbering.
Lemma numbered_nodup : forall m, faces_once m -> NoDup (map fst (numbered_edges m)) /\
  NoDup (flat_map (fun x : nat * gedge => map (fun s => (s_e s, s_b s)) (ge_sides (snd x))) (numbered_edges m)).
Proof.
  intros m [N _]. split; [rewrite numbered_fst; apply seq_NoDup|].
  rewrite <- gedges_sides in N. rewrite <- (numbered_snd m) in N.
  replace (flat_map (fun x : nat * gedge => map (fun s => (s_e s, s_b s)) (ge_sides (snd x))) (numbered_edges m))
     with (map (fun s => (s_e s, s_b s)) (flat_map ge_sides (map snd (numbered_edges m)))); [exact N|].
  clear N. induction (numbered_edges m) as [|x l IH]; [reflexivity|]. cbn [map flat_map]. rewrite map_app. f_equal. exact IH.
Qed.
Lemma fold_num_ok : forall m wet nb, faces_once m -> n_count nb = 0%nat -> num_ok m wet (fold_left (number_edge wet) (numbered_edges m) nb).
Proof.
  intros m wet nb HM H0. destruct (numbered_nodup m HM) as [N1 N2]. destruct (number_ok wet (numbered_edges m) nb N1 N2) as (I1 & n & I2 & I3).
  split; [exact I1|]. rewrite I2, I3, H0. reflexivity.
Qed.
Lemma wet_edge_all : forall m x, In x (numbered_edges m) -> wet_edge (fun _ => true) (snd x) = true.
Proof.
  intros m x H. apply in_numbered in H. unfold gedges in H. apply in_app_or in H. destruct H as [H|H]; apply in_map_iff in H; destruct H as (f & <- & _); reflexivity.
Qed.
Lemma first_num_ok : forall m, faces_once m -> num_ok m (fun _ => true) (first_numbering m).
Proof. intros m HM. apply fold_num_ok; [exact HM|reflexivity]. Qed.
Lemma num_ok_ext : forall m wet wet' nb, faces_once m -> (forall e, (e < m_n m)%nat -> wet e = wet' e) -> num_ok m wet nb -> num_ok m wet' nb.
Proof.
  intros m wet wet' nb HM H [A B]. assert (E : forall x, In x (numbered_edges m) -> wet_edge wet (snd x) = wet_edge wet' (snd x)).
  { intros x Hx. unfold wet_edge. assert (Q : forall s, In s (ge_sides (snd x)) -> wet (s_e s) = wet' (s_e s)) by (intros s Hs; apply H; eapply side_range; [exact HM|apply in_numbered; exact Hx|exact Hs]).
    clear - Q. induction (ge_sides (snd x)) as [|s l IH]; [reflexivity|]. cbn. rewrite Q by (left; reflexivity). f_equal. apply IH. intros t Ht. apply Q. right. exact Ht. }
  split.
  - intros x s Hx Wx. apply A; [exact Hx|]. rewrite E by exact Hx. exact Wx.
  - rewrite <- B. f_equal. apply filter_ext_in. intros x Hx. symmetry. apply E. exact Hx.
Qed.
(** Without wetting and drying the first numbering stays, and every element is wet. *)
Lemma renumber_ok : forall m wd wet nb, faces_once m -> (wd = false -> num_ok m (fun _ => true) nb /\ forall e, (e < m_n m)%nat -> wet e = true) ->
  num_ok m wet (renumber m wd wet nb).
Proof.
  intros m wd wet nb HM H. unfold renumber. destruct wd; [apply fold_num_ok; [exact HM|reflexivity]|]. destruct (H eq_refl) as [H1 H2].
  apply (num_ok_ext m (fun _ => true)); [exact HM|intros e He; symmetry; apply H2; exact He|exact H1].
Qed.

Section Schur.
  Context (m : mesh) (wet : nat -> bool) (d : dcsys) (inverse : nat -> (nat -> nat -> R) -> nat -> nat -> R).
  Notation n1 := (2 * ndof m)%nat.
  Notation n2 := (ndof m).
  Notation nh := (nhat m).
  Context (inv_ok : forall e, (e < m_n m)%nat -> wet e = true -> two_sided n2 (d_22 d e) (inv22 m inverse d e)).
  Lemma mul_zero : forall n M i, mul n M (fun _ => 0) i = 0.
  Proof. intros. unfold mul. apply rsum_const0. intros. ring. Qed.
  Lemma fsum_zero : forall M l, fsum nh (fun _ _ => 0) M l = 0.
  Proof. intros. unfold fsum. apply rsum_const0. intros. apply mul_zero. Qed.
  (** A solution of the Schur complement is one of the element problem. *)
  Lemma schur_el : forall e r x, (e < m_n m)%nat -> wet e = true -> solves n1 (cond_11 m inverse d e) r x ->
    let y := fun l => - mul n2 (inv22 m inverse d e) (fun p => mul n1 (d_21 d e) x p) l in
    el1 n1 n2 nh (d_11 d e) (d_12 d e) r (d_1h d e) (fun _ _ => 0) x y /\ el2 n1 n2 nh (d_21 d e) (d_22 d e) (d_2h d e) (fun _ _ => 0) x y.
  Proof.
    intros e r x He We H y. pose proof (inv_ok e He We) as HI. split.
    - intros l Hl. rewrite fsum_zero. specialize (H l Hl). change (mul n1 (cond_11 m inverse d e) x l = r l) in H.
      unfold cond_11 in H. rewrite mul_minus2, !mul_mm in H. unfold y.
      rewrite (mul_opp n2 (d_12 d e) (mul n2 (inv22 m inverse d e) (fun p => mul n1 (d_21 d e) x p)) l). rewrite <- H.
      change (mul n2 (inv22 m inverse d e) (fun p => mul n1 (d_21 d e) x p)) with (mul n2 (inv22 m inverse d e) (mul n1 (d_21 d e) x)). ring.
    - intros l Hl. rewrite fsum_zero. unfold y. rewrite (mul_opp n2 (d_22 d e) (mul n2 (inv22 m inverse d e) (fun p => mul n1 (d_21 d e) x p)) l), mul_inverse by assumption. ring.
  Qed.
End Schur.

Section Solution.
  Context (m : mesh) (wet : nat -> bool) (nb : numbering) (d : dcsys).
  Context (inverse : nat -> (nat -> nat -> R) -> nat -> nat -> R) (solve_dense : nat -> (nat -> nat -> R) -> (nat -> R) -> nat -> R)
          (solve_sparse : nat -> (nat -> nat -> R) -> (nat -> R) -> nat -> R).
  Context (HM : faces_once m) (HN : num_ok m wet nb).
  Context (OI : inverse_ok inverse) (OD : solver_ok solve_dense) (OS : solver_ok solve_sparse).
  Notation n1 := (2 * ndof m)%nat.
  Notation n2 := (ndof m).
  Notation nh := (nhat m).
  Definition no_load : dcsys := DC (d_11 d) (d_12 d) (d_21 d) (d_22 d) (fun _ _ => 0) (d_1h d) (d_2h d) (d_h1 d) (d_h2 d) (d_hh d).

  (** The homogeneous problems have only the zero solution. *)
  Definition flat_22 : Prop := forall e y, (e < m_n m)%nat -> wet e = true -> (forall i, (i < n2)%nat -> mul n2 (d_22 d e) y i = 0) -> agree n2 y (fun _ => 0).
  Definition flat_local : Prop := forall e x y, (e < m_n m)%nat -> wet e = true ->
    el1 n1 n2 nh (d_11 d e) (d_12 d e) (fun _ => 0) (d_1h d e) (fun _ _ => 0) x y -> el2 n1 n2 nh (d_21 d e) (d_22 d e) (d_2h d e) (fun _ _ => 0) x y -> agree n1 x (fun _ => 0).
  Definition flat_coupled : Prop := forall x y z, flat_system m wet nb no_load x y z ->
    forall e j, In e (numbered_edges m) -> wet_edge wet (snd e) = true -> (j < nh)%nat -> ze_ m nb z (fst e) j = 0.
  Context (U22 : flat_22) (UL : flat_local) (UC : flat_coupled).

  Lemma inv_ok : forall e, (e < m_n m)%nat -> wet e = true -> two_sided n2 (d_22 d e) (inv22 m inverse d e).
  Proof. intros e He We. apply OI. apply injective_inverse. intros x Hx. apply (U22 e x He We). exact Hx. Qed.
  Lemma schur_zero : forall e x, (e < m_n m)%nat -> wet e = true -> solves n1 (cond_11 m inverse d e) (fun _ => 0) x -> agree n1 x (fun _ => 0).
  Proof.
    intros e x He We H. destruct (schur_el m wet d inverse inv_ok e (fun _ => 0) x He We H) as [A B]. exact (UL e _ _ He We A B).
  Qed.
  Lemma solves_minus : forall n M v x x', solves n M v x -> solves n M v x' -> solves n M (fun _ => 0) (fun c => x c - x' c).
  Proof.
    intros n M v x x' H H' r Hr. rewrite (rsum_ext n _ (fun c => M r c * x c - M r c * x' c)) by (intros; ring). rewrite rsum_minus, (H r Hr), (H' r Hr). ring.
  Qed.
  Lemma injective_unique : forall n M v x x', (forall x, solves n M (fun _ => 0) x -> agree n x (fun _ => 0)) -> solves n M v x -> solves n M v x' -> agree n x x'.
  Proof. intros n M v x x' HI H H' r Hr. apply Rminus_diag_uniq. exact (HI _ (solves_minus n M v x x' H H') r Hr). Qed.
  Lemma injective_solver : forall solve n M v, solver_ok solve -> (forall x, solves n M (fun _ => 0) x -> agree n x (fun _ => 0)) -> solves n M v (solve n M v).
  Proof.
    intros solve n M v OK HI. apply OK. destruct (injective_solvable n M HI v) as (x & Hx). exists x. split; [exact Hx|]. intros y Hy. exact (injective_unique n M v x y HI Hx Hy).
  Qed.
  Lemma schur_unique : forall e v x x', (e < m_n m)%nat -> wet e = true ->
    solves n1 (cond_11 m inverse d e) v x -> solves n1 (cond_11 m inverse d e) v x' -> agree n1 x x'.
  Proof. intros e v x x' He We. apply injective_unique. intros y. apply schur_zero; assumption. Qed.
  Lemma schur_solver : forall e v, (e < m_n m)%nat -> wet e = true -> solves n1 (cond_11 m inverse d e) v (solve_dense n1 (cond_11 m inverse d e) v).
  Proof. intros e v He We. apply injective_solver; [exact OD|]. intros y. apply schur_zero; assumption. Qed.

  Notation F' := (cond_1h m inverse solve_dense d).
  Notation r' := (cond_r m inverse solve_dense d).
  (** ** Back-substitution *)
  Lemma back_sides : forall (l : list gside) (v : gside -> nat -> R) r e k,
    fold_left (fun r s => upd r (s_e s) (fun l0 => r (s_e s) l0 - v s l0)) l r e k =
    r e k - lsum l (fun s => if Nat.eqb (s_e s) e then v s k else 0).
  Proof.
    induction l as [|s l IH]; intros v r e k; cbn [fold_left]; [unfold lsum; cbn; ring|]. rewrite IH, lsum_cons. unfold upd.
    rewrite (Nat.eqb_sym e). destruct (Nat.eqb_spec (s_e s) e) as [E|E]; [subst|]; ring.
  Qed.
  Lemma back_ok : forall sol l r, (forall x, In x l -> (n_edge nb (fst x) < n_count nb)%nat) ->
    exists r1, ofold (back_edge m inverse solve_dense wet nb d sol) l r = Ok r1 /\ forall e k, r1 e k = r e k -
      lsum l (fun x => lsum (wet_sides wet (snd x)) (fun s => if Nat.eqb (s_e s) e then mul nh (F' (s_e s) (s_b s)) (ze_ m nb sol (fst x)) k else 0)).
  Proof.
    induction l as [|x l IH]; intros r H; cbn [ofold].
    - exists r. split; [reflexivity|]. intros. unfold lsum. cbn. ring.
    - unfold back_edge at 1. assert (L : Nat.leb (n_edge nb (fst x) * nh + nh) (nh * n_count nb) = true).
      { apply Nat.leb_le. specialize (H x (or_introl eq_refl)). nia. }
      rewrite L. cbn [bind]. destruct (IH (fold_left (fun r s => upd r (s_e s) (fun l0 => r (s_e s) l0 - mv nh (F' (s_e s) (s_b s)) (fun j => sol (n_edge nb (fst x) * nh + j)%nat) l0)) (wet_sides wet (snd x)) r)) as (r1 & S1 & E1).
      + intros y Hy. apply H. right. exact Hy.
      + exists r1. split; [exact S1|]. intros e k. rewrite E1, back_sides, lsum_cons.
        match goal with |- ?a - ?b - ?c = ?a - (?b' + ?c) => assert (Q : b = b'); [|rewrite Q; ring] end.
        apply lsum_ext. intros s _. destruct (Nat.eqb (s_e s) e); [|reflexivity]. rewrite mv_mul. reflexivity.
  Qed.
  Lemma back_sum : forall sol e k, (e < m_n m)%nat -> wet e = true ->
    lsum (numbered_edges m) (fun x => lsum (wet_sides wet (snd x)) (fun s => if Nat.eqb (s_e s) e then mul nh (F' (s_e s) (s_b s)) (ze_ m nb sol (fst x)) k else 0)) =
    fsum nh (zf m nb sol e) (F' e) k.
  Proof.
    intros sol e k He We. unfold fsum. rewrite <- (sides_sum m e (fun b => mul nh (F' e b) (zf m nb sol e b) k) HM He).
    rewrite <- (numbered_snd m), lsum_map. apply lsum_ext. intros x Hx. unfold wet_sides. rewrite lsum_filter. apply lsum_ext. intros s Hs.
    destruct (Nat.eqb_spec (s_e s) e) as [E|E]; [|destruct (wet (s_e s)); reflexivity]. rewrite E, We. apply mul_ext; [reflexivity|]. intros j _. unfold zf, ze_. f_equal. f_equal. f_equal.
    rewrite <- E. symmetry. apply (no_face m wet nb HN); [exact Hx| |exact Hs]. apply existsb_exists. exists s. rewrite E. auto.
  Qed.

  Lemma index_covers : forall r, (r < nh * n_count nb)%nat -> exists e j, In e (numbered_edges m) /\ wet_edge wet (snd e) = true /\ (j < nh)%nat /\ r = (n_edge nb (fst e) * nh + j)%nat.
  Proof.
    intros r Hr. pose proof (nh_pos m) as P. assert (Q : In (r / nh)%nat (seq 0 (n_count nb))).
    { apply in_seq. split; [lia|]. apply Nat.div_lt_upper_bound; lia. }
    rewrite <- (no_seq m wet nb HN) in Q. apply in_map_iff in Q. destruct Q as (e & E & Q). apply filter_In in Q.
    exists e, (r mod nh)%nat. split; [apply Q|]. split; [apply Q|]. split; [apply Nat.mod_upper_bound; lia|]. rewrite E. rewrite (Nat.div_mod r nh) at 1 by lia. lia.
  Qed.

  (** The condensed matrix has trivial kernel. *)
  Notation ts := (all_triplets m wet nb d inverse solve_dense).
  Lemma flat_zero : flat_system m wet nb no_load (fun _ _ => 0) (fun _ _ => 0) (fun _ => 0).
  Proof.
    assert (FZ : forall (M : nat -> nat -> nat -> R) e l, fsum nh (zf m nb (fun _ => 0) e) M l = 0) by (intros; exact (fsum_zero m M l)).
    split.
    - intros e He We. split; intros l Hl; rewrite FZ, !mul_zero; cbn; ring.
    - intros e k He We Hk. unfold edge_eq. change (ze_ m nb (fun _ => 0) (fst e)) with (fun _ : nat => 0). rewrite mul_zero, lsum_const0; [ring|]. intros s _. unfold side_eq. rewrite !mul_zero. ring.
  Qed.
  Lemma condensed_injective : forall z, solves (nh * n_count nb) (entry ts) (fun _ => 0) z -> agree (nh * n_count nb) z (fun _ => 0).
  Proof.
    intros z Hz. destruct (condensed m wet nb no_load inverse solve_dense HM HN) as (w0 & _ & _ & EQ).
    change (all_triplets m wet nb no_load inverse solve_dense) with ts in EQ.
    assert (FI : forall z, flat_edges m wet nb no_load (xz m nb no_load inverse solve_dense z) (yz m nb no_load inverse solve_dense z) z <-> exists x y, flat_system m wet nb no_load x y z).
    { exact (flat_iff m wet nb no_load inverse solve_dense HM inv_ok schur_solver schur_unique). }
    assert (W0 : forall r, (r < nh * n_count nb)%nat -> w0 r = 0).
    { intros r Hr. assert (Q : solves (nh * n_count nb) (entry ts) w0 (fun _ => 0)) by (apply EQ; apply FI; exists (fun _ _ => 0), (fun _ _ => 0); exact flat_zero).
      rewrite <- (Q r Hr). apply rsum_const0. intros. ring. }
    assert (Q : solves (nh * n_count nb) (entry ts) w0 z) by (intros r Hr; rewrite W0 by exact Hr; apply Hz; exact Hr).
    apply EQ, FI in Q. destruct Q as (x & y & Q). intros r Hr. destruct (index_covers r Hr) as (e & j & He & We & Hj & ->). exact (UC x y z Q e j He We Hj).
  Qed.

  (** Every edge, dry ones too, carries a number below the count. *)
  Theorem solve_dc_ok : (forall x, In x (numbered_edges m) -> (n_edge nb (fst x) < n_count nb)%nat) ->
    exists w1, solve_dc m inverse solve_dense solve_sparse wet nb d = Ok w1 /\
    (exists x y z, flat_system m wet nb d x y z) /\
    forall x y z, flat_system m wet nb d x y z -> forall e a i, (e < m_n m)%nat -> wet e = true -> (a < 2)%nat -> (i < ndof m)%nat -> w1 e a i = x e (2 * i + a)%nat.
  Proof.
    intros HR.
    destruct (condensed m wet nb d inverse solve_dense HM HN) as (w & S1 & RG & EQ).
    unfold solve_dc. rewrite S1. cbn [bind]. rewrite RG.
    set (sol := solve_sparse (nh * n_count nb)%nat (entry ts) w).
    assert (FI : forall z, flat_edges m wet nb d (xz m nb d inverse solve_dense z) (yz m nb d inverse solve_dense z) z <-> exists x y, flat_system m wet nb d x y z).
    { exact (flat_iff m wet nb d inverse solve_dense HM inv_ok schur_solver schur_unique). }
    assert (SS : solves (nh * n_count nb) (entry ts) w sol) by (apply injective_solver; [exact OS|exact condensed_injective]).
    destruct (back_ok sol (numbered_edges m) r' HR) as (r1 & S2 & E2). rewrite S2. cbn [bind].
    eexists. split; [reflexivity|]. split.
    - pose proof (proj1 (EQ sol) SS) as Q. apply FI in Q. destruct Q as (x & y & Q). exists x, y, sol. exact Q.
    - intros x y z H e a i He We Ha Hi. cbv beta. rewrite E2, back_sum by assumption.
      change (xz m nb d inverse solve_dense sol e (2 * i + a)%nat = x e (2 * i + a)%nat).
      assert (Z : agree (nh * n_count nb) sol z).
      { apply (injective_unique _ (entry ts) w); [exact condensed_injective|exact SS|]. apply EQ, FI. exists x, y. exact H. }
      destruct (elements_xz m wet nb d inverse solve_dense inv_ok schur_solver schur_unique x y z e (proj1 H) He We) as [V _].
      rewrite V by lia. unfold xz, x_of. f_equal. unfold fsum. apply rsum_ext. intros b Hb. apply mul_ext; [reflexivity|]. intros j Hj. unfold zf. apply Z.
      destruct (face_index m wet nb HM HN e b He Hb We) as (k & Hk & Wk & ->). pose proof (wet_index m wet nb HN k Hk Wk). nia.
  Qed.
End Solution.

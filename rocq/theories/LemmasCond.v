(** Static condensation: assembled matrix and back-substitution against the full system. *)
From Coq Require Import Reals List Arith Bool Lia Lra Permutation.
From Verif Require Import Num Outcome ModelSWE LemmasSWE ModelCond SpecStepper SpecStep SpecCond LemmasRK LemmasStep.
Import ListNotations.
Open Scope R_scope.

(** ** Sums *)
Lemma nsum_rsum : forall n f, nsum n f = rsum n f.
Proof. induction n as [|n IH]; intros f; cbn [nsum rsum]; [reflexivity|]. rewrite IH. reflexivity. Qed.
Lemma mm_eq : forall k A B i j, mm k A B i j = rsum k (fun l => A i l * B l j).
Proof. intros. unfold mm. rewrite nsum_rsum. reflexivity. Qed.
Lemma mv_eq : forall k A v i, mv k A v i = rsum k (fun l => A i l * v l).
Proof. intros. unfold mv. rewrite nsum_rsum. reflexivity. Qed.
Lemma rsum_minus : forall n f g, rsum n (fun i => f i - g i) = rsum n f - rsum n g.
Proof. induction n; intros; cbn; [ring | rewrite IHn; ring]. Qed.
Lemma rsum_opp : forall n f, rsum n (fun i => - f i) = - rsum n f.
Proof. induction n; intros; cbn; [ring | rewrite IHn; ring]. Qed.
Lemma rsum_pick : forall n k (f : nat -> R), (k < n)%nat -> rsum n (fun i => if Nat.eqb i k then f i else 0) = f k.
Proof.
  induction n as [|n IH]; intros k f H; [lia|]. cbn [rsum]. destruct (Nat.eq_dec n k) as [->|D].
  - rewrite Nat.eqb_refl. rewrite (rsum_const0 k); [ring|]. intros i Hi. destruct (Nat.eqb_spec i k); [lia|reflexivity].
  - destruct (Nat.eqb_spec n k); [contradiction|]. rewrite IH by lia. ring.
Qed.

Lemma lsum_cons : forall (A : Type) (a : A) l f, lsum (a :: l) f = f a + lsum l f.
Proof. reflexivity. Qed.
Lemma lsum_app : forall (A : Type) (l1 l2 : list A) f, lsum (l1 ++ l2) f = lsum l1 f + lsum l2 f.
Proof. induction l1 as [|a l IH]; intros l2 f; cbn [app]; [unfold lsum at 2; cbn; ring|]. rewrite !lsum_cons, IH. ring. Qed.
Lemma lsum_flat_map : forall (A B : Type) (g : A -> list B) l f, lsum (flat_map g l) f = lsum l (fun a => lsum (g a) f).
Proof. induction l as [|a l IH]; intros f; cbn [flat_map]; [reflexivity|]. rewrite lsum_app, lsum_cons, IH. reflexivity. Qed.
Lemma lsum_map : forall (A B : Type) (g : A -> B) l f, lsum (map g l) f = lsum l (fun a => f (g a)).
Proof. intros. unfold lsum. rewrite map_map. reflexivity. Qed.
Lemma lsum_perm : forall (A : Type) (l l' : list A) f, Permutation l l' -> lsum l f = lsum l' f.
Proof. intros A l l' f H. induction H; rewrite ?lsum_cons; try (rewrite IHPermutation); lra. Qed.
Lemma lsum_plus : forall (A : Type) (l : list A) f g, lsum l (fun a => f a + g a) = lsum l f + lsum l g.
Proof. induction l as [|a l IH]; intros f g; [unfold lsum; cbn; ring|]. rewrite !lsum_cons, IH. ring. Qed.
Lemma lsum_minus : forall (A : Type) (l : list A) f g, lsum l (fun a => f a - g a) = lsum l f - lsum l g.
Proof. induction l as [|a l IH]; intros f g; [unfold lsum; cbn; ring|]. rewrite !lsum_cons, IH. ring. Qed.
Lemma lsum_const0 : forall (A : Type) (l : list A) f, (forall a, In a l -> f a = 0) -> lsum l f = 0.
Proof. intros A l f H. rewrite (lsum_ext A l f (fun _ => 0)) by exact H. apply lsum_zero. Qed.

(** ** Rows of the assembled matrix *)
Definition rowdot (ts : list (nat * nat * R)) (x : nat -> R) (r : nat) : R :=
  lsum ts (fun t => if Nat.eqb (fst (fst t)) r then snd t * x (snd (fst t)) else 0).

Lemma entry_lsum : forall ts r c,
  entry ts r c = lsum ts (fun t => if Nat.eqb (fst (fst t)) r && Nat.eqb (snd (fst t)) c then snd t else 0).
Proof.
  intros ts r c. unfold entry.
  assert (G : forall ts (s : R), fold_left (fun s (t : nat * nat * R) =>
      if Nat.eqb (fst (fst t)) r && Nat.eqb (snd (fst t)) c then nadd s (snd t) else s) ts s =
      s + lsum ts (fun t => if Nat.eqb (fst (fst t)) r && Nat.eqb (snd (fst t)) c then snd t else 0)).
  { clear ts. induction ts as [|t ts IH]; intros s; cbn [fold_left]; [unfold lsum; cbn; ring|].
    rewrite IH, lsum_cons. destruct (Nat.eqb _ r && _); num_R; ring. }
  rewrite G. num_R. ring.
Qed.

Lemma entry_dot : forall size ts x r, in_range size ts = true ->
  rsum size (fun c => entry ts r c * x c) = rowdot ts x r.
Proof.
  intros size ts x r H.
  rewrite (rsum_ext size _ (fun c => lsum ts (fun t => if Nat.eqb (fst (fst t)) r && Nat.eqb (snd (fst t)) c then snd t else 0) * x c))
    by (intros; rewrite entry_lsum; reflexivity).
  unfold rowdot. induction ts as [|t ts IH].
  - unfold lsum. cbn. apply rsum_const0. intros. ring.
  - cbn in H. apply andb_true_iff in H. destruct H as [Ht H]. apply andb_true_iff in Ht. destruct Ht as [_ Hc].
    apply Nat.ltb_lt in Hc. rewrite lsum_cons, <- (IH H).
    rewrite (rsum_ext size _ (fun c => (if Nat.eqb c (snd (fst t)) then (if Nat.eqb (fst (fst t)) r then snd t * x c else 0) else 0) +
      lsum ts (fun t0 => if Nat.eqb (fst (fst t0)) r && Nat.eqb (snd (fst t0)) c then snd t0 else 0) * x c)).
    + rewrite rsum_plus. f_equal.
      rewrite (rsum_pick size _ (fun c => if Nat.eqb (fst (fst t)) r then snd t * x c else 0)) by exact Hc. reflexivity.
    + intros c _. rewrite lsum_cons, (Nat.eqb_sym (snd (fst t)) c). destruct (Nat.eqb (fst (fst t)) r), (Nat.eqb c (snd (fst t))); cbn; ring.
Qed.

Lemma rowdot_app : forall a b x r, rowdot (a ++ b) x r = rowdot a x r + rowdot b x r.
Proof. intros. apply lsum_app. Qed.

(** f at the position of r in the index list. *)
Definition hit (rows : list nat) (r : nat) (f : nat -> R) : R :=
  rsum (length rows) (fun i => if Nat.eqb (nth i rows 0%nat) r then f i else 0).

Lemma hit_ext : forall rows r f g, (forall i, (i < length rows)%nat -> f i = g i) -> hit rows r f = hit rows r g.
Proof. intros. unfold hit. apply rsum_ext. intros i Hi. rewrite H by exact Hi. reflexivity. Qed.
Lemma hit_plus : forall rows r f g, hit rows r (fun i => f i + g i) = hit rows r f + hit rows r g.
Proof. intros. unfold hit. rewrite <- rsum_plus. apply rsum_ext. intros. destruct (Nat.eqb _ r); ring. Qed.
Lemma hit_minus : forall rows r f g, hit rows r (fun i => f i - g i) = hit rows r f - hit rows r g.
Proof. intros. unfold hit. rewrite <- rsum_minus. apply rsum_ext. intros. destruct (Nat.eqb _ r); ring. Qed.
Lemma hit_out : forall rows r f, ~ In r rows -> hit rows r f = 0.
Proof.
  intros rows r f H. unfold hit. apply rsum_const0. intros i Hi. destruct (Nat.eqb_spec (nth i rows 0%nat) r); [|reflexivity].
  exfalso. apply H. rewrite <- e. apply nth_In. exact Hi.
Qed.
Lemma hit_at : forall rows i f, NoDup rows -> (i < length rows)%nat -> hit rows (nth i rows 0%nat) f = f i.
Proof.
  intros rows i f D H. unfold hit. rewrite (rsum_ext _ _ (fun k => if Nat.eqb k i then f k else 0)).
  - apply rsum_pick. exact H.
  - intros k Hk. destruct (Nat.eqb_spec k i) as [->|E]; [rewrite Nat.eqb_refl; reflexivity|].
    destruct (Nat.eqb_spec (nth k rows 0%nat) (nth i rows 0%nat)) as [E2|]; [|reflexivity].
    exfalso. apply E. eapply (proj1 (NoDup_nth rows 0%nat)); eauto.
Qed.

Lemma rowdot_block : forall rows cols f x r,
  rowdot (block rows cols f) x r = hit rows r (fun i => rsum (length cols) (fun j => f i j * x (nth j cols 0%nat))).
Proof.
  intros rows cols f x r. unfold rowdot, block, hit. rewrite lsum_flat_map, <- lsum_seq. apply lsum_ext. intros i _.
  rewrite lsum_map. cbn [fst snd]. rewrite lsum_seq. destruct (Nat.eqb (nth i rows 0%nat) r); [reflexivity|]. apply rsum_0.
Qed.

Section Blocks.
  Context (els : nat -> elt R) (inv : nat -> nat -> nat -> R) (x : nat -> R).

  (** sum over the boundaries of B^hat dlambda. *)
  Definition hatsum (K m : nat) : R :=
    rsum (e_nbound (els K)) (fun b => rsum (length (b_dofs (e_bnd (els K) b))) (fun j =>
      b_hat (e_bnd (els K) b) m j * x (nth j (b_dofs (e_bnd (els K) b)) 0%nat))).
  (** the element update that goes with the trace update x. *)
  Definition dqx (K l : nat) : R :=
    rsum (3 * e_ndof (els K)) (fun m => inv K l m * (e_rhs (els K) m - hatsum K m)).

  Lemma side_block_sum : forall s b i n dofs,
    rsum n (fun j => side_block els inv s b i j * x (nth j dofs 0%nat)) =
    rsum (ldim els s) (fun l => b_glob (bnd_of els s) i l *
      rsum (ldim els s) (fun m => inv (fst s) l m * rsum n (fun j => b_hat (bnd_of els (fst s, b)) m j * x (nth j dofs 0%nat)))).
  Proof.
    intros s b i n dofs. set (k := ldim els s).
    rewrite (rsum_ext n _ (fun j => rsum k (fun m => rsum k (fun l => b_glob (bnd_of els s) i l * inv (fst s) l m) *
      b_hat (bnd_of els (fst s, b)) m j * x (nth j dofs 0%nat)))).
    2:{ intros j _. unfold side_block. rewrite mm_eq. fold k. rewrite <- rsum_scal_r. apply rsum_ext. intros m _. rewrite mm_eq. reflexivity. }
    rewrite rsum_swap.
    rewrite (rsum_ext k _ (fun m => rsum k (fun l => b_glob (bnd_of els s) i l * (inv (fst s) l m *
      rsum n (fun j => b_hat (bnd_of els (fst s, b)) m j * x (nth j dofs 0%nat)))))).
    2:{ intros m _. rewrite (rsum_ext n _ (fun j => rsum k (fun l => b_glob (bnd_of els s) i l * inv (fst s) l m) *
          (b_hat (bnd_of els (fst s, b)) m j * x (nth j dofs 0%nat)))) by (intros; ring).
        rewrite rsum_scal, <- rsum_scal_r. apply rsum_ext. intros. ring. }
    rewrite rsum_swap. apply rsum_ext. intros l _. rewrite <- rsum_scal. reflexivity.
  Qed.

  (** - sum_b G A^-1 B^hat_b x = G dq - G A^-1 r *)
  Lemma side_condensed : forall s i,
    - rsum (e_nbound (els (fst s))) (fun b => rsum (length (b_dofs (bnd_of els (fst s, b)))) (fun j =>
        side_block els inv s b i j * x (nth j (b_dofs (bnd_of els (fst s, b))) 0%nat))) =
    side_term els dqx i s - side_rhs els inv s i.
  Proof.
    intros s i. unfold side_term, side_rhs. rewrite mv_eq. set (k := ldim els s).
    rewrite (rsum_ext (e_nbound (els (fst s))) _ (fun b => rsum k (fun l => b_glob (bnd_of els s) i l *
      rsum k (fun m => inv (fst s) l m * rsum (length (b_dofs (bnd_of els (fst s, b)))) (fun j =>
        b_hat (bnd_of els (fst s, b)) m j * x (nth j (b_dofs (bnd_of els (fst s, b))) 0%nat)))))) by (intros; apply side_block_sum).
    rewrite rsum_swap.
    rewrite (rsum_ext k (fun l => mm k _ _ i l * _) (fun m => rsum k (fun l => b_glob (bnd_of els s) i l * (inv (fst s) l m * e_rhs (els (fst s)) m)))).
    2:{ intros m _. rewrite mm_eq, <- rsum_scal_r. apply rsum_ext. intros. ring. }
    rewrite (rsum_swap k k (fun m l => b_glob (bnd_of els s) i l * (inv (fst s) l m * e_rhs (els (fst s)) m))).
    change (3 * e_ndof (els (fst s)))%nat with k. rewrite <- rsum_opp, <- rsum_minus. apply rsum_ext. intros l _.
    rewrite !rsum_scal. change (e_bnd (els (fst s)) (snd s)) with (bnd_of els s). unfold dqx. change (3 * e_ndof (els (fst s)))%nat with k.
    rewrite (rsum_swap (e_nbound (els (fst s))) k).
    rewrite <- Rmult_minus_distr_l, <- rsum_minus, Ropp_mult_distr_r, <- rsum_opp. f_equal. apply rsum_ext. intros m _.
    rewrite rsum_scal. change (rsum (e_nbound (els (fst s))) (fun i0 => rsum (length (b_dofs (bnd_of els (fst s, i0)))) (fun j =>
        b_hat (bnd_of els (fst s, i0)) m j * x (nth j (b_dofs (bnd_of els (fst s, i0))) 0%nat)))) with (hatsum (fst s) m). ring.
  Qed.

  Lemma side_block_neg_eq : forall s b i j, side_block_neg els inv s b i j = - side_block els inv s b i j.
  Proof.
    intros. unfold side_block_neg, side_block. rewrite !mm_eq, <- rsum_opp. apply rsum_ext. intros m _.
    rewrite !mm_eq, Ropp_mult_distr_l, <- rsum_opp. f_equal. apply rsum_ext. intros. num_R. ring.
  Qed.

  Lemma off_diagonal_row : forall s ed r, b_dofs (bnd_of els s) = d_dofs ed -> (snd s < e_nbound (els (fst s)))%nat ->
    rowdot (off_diagonal els inv s ed) x r =
    hit (d_dofs ed) r (fun i => side_term els dqx i s - side_rhs els inv s i
      + rsum (length (d_dofs ed)) (fun j => side_block els inv s (snd s) i j * x (nth j (d_dofs ed) 0%nat))).
  Proof.
    intros s ed r Hd Hb. unfold off_diagonal, rowdot. rewrite lsum_flat_map, lsum_seq.
    set (blk := fun i b => rsum (length (b_dofs (bnd_of els (fst s, b)))) (fun j =>
      side_block els inv s b i j * x (nth j (b_dofs (bnd_of els (fst s, b))) 0%nat))).
    rewrite (rsum_ext _ _ (fun b => hit (d_dofs ed) r (fun i => - blk i b) -
       (if Nat.eqb b (snd s) then hit (d_dofs ed) r (fun i => - blk i b) else 0))).
    2:{ intros b _. destruct (Nat.eqb b (snd s)); [unfold lsum; cbn; ring|].
        fold (rowdot (block (d_dofs ed) (b_dofs (bnd_of els (fst s, b))) (side_block_neg els inv s b)) x r).
        rewrite rowdot_block, Rminus_0_r. apply hit_ext. intros i _. unfold blk. rewrite <- rsum_opp. apply rsum_ext. intros j _.
        rewrite side_block_neg_eq. ring. }
    rewrite rsum_minus. rewrite (rsum_pick _ (snd s) (fun b => hit (d_dofs ed) r (fun i => - blk i b))) by exact Hb.
    assert (HS : rsum (e_nbound (els (fst s))) (fun b => hit (d_dofs ed) r (fun i => - blk i b)) =
                 hit (d_dofs ed) r (fun i => side_term els dqx i s - side_rhs els inv s i)).
    { unfold hit. rewrite rsum_swap. apply rsum_ext. intros i _. destruct (Nat.eqb _ r); [|apply rsum_0].
      rewrite rsum_opp. unfold blk. apply side_condensed. }
    rewrite HS, <- hit_minus. apply hit_ext. intros i _. unfold blk.
    replace (fst s, snd s) with s by (destruct s; reflexivity). rewrite Hd. ring.
  Qed.

  (** Residual of the edge equation. *)
  Definition edge_res (sides : list slot) (ed : edge R) (i : nat) : R :=
    lsum sides (side_term els dqx i) + trace_term x i ed - d_rhs ed i.
  Definition sides_ok (sides : list slot) (ed : edge R) : Prop :=
    forall s, In s sides -> b_dofs (bnd_of els s) = d_dofs ed /\ (snd s < e_nbound (els (fst s)))%nat.

  Lemma int_row : forall s1 s2 ed r, sides_ok [s1; s2] ed ->
    rowdot (int_triplets els inv s1 s2 ed) x r - hit (d_dofs ed) r (int_rhs els inv s1 s2 ed) = hit (d_dofs ed) r (edge_res [s1; s2] ed).
  Proof.
    intros s1 s2 ed r H. destruct (H s1) as [A1 B1]; [left; reflexivity|]. destruct (H s2) as [A2 B2]; [right; left; reflexivity|].
    unfold int_triplets. rewrite !rowdot_app, rowdot_block, !off_diagonal_row by assumption.
    rewrite <- !hit_plus, <- hit_minus. apply hit_ext. intros i _. unfold int_delta, int_rhs, edge_res, trace_term. num_R.
    rewrite !lsum_cons. unfold lsum. cbn [map fold_right].
    rewrite (rsum_ext _ (fun j => (d_delta ed i j - _) * _) (fun j => d_delta ed i j * x (nth j (d_dofs ed) 0%nat)
      - (side_block els inv s1 (snd s1) i j * x (nth j (d_dofs ed) 0%nat) + side_block els inv s2 (snd s2) i j * x (nth j (d_dofs ed) 0%nat)))) by (intros; ring).
    rewrite rsum_minus, rsum_plus. ring.
  Qed.

  Lemma bnd_row : forall s ed r, sides_ok [s] ed ->
    rowdot (bnd_triplets els inv s ed) x r - hit (d_dofs ed) r (bnd_rhs els inv s ed) = hit (d_dofs ed) r (edge_res [s] ed).
  Proof.
    intros s ed r H. destruct (H s) as [A1 B1]; [left; reflexivity|].
    unfold bnd_triplets. rewrite !rowdot_app, rowdot_block, !off_diagonal_row by assumption.
    rewrite <- !hit_plus, <- hit_minus. apply hit_ext. intros i _. unfold bnd_delta, bnd_rhs, edge_res, trace_term. num_R.
    rewrite !lsum_cons. unfold lsum. cbn [map fold_right].
    rewrite (rsum_ext _ (fun j => (d_delta ed i j - _) * _) (fun j => d_delta ed i j * x (nth j (d_dofs ed) 0%nat)
      - side_block els inv s (snd s) i j * x (nth j (d_dofs ed) 0%nat))) by (intros; ring).
    rewrite rsum_minus. ring.
  Qed.
End Blocks.

(** ** Equations and the condensed update *)
Section Equations.
  Context (nelt : nat) (els : nat -> elt R) (inv : nat -> nat -> nat -> R).
  Context (Hinv : forall K, (K < nelt)%nat -> two_sided (3 * e_ndof (els K)) (e_delta (els K)) (inv K)).

  Lemma two_sided_apply : forall n A B v i, two_sided n A B -> (i < n)%nat ->
    rsum n (fun j => A i j * rsum n (fun m => B j m * v m)) = v i.
  Proof.
    intros n A B v i H Hi.
    rewrite (rsum_ext n _ (fun j => rsum n (fun m => A i j * B j m * v m))) by (intros; rewrite <- rsum_scal; apply rsum_ext; intros; ring).
    rewrite rsum_swap.
    rewrite (rsum_ext n _ (fun m => if Nat.eqb m i then v m else 0)); [apply rsum_pick; exact Hi|].
    intros m Hm. rewrite rsum_scal_r. rewrite (proj1 (H i m Hi Hm)), Nat.eqb_sym. destruct (Nat.eqb m i); ring.
  Qed.
  Lemma two_sided_sym : forall n A B, two_sided n A B -> two_sided n B A.
  Proof. intros n A B H i j Hi Hj. destruct (H i j Hi Hj). auto. Qed.

  Lemma dqx_solves : forall x, element_equations nelt els (dqx els inv x) x.
  Proof.
    intros x K i HK Hi. unfold dqx. rewrite (two_sided_apply _ _ _ _ i (Hinv K HK) Hi).
    unfold hatsum. ring.
  Qed.
  Lemma dq_unique : forall dq x K l, element_equations nelt els dq x -> (K < nelt)%nat -> (l < 3 * e_ndof (els K))%nat ->
    dq K l = dqx els inv x K l.
  Proof.
    intros dq x K l H HK Hl. unfold dqx.
    rewrite <- (two_sided_apply _ _ _ (dq K) l (two_sided_sym _ _ _ (Hinv K HK)) Hl). apply rsum_ext. intros m Hm.
    f_equal. rewrite <- (H K m HK Hm). unfold hatsum. ring.
  Qed.

  Lemma side_term_ext : forall dq dq' i s, (forall j, (j < 3 * e_ndof (els (fst s)))%nat -> dq (fst s) j = dq' (fst s) j) ->
    side_term els dq i s = side_term els dq' i s.
  Proof. intros. unfold side_term. apply rsum_ext. intros. rewrite H by assumption. reflexivity. Qed.

  Lemma edge_equations_ext : forall edges dq x,
    (forall sides ed s, In (sides, ed) edges -> In s sides -> (fst s < nelt)%nat) ->
    element_equations nelt els dq x -> edge_equations els edges dq x <-> edge_equations els edges (dqx els inv x) x.
  Proof.
    intros edges dq x Hs He. unfold edge_equations.
    assert (E : forall sides ed i, In (sides, ed) edges -> lsum sides (side_term els dq i) = lsum sides (side_term els (dqx els inv x) i)).
    { intros sides ed i H. apply lsum_ext. intros s Hin. apply side_term_ext. intros j Hj. apply dq_unique; eauto. }
    split; intros H sides ed i Hin Hi; specialize (H sides ed i Hin Hi); specialize (E sides ed i Hin); unfold slot in *; lra.
  Qed.
End Equations.

(** ** Back-substitution *)
Definition flat_sides (edges : list (list slot * edge R)) : list (slot * edge R) :=
  flat_map (fun c => map (fun s => (s, snd c)) (fst c)) edges.

Lemma sub_hat_eq : forall els n x rl s K m,
  sub_hat els n x rl s K m = rl K m - (if Nat.eqb (fst s) K then rsum n (fun j => b_hat (bnd_of els s) m j * x j) else 0).
Proof.
  intros. unfold sub_hat, upd. rewrite (Nat.eqb_sym (fst s) K). destruct (Nat.eqb_spec K (fst s)) as [->|]; [|ring].
  rewrite mv_eq. num_R. reflexivity.
Qed.

Definition sub_all (els : nat -> elt R) (dx : edge R -> nat -> R) (l : list (slot * edge R)) (K m : nat) : R :=
  lsum l (fun e => if Nat.eqb (fst (fst e)) K
     then rsum (length (d_dofs (snd e))) (fun j => b_hat (bnd_of els (fst e)) m j * dx (snd e) j) else 0).

Lemma fold_bnd_eq : forall els dx l rl K m,
  fold_left (fun rl (e : slot * edge R) => sub_hat els (length (d_dofs (snd e))) (dx (snd e)) rl (fst e)) l rl K m = rl K m - sub_all els dx l K m.
Proof.
  induction l as [|e l IH]; intros rl K m; cbn [fold_left]; [unfold sub_all, lsum; cbn; ring|].
  rewrite IH, sub_hat_eq. unfold sub_all at 2. rewrite lsum_cons. fold (sub_all els dx l K m). ring.
Qed.
Lemma fold_int_eq : forall els dx l rl K m,
  fold_left (fun rl (e : slot * slot * edge R) => let '(s1, s2, ed) := e in
     sub_hat els (length (d_dofs ed)) (dx ed) (sub_hat els (length (d_dofs ed)) (dx ed) rl s1) s2) l rl K m =
  rl K m - sub_all els dx (flat_sides (map (fun e => ([fst (fst e); snd (fst e)], snd e)) l)) K m.
Proof.
  induction l as [|[[s1 s2] ed] l IH]; intros rl K m; cbn [fold_left]; [unfold sub_all, lsum; cbn; ring|].
  rewrite IH, !sub_hat_eq. unfold sub_all at 2. cbn [map flat_sides flat_map fst snd app]. rewrite !lsum_cons. cbn [fst snd].
  fold (flat_sides (map (fun e : slot * slot * edge R => ([fst (fst e); snd (fst e)], snd e)) l)).
  fold (sub_all els dx (flat_sides (map (fun e : slot * slot * edge R => ([fst (fst e); snd (fst e)], snd e)) l)) K m). ring.
Qed.

Lemma flat_sides_fst : forall edges, map fst (flat_sides edges) = flat_map fst edges.
Proof.
  induction edges as [|[sides ed] l IH]; [reflexivity|]. cbn [flat_sides flat_map fst snd]. rewrite map_app, map_map. cbn [fst].
  rewrite map_id. f_equal. exact IH.
Qed.
Lemma flat_sides_single : forall l : list (slot * edge R), flat_sides (map (fun e => ([fst e], snd e)) l) = l.
Proof. induction l as [|[s e] l IH]; [reflexivity|]. cbn. f_equal. exact IH. Qed.

Lemma in_slots : forall nelt els s, In s (slots_of nelt els) <-> (fst s < nelt)%nat /\ (snd s < e_nbound (els (fst s)))%nat.
Proof.
  intros nelt els [K b]. unfold slots_of. rewrite in_flat_map. split.
  - intros (K' & H1 & H2). apply in_seq in H1. apply in_map_iff in H2. destruct H2 as (b' & E & H2). injection E as -> ->.
    apply in_seq in H2. cbn. lia.
  - cbn. intros [H1 H2]. exists K. split; [apply in_seq; lia|]. apply in_map_iff. exists b. split; [reflexivity|apply in_seq; lia].
Qed.

(** Sum over all sides belonging to element K = sum over its boundaries. *)
Lemma sub_all_hatsum : forall nelt els x dx l K m,
  Permutation (map fst l) (slots_of nelt els) ->
  (forall e, In e l -> b_dofs (bnd_of els (fst e)) = d_dofs (snd e) /\ forall j, (j < length (d_dofs (snd e)))%nat -> dx (snd e) j = x (nth j (d_dofs (snd e)) 0%nat)) ->
  (K < nelt)%nat -> sub_all els dx l K m = hatsum els x K m.
Proof.
  intros nelt els x dx l K m HP Hd HK. unfold sub_all.
  rewrite (lsum_ext _ l _ (fun e => (fun s => if Nat.eqb (fst s) K then rsum (length (b_dofs (bnd_of els s))) (fun j =>
    b_hat (bnd_of els s) m j * x (nth j (b_dofs (bnd_of els s)) 0%nat)) else 0) (fst e))).
  2:{ intros e He. destruct (Hd e He) as [E1 E2]. rewrite E1. destruct (Nat.eqb _ K); [|reflexivity]. apply rsum_ext. intros j Hj. rewrite E2 by exact Hj. reflexivity. }
  rewrite <- (lsum_map _ _ fst l (fun s => if Nat.eqb (fst s) K then rsum (length (b_dofs (bnd_of els s))) (fun j =>
    b_hat (bnd_of els s) m j * x (nth j (b_dofs (bnd_of els s)) 0%nat)) else 0)).
  rewrite (lsum_perm _ _ _ _ HP). unfold slots_of. rewrite lsum_flat_map, lsum_seq.
  rewrite (rsum_ext nelt _ (fun K' => if Nat.eqb K' K then hatsum els x K' m else 0)); [apply (rsum_pick nelt K (fun K' => hatsum els x K' m)); exact HK|].
  intros K' _. rewrite lsum_map, lsum_seq. cbn [fst]. destruct (Nat.eqb K' K); [reflexivity|]. apply rsum_0.
Qed.

(** ** Index blocks *)
Lemma seq_app_inv : forall (l1 l2 : list nat) a n, l1 ++ l2 = seq a n ->
  l1 = seq a (length l1) /\ l2 = seq (a + length l1) (length l2) /\ (length l1 + length l2 = n)%nat.
Proof.
  intros l1 l2 a n H. assert (L : (length l1 + length l2 = n)%nat) by (rewrite <- app_length, H, seq_length; reflexivity).
  rewrite <- L, seq_app in H.
  assert (E : forall (p q r s : list nat), p ++ q = r ++ s -> length p = length r -> p = r /\ q = s).
  { induction p as [|y p IH]; intros q [|z r] s E Hl; try discriminate; [auto|]. cbn in *. injection E as -> E. destruct (IH q r s E); [lia|]. subst. auto. }
  destruct (E _ _ _ _ H) as [E1 E2]; [rewrite seq_length; reflexivity|]. auto.
Qed.

Lemma nodup_hits : forall (edges : list (list slot * edge R)) (f : list slot * edge R -> nat -> R) c i,
  NoDup (concat (map (fun e => d_dofs (snd e)) edges)) -> In c edges -> (i < length (d_dofs (snd c)))%nat ->
  lsum edges (fun e => hit (d_dofs (snd e)) (nth i (d_dofs (snd c)) 0%nat) (f e)) = f c i.
Proof.
  induction edges as [|e edges IH]; intros f c i HN Hin Hi; [destruct Hin|].
  cbn [map concat] in HN. rewrite lsum_cons.
  assert (D : forall y, In y (d_dofs (snd e)) -> In y (concat (map (fun e => d_dofs (snd e)) edges)) -> False).
  { intros y Y1 Y2. clear -HN Y1 Y2. induction (d_dofs (snd e)) as [|z l IH]; [destruct Y1|]. cbn in HN. inversion HN; subst.
    destruct Y1 as [->|Y1]; [apply H1; apply in_or_app; auto|]. auto. }
  assert (N1 : NoDup (d_dofs (snd e))).
  { clear -HN. induction (d_dofs (snd e)) as [|z l IH]; [constructor|]. cbn in HN. inversion HN; subst. constructor; [|auto]. intros Z. apply H1. apply in_or_app. auto. }
  assert (N2 : NoDup (concat (map (fun e => d_dofs (snd e)) edges))).
  { clear -HN. induction (d_dofs (snd e)) as [|z l IH]; [exact HN|]. cbn in HN. inversion HN; auto. }
  destruct Hin as [->|Hin].
  - rewrite hit_at by assumption. rewrite lsum_const0; [ring|]. intros e' He'. apply hit_out. intros Y. eapply D; [apply nth_In; exact Hi|].
    apply in_concat. exists (d_dofs (snd e')). split; [apply in_map_iff; eauto|exact Y].
  - rewrite (IH f c i N2 Hin Hi), hit_out; [ring|]. intros Y. eapply D; [exact Y|]. apply in_concat. exists (d_dofs (snd c)).
    split; [apply in_map_iff; eauto|]. apply nth_In. exact Hi.
Qed.

(** residuals vanish in every row iff every edge equation holds. *)
Lemma residual_iff : forall els inv x (edges : list (list slot * edge R)) size,
  Permutation (concat (map (fun e => d_dofs (snd e)) edges)) (seq 0 size) ->
  (forall sides ed, In (sides, ed) edges -> length (d_dofs ed) = (3 * d_ndof ed)%nat) ->
  (forall r, (r < size)%nat -> lsum edges (fun c => hit (d_dofs (snd c)) r (edge_res els inv x (fst c) (snd c))) = 0) <->
  edge_equations els edges (dqx els inv x) x.
Proof.
  intros els inv x edges size HP HL.
  assert (HN : NoDup (concat (map (fun e => d_dofs (snd e)) edges))) by (eapply Permutation_NoDup; [apply Permutation_sym; exact HP|apply seq_NoDup]).
  split.
  - intros H sides ed i Hin Hi. assert (Hi' : (i < length (d_dofs ed))%nat) by (rewrite (HL sides ed Hin); exact Hi).
    assert (Hr : (nth i (d_dofs ed) 0 < size)%nat).
    { assert (Q : In (nth i (d_dofs ed) 0%nat) (seq 0 size)).
      { eapply Permutation_in; [exact HP|]. apply in_concat. exists (d_dofs ed). split; [apply in_map_iff; exists (sides, ed); auto|apply nth_In; exact Hi']. }
      apply in_seq in Q. lia. }
    specialize (H _ Hr).
    pose proof (nodup_hits edges (fun c => edge_res els inv x (fst c) (snd c)) (sides, ed) i HN Hin Hi') as Q. cbn [fst snd] in Q. rewrite Q in H. unfold edge_res in H. lra.
  - intros H r Hr. apply lsum_const0. intros [sides ed] Hin. cbn [fst snd]. rewrite (hit_ext _ _ _ (fun _ => 0)).
    + unfold hit. apply rsum_const0. intros i _. destruct (Nat.eqb _ r); reflexivity.
    + intros i Hi. rewrite (HL sides ed Hin) in Hi. unfold edge_res. rewrite (H sides ed i Hin Hi). ring.
Qed.

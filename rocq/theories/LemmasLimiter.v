(** The limiter data set up by the initial step. *)
From Coq Require Import Reals List Bool Arith Lra Lia.
From Verif Require Import Num ModelSWE Outcome ModelShape SpecShape ModelBasis ModelJac ModelStepper ModelWetDry ModelSlope ModelStep ModelInit SpecRest SpecLimiter LemmasSlope.
Import ListNotations.
Open Scope R_scope.

Lemma fold_set2 : forall (A : Type) (l : list (nat * nat * A)) (t : nat -> nat -> A),
  NoDup (map fst l) -> forall e b x, In ((e, b), x) l ->
  fold_left (fun t a => set2 t (fst (fst a)) (snd (fst a)) (snd a)) l t e b = x.
Proof.
  intros A l t. revert t.
  assert (K : forall l t e b, ~ In (e, b) (map fst l) -> fold_left (fun (t : nat -> nat -> A) a => set2 t (fst (fst a)) (snd (fst a)) (snd a)) l t e b = t e b).
  { induction l0 as [|[[e' b'] y] l0 IH]; intros t e b N; [reflexivity|]. cbn [map fold_left fst snd] in *. rewrite IH by (intros X; apply N; right; exact X).
    unfold set2. destruct (Nat.eqb_spec e' e) as [->|]; [|reflexivity]. destruct (Nat.eqb_spec b' b) as [->|]; [|reflexivity].
    exfalso. apply N. left. reflexivity. }
  induction l as [|[[e' b'] y] l IH]; intros t N e b x I; [destruct I|]. cbn [map fst] in N. inversion N as [|? ? N1 N2]; subst.
  cbn [fold_left fst snd]. destruct I as [I|I].
  - injection I as -> -> ->. rewrite K by exact N1. unfold set2. rewrite !Nat.eqb_refl. reflexivity.
  - apply IH; assumption.
Qed.

Section Limiter.
  Context (i : input).
  Definition assign_intface (f : intface) : list (nat * nat * point) :=
    [((i_in f, i_bin f), GetBarycentricCoordinates (in_nodes i (i_ex f))); ((i_ex f, i_bex f), GetBarycentricCoordinates (in_nodes i (i_in f)))].
  Definition assign_bound (b : bound) : nat * nat * point := ((b_elt b, b_id b), mirror_baryctr (in_nodes i (b_elt b)) (b_id b)).
  Definition assigns : list (nat * nat * point) := flat_map assign_intface (in_intfaces i) ++ map assign_bound (in_bounds i).
  Lemma neigh_fold : init_neigh i = fold_left (fun t a => set2 t (fst (fst a)) (snd (fst a)) (snd a)) assigns (fun _ _ => (0, 0)).
  Proof.
    unfold init_neigh, assigns. rewrite fold_left_app.
    assert (E : forall fs t, fold_left (fun t f => set2 (set2 t (i_in f) (i_bin f) (GetBarycentricCoordinates (in_nodes i (i_ex f))))
                                  (i_ex f) (i_bex f) (GetBarycentricCoordinates (in_nodes i (i_in f)))) fs t =
              fold_left (fun t a => set2 t (fst (fst a)) (snd (fst a)) (snd a)) (flat_map assign_intface fs) t).
    { induction fs as [|f fs IH]; intros t; [reflexivity|]. cbn [fold_left flat_map assign_intface app fst snd]. apply IH. }
    rewrite E. generalize (fold_left (fun t a => set2 t (fst (fst a)) (snd (fst a)) (snd a)) (flat_map assign_intface (in_intfaces i)) (fun _ _ => (0, 0))).
    induction (in_bounds i) as [|b bs IH]; intros t; [reflexivity|]. cbn [fold_left map assign_bound fst snd]. apply IH.
  Qed.
  Lemma assigns_keys : map fst assigns = sides (in_intfaces i) (in_bounds i).
  Proof.
    unfold assigns, sides. rewrite map_app, map_map. f_equal. induction (in_intfaces i) as [|f fs IH]; [reflexivity|].
    cbn [flat_map assign_intface app map fst]. rewrite IH. reflexivity.
  Qed.
  Lemma neigh_across : forall e b x, NoDup (sides (in_intfaces i) (in_bounds i)) -> centre_across i e b x -> init_neigh i e b = x.
  Proof.
    intros e b x N C. rewrite neigh_fold. apply fold_set2; [rewrite assigns_keys; exact N|]. unfold assigns. apply in_or_app.
    destruct C as [(f & F & [(<- & <- & ->)|(<- & <- & ->)])|(f & F & <- & <- & X1 & X2)].
    - left. apply in_flat_map. exists f. split; [exact F|]. left. reflexivity.
    - left. apply in_flat_map. exists f. split; [exact F|]. right. left. reflexivity.
    - right. apply in_map_iff. exists f. split; [|exact F]. unfold assign_bound, mirror_baryctr. rewrite <- X1, <- X2. destruct x. reflexivity.
  Qed.
  Lemma limiter_data : forall e (nb : nat -> point),
    NoDup (sides (in_intfaces i) (in_bounds i)) -> (forall b, (b < 3)%nat -> centre_across i e b (nb b)) ->
    let n := in_nodes i e in let s := m_sl (init_mesh i) e in
    sl_bath s = (in_z i e 0%nat + in_z i e 1%nat + in_z i e 2%nat) / 3 /\
    forall b, (b < 3)%nat -> sl_med s b = sl_median n b /\ sl_rs s b = sl_r_sq n b /\ sl_al s b = sl_alpha n nb b.
  Proof.
    intros e nb N H n s. split.
    - unfold s, init_mesh, init_sl. cbn [m_sl sl_bath]. unfold u_baryctr, chi_baryctr. cbn. field.
    - intros b Hb. unfold s, init_mesh, init_sl. cbn [m_sl sl_med sl_rs sl_al]. fold n. refine (conj eq_refl (conj eq_refl _)).
      assert (M : ((b + 1) mod 3 < 3)%nat) by (apply Nat.mod_upper_bound; discriminate).
      unfold sl_alpha, alpha_matrix. rewrite (neigh_across e b _ N (H b Hb)), (neigh_across e _ _ N (H _ M)). reflexivity.
  Qed.
End Limiter.

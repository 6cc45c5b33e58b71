(** Proofs: the distortion factor on the faces, Coriolis parameter, Manning file. *)
From Coq Require Import Reals List Bool Arith Lra Lia Permutation.
From Verif Require Import Num ModelPi LemmasPi Outcome ModelSWE ModelJac ModelShape SpecShape LemmasShape ModelBasis ModelStep SpecRest ModelInit ModelGeo SpecGeo LemmasGeo.
Import ListNotations.
Open Scope R_scope.

Section Faces.
  Context (i : input) (M : matched i) (Sy : symmetric_points (in_rule1 i)).
  Local Notation n := (length (in_rule1 i)).
  Definition sval (e b gp : nat) : R := sp_at i (own_y i e b gp).
  Definition agrees (t t' : face_table) (l : list (nat * nat)) : Prop :=
    (forall e b gp, sp (t' e b gp) = sval e b gp \/ t' e b gp = t e b gp) /\
    (forall e b gp, In (e, b) l -> (gp < n)%nat -> sp (t' e b gp) = sval e b gp).
  Lemma agrees_refl : forall t, agrees t t [].
  Proof. intros t. split; [intros; right; reflexivity|intros ? ? ? []]. Qed.
  Lemma agrees_trans : forall t1 t2 t3 l l', agrees t1 t2 l -> agrees t2 t3 l' -> agrees t1 t3 (l ++ l').
  Proof.
    intros t1 t2 t3 l l' [A1 A2] [B1 B2]. split.
    - intros e b gp. destruct (B1 e b gp) as [E|E]; [left; exact E|]. rewrite E. apply A1.
    - intros e b gp H Hg. apply in_app_or in H. destruct H as [H|H]; [|apply B2; assumption].
      destruct (B1 e b gp) as [E|E]; [exact E|]. rewrite E. apply A2; assumption.
  Qed.
  Lemma agrees_fold : forall (X : Type) (g : face_table -> X -> face_table) (s : X -> list (nat * nat)) l, (forall t x, In x l -> agrees t (g t x) (s x)) ->
    forall t, agrees t (fold_left g l t) (flat_map s l).
  Proof.
    intros X g s l. induction l as [|x l IH]; intros H t; [apply agrees_refl|].
    cbn [fold_left flat_map]. eapply agrees_trans; [apply H; left; reflexivity|apply IH]. intros t' y Hy. apply H. right. exact Hy.
  Qed.
  (** One value written. *)
  Definition kept (t t' : face_table) (P : nat -> nat -> nat -> Prop) : Prop :=
    forall e b gp, (sp (t' e b gp) = sval e b gp \/ t' e b gp = t e b gp) /\ (P e b gp -> sp (t' e b gp) = sval e b gp).
  Lemma kept_set : forall t e b gp a, sp a = sval e b gp -> kept t (set_face t e b gp a) (fun e' b' gp' => e' = e /\ b' = b /\ gp' = gp).
  Proof.
    intros t e b gp a E e' b' gp'. split.
    - unfold set_face. destruct (Nat.eqb_spec e' e) as [->|]; [|right; reflexivity]. destruct (Nat.eqb_spec b' b) as [->|]; [|right; reflexivity].
      destruct (Nat.eqb_spec gp' gp) as [->|]; [left; exact E|right; reflexivity].
    - intros [-> [-> ->]]. unfold set_face. rewrite !Nat.eqb_refl. exact E.
  Qed.
  Lemma kept_trans : forall t1 t2 t3 P Q, kept t1 t2 P -> kept t2 t3 Q -> kept t1 t3 (fun e b gp => P e b gp \/ Q e b gp).
  Proof.
    intros t1 t2 t3 P Q A B e b gp. destruct (A e b gp) as [A1 A2]. destruct (B e b gp) as [B1 B2]. split.
    - destruct B1 as [E|E]; [left; exact E|]. rewrite E. exact A1.
    - intros [H|H]; [|exact (B2 H)]. destruct B1 as [E|E]; [exact E|]. rewrite E. exact (A2 H).
  Qed.
  Lemma kept_fold : forall (g : face_table -> nat -> face_table) (P : nat -> nat -> nat -> nat -> Prop) l, (forall t gp, In gp l -> kept t (g t gp) (P gp)) ->
    forall t, kept t (fold_left g l t) (fun e b gp => exists j, In j l /\ P j e b gp).
  Proof.
    intros g P l. induction l as [|x l IH]; intros H t; [intros e b gp; split; [right; reflexivity|intros [j [[] _]]]|].
    cbn [fold_left]. pose proof (kept_trans _ _ _ _ _ (H t x (or_introl eq_refl)) (IH (fun t' y Hy => H t' y (or_intror Hy)) (g t x))) as K.
    intros e b gp. destruct (K e b gp) as [K1 K2]. split; [exact K1|]. intros [j [[->|Hj] Hp]]; apply K2; [left; exact Hp|right; exists j; split; assumption].
  Qed.
  Lemma agrees_bound : forall t b, agrees t (init_bound i t b) [(b_elt b, b_id b)].
  Proof.
    intros t b. unfold init_bound. match goal with |- agrees _ (fold_left ?g _ _) _ => set (body := g) end.
    assert (K : forall t0, kept t0 (fold_left body (seq 0 n) t0) (fun e' b' gp' => exists j, In j (seq 0 n) /\ (e' = b_elt b /\ b' = b_id b /\ gp' = j))).
    { apply kept_fold. intros t0 gp _. apply kept_set. cbn [sp]. rewrite y_own. reflexivity. }
    split; [intros; apply K|]. intros e b' gp [E|[]] Hg. injection E as <- <-. apply K. exists gp. split; [apply in_seq; lia|repeat split].
  Qed.
  Lemma agrees_dbound : forall t e b, agrees t (init_dbound i t e b) [(e, b)].
  Proof.
    intros t e0 b0. pose proof (agrees_bound t (Bnd e0 b0 Land)) as K. exact K.
  Qed.
  Lemma other_side : forall f gp, In f (in_intfaces i) -> (gp < n)%nat -> own_y i (i_ex f) (i_bex f) (n - gp - 1)%nat = own_y i (i_in f) (i_bin f) gp.
  Proof.
    intros f gp H Hg. destruct (M f H) as [B1 [B2 [E1 E2]]]. unfold own_y. rewrite (proj1 (Sy gp Hg)).
    rewrite (shared_edge_points (in_nodes i (i_in f)) (in_nodes i (i_ex f)) (i_bin f) (i_bex f)) by assumption. reflexivity.
  Qed.
  Lemma agrees_intface : forall t f, In f (in_intfaces i) -> agrees t (init_intface i t f) [(i_in f, i_bin f); (i_ex f, i_bex f)].
  Proof.
    intros t f Hf. unfold init_intface. cbv zeta. match goal with |- agrees _ (fold_left ?g _ _) _ => set (body := g) end.
    assert (K' : forall t0, kept t0 (fold_left body (seq 0 n) t0) (fun e b gp => exists j, In j (seq 0 n) /\ ((e = i_in f /\ b = i_bin f /\ gp = j) \/ (e = i_ex f /\ b = i_bex f /\ gp = (n - j - 1)%nat)))).
    { apply (kept_fold body (fun gp e' b' gp' => (e' = i_in f /\ b' = i_bin f /\ gp' = gp) \/ (e' = i_ex f /\ b' = i_bex f /\ gp' = (n - gp - 1)%nat))). intros t0 gp Hg. apply in_seq in Hg. unfold body. eapply kept_trans; apply kept_set; cbn [sp]; rewrite y_own; unfold sval; [reflexivity|].
      rewrite other_side by (assumption || lia). reflexivity. }
    split; [intros; apply K'|]. intros e b gp [E|[E|[]]] Hg; injection E as <- <-; apply K'.
    - exists gp. split; [apply in_seq; lia|left; repeat split].
    - exists (n - gp - 1)%nat. split; [apply in_seq; lia|right; repeat split; lia].
  Qed.
  Lemma faux_sp : forall e b gp, In (e, b) (sides (in_intfaces i) (in_bounds i)) -> (gp < n)%nat -> sp (init_faux i e b gp) = sval e b gp.
  Proof.
    intros e b gp H Hg. unfold init_faux.
    pose proof (agrees_fold _ _ (fun f => [(i_in f, i_bin f); (i_ex f, i_bex f)]) (in_intfaces i) (fun t f Hf => agrees_intface t f Hf) (fun _ _ _ => Aux 0 0 0)) as K1.
    pose proof (agrees_fold _ _ (fun b => [(b_elt b, b_id b)]) (in_bounds i) (fun t b _ => agrees_bound t b) (fold_left (init_intface i) (in_intfaces i) (fun _ _ _ => Aux 0 0 0))) as K2.
    apply (proj2 (agrees_trans _ _ _ _ _ K1 K2)); [|exact Hg].
    unfold sides in H. replace (flat_map (fun b0 => [(b_elt b0, b_id b0)]) (in_bounds i)) with (map (fun b0 => (b_elt b0, b_id b0)) (in_bounds i)); [exact H|].
    clear. induction (in_bounds i) as [|x l IH]; [reflexivity|]. cbn. rewrite IH. reflexivity.
  Qed.
  Lemma both_sides : forall f gp, In f (in_intfaces i) -> (gp < n)%nat ->
    sp (init_faux i (i_in f) (i_bin f) gp) = sp (init_faux i (i_ex f) (i_bex f) (n - gp - 1)%nat).
  Proof.
    intros f gp H Hg. assert (S1 : In (i_in f, i_bin f) (sides (in_intfaces i) (in_bounds i)) /\ In (i_ex f, i_bex f) (sides (in_intfaces i) (in_bounds i))).
    { split; apply in_or_app; left; apply in_flat_map; exists f; (split; [exact H|cbn; tauto]). }
    rewrite !faux_sp by (tauto || lia). unfold sval. rewrite other_side by assumption. reflexivity.
  Qed.
End Faces.
(** A run on several processors: a face cut by the partition gets on either side the value of the serial run. *)
Lemma split_sp : forall i t e b gp, matched i -> symmetric_points (in_rule1 i) -> In (e, b) (sides (in_intfaces i) (in_bounds i)) -> (gp < length (in_rule1 i))%nat ->
  sp (init_dbound i t e b e b gp) = sp (init_faux i e b gp).
Proof.
  intros i t e b gp M Sy H Hg. rewrite (faux_sp i M Sy) by assumption. apply (proj2 (agrees_dbound i t e b)); [left; reflexivity|exact Hg].
Qed.
Lemma dbound_sp : forall i t e b gp, (gp < length (in_rule1 i))%nat -> sp (init_dbound i t e b e b gp) = sp_at i (own_y i e b gp).
Proof. intros i t e b gp Hg. apply (proj2 (agrees_dbound i t e b)); [left; reflexivity|exact Hg]. Qed.

(** A levee: two triangles whose sides lie one unit apart in y. *)
Definition strip_nodes (e v : nat) : point :=
  match e, v with O, O => (0, -1) | O, S O => (1, 0) | O, _ => (-1, 0) | _, O => (0, 2) | _, S O => (-1, 1) | _, _ => (1, 1) end.
Definition strip : input := Input 2 1 strip_nodes (fun _ _ => 1) [] [(2, 0)] (fun _ => SourceIn false 0 false 0) None
  [Intf 0 0 1 0 (Levee (fun _ => (0, 0, 0)))] [] (Some (10, 0)) (V3 0 0 0) 1 0 1.
Lemma strip_differs : sp (init_faux strip 1%nat 0%nat 0%nat) = 1 /\ 1 < sp_at strip (own_y strip 1%nat 0%nat 0%nat) /\
  forall t, sp (init_dbound strip t 1 0 1%nat 0%nat 0%nat) <> sp (init_faux strip 1%nat 0%nat 0%nat).
Proof.
  assert (E : sp (init_faux strip 1%nat 0%nat 0%nat) = 1).
  { change (sp_at strip (y_at strip 0 (face_point strip 0 0)) = 1). rewrite y_own. unfold own_y, boundary_point, strip, sp_at. cbn.
    replace (0 * code_pi / 180) with 0 by field. match goal with |- cos 0 / cos ?a = 1 => replace a with 0 by field end. rewrite cos_0. field. }
  assert (L : 1 < sp_at strip (own_y strip 1%nat 0%nat 0%nat)).
  { unfold own_y, boundary_point, strip, sp_at. cbn. replace (0 * code_pi / 180) with 0 by field. rewrite cos_0.
    match goal with |- 1 < 1 / cos ?a => replace a with (1 / 10) by field end. pose proof PI2_3_2. assert (C0 : 0 < cos (1 / 10)) by (apply cos_gt_0; lra).
    assert (C1 : cos (1 / 10) < 1) by (pose proof (cos_decreasing_1 0 (1 / 10)) as D; rewrite cos_0 in D; apply D; lra).
    apply (Rmult_lt_reg_r (cos (1 / 10))); [exact C0|]. unfold Rdiv. rewrite Rmult_assoc, Rinv_l by lra. lra. }
  split; [exact E|]. split; [exact L|]. intros t. rewrite dbound_sp by (cbn; lia). rewrite E. lra.
Qed.

(** ** Coriolis parameter *)
Definition coriolis_of (p : projection) (c : nat -> R * R * R) : R := coriolis_f p (fun v => fst (project_node p (c v))).
Lemma coriolis_value : forall p c, pr_R p <> 0 -> coriolis_of p c = two_omega * sin (rad (mean3 (fun v => snd (fst (c v))))).
Proof.
  intros p c H. unfold coriolis_of, coriolis_f, two_omega. cbn [seq fold_left]. rewrite !project_xy. cbn [snd]. cbv zeta.
  replace ((0 + pr_R p * rad (snd (fst (c 0%nat))) + pr_R p * rad (snd (fst (c 1%nat))) + pr_R p * rad (snd (fst (c 2%nat)))) / 3 / pr_R p)
    with (rad (mean3 (fun v => snd (fst (c v))))) by (unfold rad, mean3; field; exact H). field.
Qed.
Lemma coriolis_bound : forall p nd, Rabs (coriolis_f p nd) <= two_omega.
Proof.
  intros p nd. unfold coriolis_f, two_omega. cbv zeta. match goal with |- context [sin ?a] => pose proof (SIN_bound a) as S0; set (s := sin a) in * end.
  apply Rabs_le. lra.
Qed.
Lemma sin_mono : forall a b, - (PI / 2) < a -> b < PI / 2 -> a <= b -> sin a <= sin b.
Proof. intros a b Ha Hb [H| ->]; [left; apply sin_increasing_1; lra|lra]. Qed.
Lemma coriolis_between : forall p c lo hi, pr_R p <> 0 -> below_pole lo -> below_pole hi -> (forall v, (v < 3)%nat -> lo <= snd (fst (c v)) <= hi) ->
  two_omega * sin (rad lo) <= coriolis_of p c <= two_omega * sin (rad hi).
Proof.
  intros p c lo hi H Bl Bh L. rewrite coriolis_value by exact H. destruct (rad_below _ Bl). destruct (rad_below _ Bh).
  pose proof (L 0%nat ltac:(lia)). pose proof (L 1%nat ltac:(lia)). pose proof (L 2%nat ltac:(lia)).
  assert (lo <= mean3 (fun v => snd (fst (c v))) <= hi) by (unfold mean3; lra). set (m := mean3 _) in *.
  assert (rad lo <= rad m <= rad hi) by (unfold rad; lra). assert (0 < two_omega) by (unfold two_omega; lra).
  split; (apply Rmult_le_compat_l; [lra|apply sin_mono; lra]).
Qed.
Lemma coriolis_digits : forall p c, pr_R p <> 0 -> let m := mean3 (fun v => snd (fst (c v))) in
  Rabs (coriolis_of p c - two_omega * sin (true_rad m)) <= two_omega * (Rabs m * (2 / 1000000000000000)).
Proof.
  intros p c H m. rewrite coriolis_value by exact H. fold m. rewrite <- Rmult_minus_distr_l, Rabs_mult. assert (P : 0 < two_omega) by (unfold two_omega; lra).
  rewrite (Rabs_pos_eq two_omega) by lra. apply Rmult_le_compat_l; [lra|]. eapply Rle_trans; [apply sin_lip|]. rewrite rad_code. unfold true_rad. apply deg_close.
Qed.
(** Cartesian mesh about its own origin: no Coriolis there, whatever the latitude given. *)
Lemma coriolis_local : forall p nd, snd (nd 0%nat) + snd (nd 1%nat) + snd (nd 2%nat) = 0 -> coriolis_f p nd = 0.
Proof.
  intros p nd H. unfold coriolis_f. cbn [seq fold_left]. replace (0 + snd (nd 0%nat) + snd (nd 1%nat) + snd (nd 2%nat)) with 0 by lra. cbv zeta.
  replace (0 / 3 / pr_R p) with 0 by (unfold Rdiv; ring). rewrite sin_0. ring.
Qed.

(** ** Manning file *)
Definition agree (n : nat -> R) (t : table) : Prop := forall k, match t k with Some v => v = n k | None => n k = 0 end.
Lemma read_value : forall lines t k, read_manning lines t k =
  match find (fun r => Nat.eqb (fst r) k) (rev (readable lines)) with Some r => Some (snd r) | None => t k end.
Proof.
  assert (F : forall (l : list (nat * R)) x k, find (fun r => Nat.eqb (fst r) k) (l ++ [x]) =
    match find (fun r => Nat.eqb (fst r) k) l with Some r => Some r | None => if Nat.eqb (fst x) k then Some x else None end).
  { intros l x k. induction l as [|y l IH]; [reflexivity|]. cbn [app find]. destruct (Nat.eqb (fst y) k); [reflexivity|exact IH]. }
  intros lines. induction lines as [|[[id v]|] l IH]; intros t k; cbn [read_manning readable rev find]; [reflexivity| |reflexivity].
  rewrite IH, F. destruct (find _ _) as [r|]; [reflexivity|]. unfold insert. cbn [fst snd]. rewrite (Nat.eqb_sym k id). destruct (Nat.eqb id k); reflexivity.
Qed.
Lemma agree_read : forall lines, agree (last_value (readable lines)) (read_manning lines (fun _ => None)).
Proof. intros lines k. rewrite read_value. unfold last_value. destruct (find _ _); reflexivity. Qed.
Lemma agree_at : forall n t k, agree n t -> fst (at_key t k) = n k /\ agree n (snd (at_key t k)).
Proof.
  intros n t k A. unfold at_key. pose proof (A k) as Ak. destruct (t k) as [v|] eqn:E; cbn [fst snd]; [split; [exact Ak|exact A]|].
  split; [symmetry; exact Ak|]. intros j. unfold insert. destruct (Nat.eqb_spec j k) as [->|N]; [symmetry; exact Ak|apply A].
Qed.
Lemma element_step : forall g n st ids, agree n (fst st) -> let r := element_manning g st ids in agree n (fst r) /\ snd r = snd st ++ [friction g n ids].
Proof.
  intros g n [t out] ids A. cbn [fst] in A. unfold element_manning. cbn [seq fold_left fst snd app].
  destruct (agree_at n t (ids 0%nat) A) as [E0 A0]. destruct (agree_at n _ (ids 1%nat) A0) as [E1 A1]. destruct (agree_at n _ (ids 2%nat) A1) as [E2 A2].
  rewrite E0, E1, E2. cbn [fold_left length INR]. split; [exact A2|]. unfold friction, mean3. do 3 f_equal.
  f_equal; (replace (1 + 1 + 1) with 3 by ring; field).
Qed.
Lemma manning_all : forall g lines elements,
  init_manning g (Some lines) elements = Ok (map (friction g (last_value (readable lines))) elements).
Proof.
  intros g lines elements. unfold init_manning. f_equal. set (n := last_value (readable lines)). pose proof (agree_read lines) as A. fold n in A.
  assert (K : forall l st, agree n (fst st) -> snd (fold_left (element_manning g) l st) = snd st ++ map (friction g n) l).
  { induction l as [|ids l IH]; intros st A0; [cbn; rewrite app_nil_r; reflexivity|]. cbn [fold_left map]. destruct (element_step g n st ids A0) as [A1 E]. cbv zeta in *.
    rewrite IH by exact A1. rewrite E, <- app_assoc. reflexivity. }
  rewrite K by exact A. reflexivity.
Qed.
Lemma manning_missing : forall g elements, init_manning g None elements = Throw.
Proof. reflexivity. Qed.
Lemma manning_range : forall g n ids a b, 0 <= g -> 0 <= a -> (forall v, (v < 3)%nat -> a <= n (ids v) <= b) ->
  g * a ^ 2 <= snd (friction g n ids) <= g * b ^ 2.
Proof.
  intros g n ids a b Hg Ha H. cbn [friction snd]. pose proof (H 0%nat ltac:(lia)). pose proof (H 1%nat ltac:(lia)). pose proof (H 2%nat ltac:(lia)).
  assert (a <= mean3 (fun v => n (ids v)) <= b) by (unfold mean3; lra). set (m := mean3 _) in *. split; (apply Rmult_le_compat_l; [exact Hg|nra]).
Qed.
Lemma last_in : forall rows k v, NoDup (map fst rows) -> In (k, v) rows -> last_value rows k = v.
Proof.
  intros rows k v D H. unfold last_value. destruct (find (fun r => Nat.eqb (fst r) k) (rev rows)) as [[k' v']|] eqn:F.
  - apply find_some in F. destruct F as [F1 F2]. apply in_rev in F1. cbn [fst] in F2. apply Nat.eqb_eq in F2. subst k'. cbn [snd].
    clear - D H F1. induction rows as [|[k0 v0] rows IH]; [destruct H|]. cbn in D. inversion D as [|? ? N D']. subst. destruct H as [H|H], F1 as [F|F].
    + congruence.
    + injection H as -> ->. destruct N. apply in_map_iff. exists (k, v'). split; [reflexivity|exact F].
    + injection F as -> ->. destruct N. apply in_map_iff. exists (k, v). split; [reflexivity|exact H].
    + exact (IH D' H F).
  - exfalso. pose proof (find_none _ _ F (k, v)) as N. cbn [fst] in N. rewrite Nat.eqb_refl in N. discriminate N. apply -> in_rev. exact H.
Qed.
Lemma last_absent : forall rows k, ~ In k (map fst rows) -> last_value rows k = 0.
Proof.
  intros rows k H. unfold last_value. destruct (find _ _) as [r|] eqn:F; [|reflexivity]. apply find_some in F. destruct F as [F1 F2]. apply in_rev in F1. apply Nat.eqb_eq in F2.
  destruct H. rewrite <- F2. apply in_map. exact F1.
Qed.
Lemma last_order : forall rows rows' k, NoDup (map fst rows) -> Permutation rows rows' -> last_value rows k = last_value rows' k.
Proof.
  intros rows rows' k D P. assert (D' : NoDup (map fst rows')) by (apply (Permutation_NoDup (Permutation_map fst P)); exact D).
  destruct (in_dec Nat.eq_dec k (map fst rows)) as [I|N].
  - apply in_map_iff in I. destruct I as [[k' v] [E I]]. cbn in E. subst k'. rewrite (last_in rows k v D I). symmetry. apply last_in; [exact D'|]. apply (Permutation_in _ P I).
  - rewrite last_absent by exact N. symmetry. apply last_absent. intros I. apply N. apply (Permutation_in _ (Permutation_sym (Permutation_map fst P)) I).
Qed.
Lemma readable_all : forall (A : Type) (l : list A), readable (map Some l) = l.
Proof. intros A l. induction l as [|a l IH]; [reflexivity|]. cbn. rewrite IH. reflexivity. Qed.
Lemma readable_cut : forall (A : Type) (l : list A) r, readable (map Some l ++ None :: r) = l.
Proof. intros A l r. induction l as [|a l IH]; [reflexivity|]. cbn. rewrite IH. reflexivity. Qed.

Lemma sides_range : forall i e b, matched i -> (forall bd, In bd (in_bounds i) -> (b_id bd < 3)%nat) -> In (e, b) (sides (in_intfaces i) (in_bounds i)) -> (b < 3)%nat.
Proof.
  intros i e b M B H. apply in_app_or in H. destruct H as [H|H].
  - apply in_flat_map in H. destruct H as [f [Hf [E|[E|[]]]]]; injection E as <- <-; apply (M f Hf).
  - apply in_map_iff in H. destruct H as [bd [E Hb]]. injection E as <- <-. exact (B bd Hb).
Qed.
Lemma table_sp : forall i p e b gp, in_sph i = Some (pr_R p, pr_lat p) -> matched i -> symmetric_points (in_rule1 i) -> (b < 3)%nat ->
  In (e, b) (sides (in_intfaces i) (in_bounds i)) -> (gp < length (in_rule1 i))%nat ->
  sp (init_faux i e b gp) = distortion (pr_R p) (pr_lat p) (face_y i e b gp) /\
  forall t, sp (init_dbound i t e b e b gp) = sp (init_faux i e b gp).
Proof.
  intros i p e b gp E M Sy Hb H Hg. split.
  - rewrite (faux_sp i M Sy) by assumption. unfold sval. rewrite (sp_factor i p E), own_face by exact Hb. reflexivity.
  - intros t. apply split_sp; assumption.
Qed.

(** Static condensation: the theorems. *)
From Coq Require Import Reals List Arith Bool Lia Lra Permutation.
From Verif Require Import Num Outcome ModelSWE LemmasSWE ModelCond SpecStepper SpecStep SpecCond LemmasRK LemmasStep LemmasCond LemmasCond2.
Import ListNotations.
Open Scope R_scope.

Lemma contiguous_block : forall (edges : list (list slot * edge R)) k n c, concat (map (fun e => d_dofs (snd e)) edges) = seq k n -> In c edges ->
  exists a, d_dofs (snd c) = seq a (length (d_dofs (snd c))).
Proof.
  induction edges as [|e edges IH]; intros k n c H Hin; [destruct Hin|]. cbn [map concat] in H. destruct (seq_app_inv _ _ _ _ H) as (E1 & E2 & _).
  destruct Hin as [->|Hin]; [eauto|]. eapply IH; eauto.
Qed.

Lemma condensation_equivalent : forall sk inv, well_formed sk ->
  (forall K, (K < s_nelt sk)%nat -> two_sided (3 * e_ndof (s_elt sk K)) (e_delta (s_elt sk K)) (inv K)) ->
  exists w ts, assemble sk inv = Ok (w, ts) /\ in_range (s_size sk) ts = true /\
    forall x, solves (s_size sk) (entry ts) w x <-> exists dq, full_system sk dq x.
Proof.
  intros sk inv W Hinv. destruct (assemble_ok sk inv W) as (w & ts & A & Hr & Hrow). exists w, ts. split; [exact A|]. split; [exact Hr|].
  intros x. destruct W as [HA HN].
  assert (HP : Permutation (concat (map (fun e => d_dofs (snd e)) (edges_of sk))) (seq 0 (s_size sk))) by (rewrite HN; apply Permutation_refl).
  rewrite (rows_iff _ _ _ _ HA HP inv ts w x Hr Hrow). split.
  - intros H. exists (dqx (s_elt sk) inv x). apply (full_iff _ _ _ HA inv _ x Hinv). split; [|exact H]. intros K _ l _. reflexivity.
  - intros (dq & H). apply (full_iff _ _ _ HA inv _ x Hinv) in H. exact (proj2 H).
Qed.

Lemma qhat_ok : forall (ed : edge R) x dx, length (d_dofs ed) = (3 * d_ndof ed)%nat ->
  (forall j, (j < length (d_dofs ed))%nat -> dx ed j = x (nth j (d_dofs ed) 0%nat)) -> qhat_updated ed (new_qhat dx ed) x.
Proof.
  intros ed x dx HL H var dof Hv Hd. unfold new_qhat, reshape3. num_R. rewrite H by lia.
  replace (var + 3 * dof)%nat with (3 * dof + var)%nat by lia. reflexivity.
Qed.

Lemma Forall2_map_r : forall (A B : Type) (P : A -> B -> Prop) (g : A -> B) l, (forall a, In a l -> P a (g a)) -> Forall2 P l (map g l).
Proof. induction l as [|a l IH]; intros H; constructor; [apply H; left; reflexivity|]. apply IH. intros b Hb. apply H. right. exact Hb. Qed.

Lemma newton_update : forall inverse solve_sle sk, inverse_ok inverse -> solver_ok solve_sle -> well_formed sk ->
  invertible_blocks (s_nelt sk) (s_elt sk) -> uniquely_solvable sk ->
  exists res dq x, serial_solve_global_problem inverse solve_sle sk = Ok res /\ full_system sk dq x /\
    q_updated (s_nelt sk) (s_elt sk) (r_q res) dq /\
    Forall2 (fun e qh => qhat_updated (snd e) qh x) (s_int sk) (r_int res) /\
    Forall2 (fun e qh => qhat_updated (snd e) qh x) (s_bnd sk) (r_bnd res) /\
    conv_spec (s_size sk) x (r_conv res).
Proof.
  intros inverse solve sk HI HS W HB [(dq0 & x0 & F0) HU].
  set (inv := fun K => inverse (3 * e_ndof (s_elt sk K))%nat (e_delta (s_elt sk K))).
  assert (Hinv : forall K, (K < s_nelt sk)%nat -> two_sided (3 * e_ndof (s_elt sk K)) (e_delta (s_elt sk K)) (inv K)).
  { intros K HK. apply HI. apply HB. exact HK. }
  destruct (condensation_equivalent sk inv W Hinv) as (w & ts & A & Hr & E).
  assert (X : solves (s_size sk) (entry ts) w (solve (s_size sk) (entry ts) w)).
  { apply HS. exists x0. split; [apply E; eauto|]. intros y Hy. apply E in Hy. destruct Hy as (dqy & Hy). exact (proj2 (HU _ _ _ _ F0 Hy)). }
  set (x := solve (s_size sk) (entry ts) w) in *.
  unfold serial_solve_global_problem. fold inv. rewrite A. cbn [bind]. rewrite Hr. fold x.
  destruct W as [HA HN].
  assert (HD : forall sides ed, In (sides, ed) (edges_of sk) -> length (d_dofs ed) = (3 * d_ndof ed)%nat /\
    forall j, (j < length (d_dofs ed))%nat -> del_qhat x ed j = x (nth j (d_dofs ed) 0%nat)).
  { intros sides ed Hin. split; [exact (proj1 (proj2 (proj2 HA _ _ Hin)))|]. intros j Hj. destruct (contiguous_block _ _ _ _ HN Hin) as (a & Ha). cbn [snd] in Ha.
    unfold del_qhat. f_equal. set (n := length (d_dofs ed)) in *. rewrite Ha. rewrite seq_nth by exact Hj. destruct n; [lia|]. reflexivity. }
  apply E in X. destruct X as (dq & F).
  eexists _, (dqx (s_elt sk) inv x), x. split; [reflexivity|]. cbn [r_q r_int r_bnd r_conv].
  pose proof (proj1 (full_iff _ _ _ HA inv dq x Hinv) F) as [_ F2].
  split. { apply (full_iff _ _ _ HA inv _ x Hinv). split; [|exact F2]. intros K _ l _. reflexivity. }
  split; [|split; [|split]].
  - intros K var dof HK Hv Hd. rewrite back_substitute_eq. f_equal. unfold dqx. apply rsum_ext. intros m Hm. f_equal. f_equal.
    fold (edges_of sk). apply (sub_all_hatsum (s_nelt sk)); [|intros [s ed] He|exact HK].
    + rewrite flat_sides_fst. exact (proj1 HA).
    + apply in_flat_sides in He. destruct He as (sides & H1 & H2). cbn [fst snd]. split; [exact (proj2 (proj2 (proj2 HA _ _ H1)) s H2)|].
      exact (proj2 (HD sides ed H1)).
  - apply Forall2_map_r. intros [[s1 s2] ed] He. cbn [snd]. destruct (HD [s1; s2] ed) as [D1 D2].
    { unfold edges_of. apply in_or_app. left. apply in_map_iff. exists (s1, s2, ed). auto. }
    apply qhat_ok; assumption.
  - apply Forall2_map_r. intros [s ed] He. cbn [snd]. destruct (HD [s] ed) as [D1 D2].
    { unfold edges_of. apply in_or_app. right. apply in_map_iff. exists (s, ed). auto. }
    apply qhat_ok; assumption.
  - apply converged_spec.
Qed.

(** ** Distributed *)
Lemma add_sub_eq : forall (w : nat -> R) dofs v r, add_sub w dofs v r = w r + hit dofs r v.
Proof.
  intros w dofs v r. unfold add_sub, hit.
  assert (G : forall n, fold_left (fun w i => upd w (nth i dofs 0%nat) (nadd (w (nth i dofs 0%nat)) (v i))) (seq 0 n) w r =
    w r + rsum n (fun i => if Nat.eqb (nth i dofs 0%nat) r then v i else 0)).
  { induction n as [|n IH]; [cbn; ring|]. rewrite seq_S, fold_left_app. cbn [fold_left plus rsum]. unfold upd at 1.
    rewrite (Nat.eqb_sym (nth n dofs 0%nat) r). destruct (Nat.eqb_spec r (nth n dofs 0%nat)) as [E|E].
    - rewrite <- E. rewrite IH. num_R. ring.
    - rewrite IH. ring. }
  apply G.
Qed.

Definition unit_parts (u : unit_edges R) : list (list slot * edge R) :=
  unit_edge_list u ++ map (fun e => ([fst e], snd e)) (u_dists u).

Definition acc_ok (size : nat) (els : nat -> elt R) (inv : nat -> nat -> nat -> R) (pre : list (list slot * edge R)) (a : (nat -> R) * list (nat * nat * R)) : Prop :=
  in_range size (snd a) = true /\
  forall x r, rowdot (snd a) x r - fst a r = lsum pre (fun c => hit (d_dofs (snd c)) r (edge_res els inv x (fst c) (snd c))).
Definition part_ok (size : nat) (els : nat -> elt R) (inv : nat -> nat -> nat -> R) (sides : list slot) (ed : edge R) : Prop :=
  all_lt size (d_dofs ed) /\ sides_ok els sides ed /\ forall s, In s sides -> in_range size (off_diagonal els inv s ed) = true.

Lemma acc_ints : forall size els inv l pre a, (forall e, In e l -> part_ok size els inv [fst (fst e); snd (fst e)] (snd e)) ->
  acc_ok size els inv pre a ->
  acc_ok size els inv (pre ++ map (fun e => ([fst (fst e); snd (fst e)], snd e)) l)
    (fold_left (fun a (e : slot * slot * edge R) => let '(s1, s2, ed) := e in
      (add_sub (fst a) (d_dofs ed) (int_rhs els inv s1 s2 ed), snd a ++ int_triplets els inv s1 s2 ed)) l a).
Proof.
  intros size els inv l. induction l as [|[[s1 s2] ed] l IH]; intros pre a H HA; cbn [map fold_left fst snd]; [rewrite List.app_nil_r; exact HA|].
  change (([s1; s2], ed) :: map (fun e : slot * slot * edge R => ([fst (fst e); snd (fst e)], snd e)) l)
    with ([([s1; s2], ed)] ++ map (fun e : slot * slot * edge R => ([fst (fst e); snd (fst e)], snd e)) l). rewrite app_assoc.
  apply IH; [intros e He; apply H; right; exact He|].
  destruct HA as [A1 A2]. destruct (H (s1, s2, ed)) as (P1 & P2 & P3); [left; reflexivity|]. cbn [fst snd] in *. split; cbn [fst snd].
  - rewrite in_range_app, A1. unfold int_triplets. rewrite !in_range_app, in_range_block by exact P1. rewrite !P3 by (cbn; auto). reflexivity.
  - intros x r. rewrite rowdot_app, add_sub_eq, lsum_app, lsum_cons. unfold lsum at 2. cbn [map fold_right fst snd].
    rewrite <- A2, <- (int_row els inv x s1 s2 ed r P2). ring.
Qed.
Lemma acc_bnds : forall size els inv l pre a, (forall e, In e l -> part_ok size els inv [fst e] (snd e)) ->
  acc_ok size els inv pre a ->
  acc_ok size els inv (pre ++ map (fun e => ([fst e], snd e)) l)
    (fold_left (fun a (e : slot * edge R) =>
      (add_sub (fst a) (d_dofs (snd e)) (bnd_rhs els inv (fst e) (snd e)), snd a ++ bnd_triplets els inv (fst e) (snd e))) l a).
Proof.
  intros size els inv l. induction l as [|[s1 ed] l IH]; intros pre a H HA; cbn [map fold_left fst snd]; [rewrite List.app_nil_r; exact HA|].
  change (([s1], ed) :: map (fun e : slot * edge R => ([fst e], snd e)) l)
    with ([([s1], ed)] ++ map (fun e : slot * edge R => ([fst e], snd e)) l). rewrite app_assoc.
  apply IH; [intros e He; apply H; right; exact He|].
  destruct HA as [A1 A2]. destruct (H (s1, ed)) as (P1 & P2 & P3); [left; reflexivity|]. cbn [fst snd] in *. split; cbn [fst snd].
  - rewrite in_range_app, A1. unfold bnd_triplets. rewrite !in_range_app, in_range_block by exact P1. rewrite !P3 by (cbn; auto). reflexivity.
  - intros x r. rewrite rowdot_app, add_sub_eq, lsum_app, lsum_cons. unfold lsum at 2. cbn [map fold_right fst snd].
    rewrite <- A2, <- (bnd_row els inv x s1 ed r P2). ring.
Qed.

Lemma acc_units : forall size els inv us, (forall u c, In u us -> In c (unit_parts u) -> part_ok size els inv (fst c) (snd c)) ->
  acc_ok size els inv (flat_map unit_parts us) (ompi_assemble els inv us).
Proof.
  intros size els inv us H. unfold ompi_assemble.
  assert (G : forall us pre a, (forall u c, In u us -> In c (unit_parts u) -> part_ok size els inv (fst c) (snd c)) -> acc_ok size els inv pre a ->
    acc_ok size els inv (pre ++ flat_map unit_parts us) (fold_left (fun a u =>
      let one := fun a (e : slot * edge R) =>
        (add_sub (fst a) (d_dofs (snd e)) (bnd_rhs els inv (fst e) (snd e)), snd a ++ bnd_triplets els inv (fst e) (snd e)) in
      let a1 := fold_left (fun a (e : slot * slot * edge R) =>
        let '(s1, s2, ed) := e in
        (add_sub (fst a) (d_dofs ed) (int_rhs els inv s1 s2 ed), snd a ++ int_triplets els inv s1 s2 ed)) (u_ints u) a in
      fold_left one (u_dists u) (fold_left one (u_bnds u) a1)) us a)).
  { clear us H. induction us as [|u us IH]; intros pre a H HA; cbn [fold_left flat_map]; [rewrite List.app_nil_r; exact HA|].
    rewrite app_assoc. apply IH; [intros u' c Hu Hc; apply (H u' c); [right; exact Hu|exact Hc]|].
    assert (Q : forall c, In c (unit_parts u) -> part_ok size els inv (fst c) (snd c)) by (intros c Hc; apply (H u c); [left; reflexivity|exact Hc]).
    unfold unit_parts, unit_edge_list in *. rewrite !app_assoc. cbv zeta.
    apply acc_bnds; [|apply acc_bnds; [|apply acc_ints; [|exact HA]]]; intros e He.
    - apply (Q ([fst e], snd e)). apply in_or_app. right. apply in_map_iff. exists e. auto.
    - apply (Q ([fst e], snd e)). apply in_or_app. left. apply in_or_app. right. apply in_map_iff. exists e. auto.
    - apply (Q ([fst (fst e); snd (fst e)], snd e)). apply in_or_app. left. apply in_or_app. left. apply in_map_iff. exists e. auto. }
  apply (G us [] (fun _ => 0, []) H). split; [reflexivity|]. intros x r. unfold rowdot, lsum. cbn. ring.
Qed.

Lemma perm_middle_flat : forall (A B : Type) (f g : A -> list B) l, Permutation (flat_map (fun a => f a ++ g a) l) (flat_map f l ++ flat_map g l).
Proof.
  induction l as [|a l IH]; cbn [flat_map]; [constructor|]. eapply Permutation_trans; [apply Permutation_app_head; exact IH|].
  rewrite !app_assoc. apply Permutation_app_tail. rewrite <- !app_assoc. apply Permutation_app_head. apply Permutation_app_comm.
Qed.

(** Two halves add up to the joined edge. *)
Lemma joined_res : forall els inv x p i, d_dofs (snd (fst p)) = d_dofs (snd (snd p)) ->
  edge_res els inv x [fst (fst p)] (snd (fst p)) i + edge_res els inv x [fst (snd p)] (snd (snd p)) i =
  edge_res els inv x (fst (joined p)) (snd (joined p)) i.
Proof.
  intros els inv x [[s1 e1] [s2 e2]] i H. cbn [fst snd joined] in *. unfold edge_res, trace_term. rewrite !lsum_cons. unfold lsum. cbn [map fold_right d_dofs d_delta d_rhs].
  rewrite H. rewrite (rsum_ext _ (fun j => (d_delta e1 i j + d_delta e2 i j) * _)
    (fun j => d_delta e1 i j * x (nth j (d_dofs e2) 0%nat) + d_delta e2 i j * x (nth j (d_dofs e2) 0%nat))) by (intros; ring).
  rewrite rsum_plus. ring.
Qed.

Lemma parts_sum : forall els inv x r us pairs, paired us pairs ->
  lsum (flat_map unit_parts us) (fun c => hit (d_dofs (snd c)) r (edge_res els inv x (fst c) (snd c))) =
  lsum (whole_edges us pairs) (fun c => hit (d_dofs (snd c)) r (edge_res els inv x (fst c) (snd c))).
Proof.
  intros els inv x r us pairs [HP HE]. unfold unit_parts. rewrite (lsum_perm _ _ _ _ (perm_middle_flat _ _ _ _ us)). unfold whole_edges. rewrite !lsum_app. f_equal.
  replace (flat_map (fun a => map (fun e : slot * edge R => ([fst e], snd e)) (u_dists a)) us)
    with (map (fun e : slot * edge R => ([fst e], snd e)) (half_list us)).
  2:{ unfold half_list. rewrite !flat_map_concat_map, concat_map, map_map. reflexivity. }
  rewrite lsum_map, (lsum_perm _ _ _ _ HP), lsum_flat_map, lsum_map. apply lsum_ext. intros p Hp. destruct (HE p Hp) as [E1 _].
  rewrite !lsum_cons. unfold lsum. cbn [map fold_right]. cbn [fst snd]. rewrite Rplus_0_r.
  assert (E2 : d_dofs (snd (joined p)) = d_dofs (snd (fst p))) by reflexivity. rewrite E2, <- E1, <- hit_plus. apply hit_ext. intros i _. apply joined_res. exact E1.
Qed.

Section Ompi.
  Context (size nelt : nat) (els : nat -> elt R) (us : list (unit_edges R)) (pairs : list ((slot * edge R) * (slot * edge R))).
  Context (W : whole_ok size nelt els us pairs).

  Lemma in_half : forall u e, In u us -> In e (u_dists u) -> exists p, In p pairs /\ (e = fst p \/ e = snd p).
  Proof.
    intros u e Hu He. destruct W as [[HP _] _]. assert (Q : In e (half_list us)) by (apply in_flat_map; eauto).
    apply (Permutation_in _ HP) in Q. apply in_flat_map in Q. destruct Q as (p & H1 & H2). exists p. split; [exact H1|]. destruct H2 as [<-|[<-|[]]]; auto.
  Qed.
  Lemma half_joined : forall u e, In u us -> In e (u_dists u) -> exists p, In (joined p) (whole_edges us pairs) /\ In (fst e) (fst (joined p)) /\
    d_dofs (snd e) = d_dofs (snd (joined p)) /\ d_ndof (snd e) = d_ndof (snd (joined p)).
  Proof.
    intros u e Hu He. destruct (in_half u e Hu He) as (p & H1 & H2). exists p. destruct W as [[_ HE] _]. destruct (HE p H1) as [E1 E2].
    split; [apply in_or_app; right; apply in_map; exact H1|].
    destruct H2 as [->| ->]; cbn; auto.
  Qed.
  Lemma part_in : forall u c, In u us -> In c (unit_parts u) -> exists sides ed, In (sides, ed) (whole_edges us pairs) /\
    (forall s, In s (fst c) -> In s sides) /\ d_dofs (snd c) = d_dofs ed /\ d_ndof (snd c) = d_ndof ed.
  Proof.
    intros u c Hu Hc. unfold unit_parts in Hc. apply in_app_or in Hc. destruct Hc as [Hc|Hc].
    - exists (fst c), (snd c). split; [|auto]. apply in_or_app. left. apply in_flat_map. exists u. split; [exact Hu|]. destruct c; exact Hc.
    - apply in_map_iff in Hc. destruct Hc as (e & <- & He). destruct (half_joined u e Hu He) as (p & H1 & H2 & H3 & H4).
      exists (fst (joined p)), (snd (joined p)). split; [destruct (joined p); exact H1|]. split; [|auto]. intros s [<-|[]]. exact H2.
  Qed.

  Lemma parts_ok : forall inv u c, In u us -> In c (unit_parts u) -> part_ok size els inv (fst c) (snd c).
  Proof.
    intros inv u c Hu Hc. destruct (part_in u c Hu Hc) as (sides & ed & H1 & H2 & H3 & _). destruct W as (_ & HA & HP).
    assert (D : all_lt size (d_dofs (snd c))) by (rewrite H3; exact (dofs_lt size _ HP _ _ H1)).
    split; [exact D|]. split.
    - intros s Hs. rewrite H3. exact (edge_sides_ok nelt els _ HA _ _ H1 s (H2 s Hs)).
    - intros s Hs. exact (side_range size nelt els _ HA HP inv sides ed s (snd c) H1 (H2 s Hs) D).
  Qed.

  Lemma ompi_equivalent : forall inv,
    (forall K, (K < nelt)%nat -> two_sided (3 * e_ndof (els K)) (e_delta (els K)) (inv K)) ->
    in_range size (snd (ompi_assemble els inv us)) = true /\
    forall x, solves size (entry (snd (ompi_assemble els inv us))) (fst (ompi_assemble els inv us)) x <-> exists dq, whole_system nelt els us pairs dq x.
  Proof.
    intros inv Hinv. destruct (acc_units size els inv us (parts_ok inv)) as [Hr Hrow]. split; [exact Hr|].
    intros x. destruct W as (HPr & HA & HP).
    assert (Hrow' : forall x r, (r < size)%nat -> rowdot (snd (ompi_assemble els inv us)) x r - fst (ompi_assemble els inv us) r =
       lsum (whole_edges us pairs) (fun c => hit (d_dofs (snd c)) r (edge_res els inv x (fst c) (snd c)))).
    { intros y r _. rewrite Hrow. apply parts_sum. exact HPr. }
    rewrite (rows_iff _ _ _ _ HA HP inv _ _ x Hr Hrow'). split.
    - intros H. exists (dqx els inv x). apply (full_iff _ _ _ HA inv _ x Hinv). split; [|exact H]. intros K _ l _. reflexivity.
    - intros (dq & H). apply (full_iff _ _ _ HA inv _ x Hinv) in H. exact (proj2 H).
  Qed.

  Lemma sides_perm : Permutation (map fst (flat_sides (map (fun e => ([fst (fst e); snd (fst e)], snd e)) (flat_map u_ints us) ++
      map (fun e => ([fst e], snd e)) (flat_map u_bnds us ++ flat_map u_dists us)))) (slots_of nelt els).
  Proof.
    destruct W as ((HP & HE) & (HA & _) & _). eapply Permutation_trans; [|exact HA]. rewrite flat_sides_fst. unfold whole_edges, unit_edge_list.
    rewrite flat_map_app, (flat_map_app fst (flat_map _ us)), map_app, flat_map_app, app_assoc. apply Permutation_app.
    - assert (Q : forall vs, Permutation (flat_map fst (map (fun e : slot * slot * edge R => ([fst (fst e); snd (fst e)], snd e)) (flat_map u_ints vs)) ++
          flat_map fst (map (fun e : slot * edge R => ([fst e], snd e)) (flat_map u_bnds vs)))
        (flat_map fst (flat_map (fun u => map (fun e : slot * slot * edge R => ([fst (fst e); snd (fst e)], snd e)) (u_ints u) ++ map (fun e : slot * edge R => ([fst e], snd e)) (u_bnds u)) vs))).
      { clear. induction vs as [|u vs IH]; [constructor|]. cbn [flat_map]. rewrite !map_app, !flat_map_app.
        rewrite <- IH. rewrite <- !app_assoc. apply Permutation_app_head. rewrite !app_assoc. apply Permutation_app_tail. apply Permutation_app_comm. }
      apply Q.
    - assert (E1 : flat_map fst (map (fun e : slot * edge R => ([fst e], snd e)) (flat_map u_dists us)) = map fst (half_list us)).
      { unfold half_list. induction (flat_map u_dists us) as [|a l IH]; [reflexivity|]. cbn. f_equal. exact IH. }
      assert (E2 : flat_map fst (map joined pairs) = map fst (flat_map (fun p => [fst p; snd p]) pairs)).
      { clear. induction pairs as [|p l IH]; [reflexivity|]. cbn. do 2 f_equal. exact IH. }
      unfold slot in *. rewrite E1, E2. apply Permutation_map. exact HP.
  Qed.

  Lemma ompi_update : forall inverse ksp_solve, inverse_ok inverse -> solver_ok ksp_solve -> invertible_blocks nelt els ->
    (exists dq x, whole_system nelt els us pairs dq x) ->
    (forall dq x dq' x', whole_system nelt els us pairs dq x -> whole_system nelt els us pairs dq' x' -> same_update nelt els size dq dq' x x') ->
    exists res dq x, ompi_solve_global_problem inverse ksp_solve size els us = Ok res /\ whole_system nelt els us pairs dq x /\
      q_updated nelt els (o_q res) dq /\
      Forall2 (fun u qs => Forall2 (fun e qh => qhat_updated (snd e) qh x) (u_ints u) qs) us (o_int res) /\
      Forall2 (fun u qs => Forall2 (fun e qh => qhat_updated (snd e) qh x) (u_bnds u) qs) us (o_bnd res) /\
      Forall2 (fun u qs => Forall2 (fun e qh => qhat_updated (snd e) qh x) (u_dists u) qs) us (o_dist res) /\
      conv_spec size x (o_conv res).
  Proof.
    intros inverse solve HI HS HB (dq0 & x0 & F0) HU.
    set (inv := fun K => inverse (3 * e_ndof (els K))%nat (e_delta (els K))).
    assert (Hinv : forall K, (K < nelt)%nat -> two_sided (3 * e_ndof (els K)) (e_delta (els K)) (inv K)).
    { intros K HK. apply HI. apply HB. exact HK. }
    destruct (ompi_equivalent inv Hinv) as [Hr E]. unfold ompi_solve_global_problem. fold inv. destruct (ompi_assemble els inv us) as [w ts]. cbn [fst snd] in *.
    assert (X : solves size (entry ts) w (solve size (entry ts) w)).
    { apply HS. exists x0. split; [apply E; eauto|]. intros y Hy. apply E in Hy. destruct Hy as (dqy & Hy). exact (proj2 (HU _ _ _ _ F0 Hy)). }
    rewrite Hr. set (x := solve size (entry ts) w) in *.
    apply E in X. destruct X as (dq & F). assert (HA := proj1 (proj2 W)).
    pose proof (proj1 (full_iff _ _ _ HA inv dq x Hinv) F) as [_ F2].
    eexists _, (dqx els inv x), x. split; [reflexivity|]. cbn [o_q o_int o_bnd o_dist o_conv].
    split. { apply (full_iff _ _ _ HA inv _ x Hinv). split; [|exact F2]. intros K _ l _. reflexivity. }
    assert (L : forall u c, In u us -> In c (unit_parts u) -> length (d_dofs (snd c)) = (3 * d_ndof (snd c))%nat).
    { intros u c Hu Hc. destruct (part_in u c Hu Hc) as (sides & ed & H1 & _ & H3 & H4). rewrite H3, H4. exact (proj1 (proj2 (proj2 HA _ _ H1))). }
    split; [|split; [|split; [|split]]].
    - intros K var dof HK Hv Hd. rewrite back_substitute_eq. f_equal. unfold dqx. apply rsum_ext. intros m Hm. f_equal. f_equal.
      apply (sub_all_hatsum nelt); [apply sides_perm|intros [s ed] He|exact HK]. cbn [fst snd]. split; [|reflexivity].
      apply in_flat_sides in He. destruct He as (sides & H1 & H2).
      assert (Q : exists u, In u us /\ In (sides, ed) (unit_parts u)).
      { unfold unit_parts, unit_edge_list. apply in_app_or in H1. destruct H1 as [H1|H1].
        - apply in_map_iff in H1. destruct H1 as (e & E1 & H1). apply in_flat_map in H1. destruct H1 as (u & Hu & H1). exists u. split; [exact Hu|].
          apply in_or_app. left. apply in_or_app. left. apply in_map_iff. eauto.
        - apply in_map_iff in H1. destruct H1 as (e & E1 & H1). apply in_app_or in H1. destruct H1 as [H1|H1]; apply in_flat_map in H1; destruct H1 as (u & Hu & H1); exists u; (split; [exact Hu|]).
          + apply in_or_app. left. apply in_or_app. right. apply in_map_iff. eauto.
          + apply in_or_app. right. apply in_map_iff. eauto. }
      destruct Q as (u & Hu & Hc). exact (proj1 (proj1 (proj2 (parts_ok inv u _ Hu Hc)) s H2)).
    - apply Forall2_map_r. intros u Hu. apply Forall2_map_r. intros e He. apply qhat_ok; [|reflexivity].
      apply (L u ([fst (fst e); snd (fst e)], snd e) Hu). unfold unit_parts, unit_edge_list. apply in_or_app. left. apply in_or_app. left. apply in_map_iff. eauto.
    - apply Forall2_map_r. intros u Hu. apply Forall2_map_r. intros e He. apply qhat_ok; [|reflexivity].
      apply (L u ([fst e], snd e) Hu). unfold unit_parts, unit_edge_list. apply in_or_app. left. apply in_or_app. right. apply in_map_iff. eauto.
    - apply Forall2_map_r. intros u Hu. apply Forall2_map_r. intros e He. apply qhat_ok; [|reflexivity].
      apply (L u ([fst e], snd e) Hu). unfold unit_parts. apply in_or_app. right. apply in_map_iff. eauto.
    - apply converged_spec.
  Qed.
End Ompi.

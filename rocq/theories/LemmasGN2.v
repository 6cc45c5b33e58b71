(** Proofs: the condensed system of the dispersive correction and its solution. *)
From Coq Require Import Reals List Arith Bool Lia Lra Permutation.
From Verif Require Import Num Outcome ModelSWE LemmasSWE ModelStep ModelIHDG ModelCond SpecStepper SpecStep SpecStage SpecCond LemmasRK LemmasStep LemmasCond ModelGN LemmasGN1.
Import ListNotations.
Open Scope R_scope.

Lemma hit_seq : forall o n r f, hit (seq o n) r f = if Nat.leb o r && Nat.ltb r (o + n) then f (r - o)%nat else 0.
Proof.
  intros o n r f. destruct (Nat.leb_spec o r); cbn [andb].
  - destruct (Nat.ltb_spec r (o + n)).
    + replace r with (nth (r - o) (seq o n) 0%nat) at 1 by (rewrite seq_nth; lia). apply hit_at; [apply seq_NoDup|rewrite seq_length; lia].
    + apply hit_out. rewrite in_seq. lia.
  - apply hit_out. rewrite in_seq. lia.
Qed.
Lemma filter_nil : forall (X : Type) (f : X -> bool) l, existsb f l = false -> filter f l = [].
Proof. induction l as [|a l IH]; intros H; [reflexivity|]. cbn in *. destruct (f a); [discriminate|]. apply IH. exact H. Qed.
Lemma wet_sides_dry : forall wet ed, wet_edge wet ed = false -> wet_sides wet ed = [].
Proof. intros. apply filter_nil. exact H. Qed.
Lemma in_wet_sides : forall wet ed s, In s (wet_sides wet ed) <-> In s (ge_sides ed) /\ wet (s_e s) = true.
Proof. intros. apply filter_In. Qed.
Lemma wet_edge_side : forall wet ed s, In s (wet_sides wet ed) -> wet_edge wet ed = true.
Proof. intros wet ed s H. apply in_wet_sides in H. apply existsb_exists. exists s. exact H. Qed.

(** ** The edges of the mesh *)
Lemma gedges_sides : forall m, map (fun s => (s_e s, s_b s)) (flat_map ge_sides (gedges m)) = all_sides m.
Proof.
  intros m. unfold gedges, all_sides. rewrite flat_map_app, map_app. f_equal.
  - induction (m_intfaces m) as [|f l IH]; [reflexivity|]. cbn. f_equal. f_equal. exact IH.
  - induction (m_bounds m) as [|f l IH]; [reflexivity|]. cbn. f_equal. exact IH.
Qed.
Lemma numbered_snd : forall m, map snd (numbered_edges m) = gedges m.
Proof.
  intros m. unfold numbered_edges.
  assert (G : forall (l : list gedge) a, map snd (combine (seq a (length l)) l) = l).
  { induction l as [|x l IH]; intros a; [reflexivity|]. cbn. f_equal. apply IH. }
  apply G.
Qed.
Lemma numbered_fst : forall m, map fst (numbered_edges m) = seq 0 (length (gedges m)).
Proof.
  intros m. unfold numbered_edges.
  assert (G : forall (l : list gedge) a, map fst (combine (seq a (length l)) l) = seq a (length l)).
  { induction l as [|x l IH]; intros a; [reflexivity|]. cbn. f_equal. apply IH. }
  apply G.
Qed.
Lemma in_numbered : forall m x, In x (numbered_edges m) -> In (snd x) (gedges m).
Proof. intros m x H. rewrite <- numbered_snd. apply in_map. exact H. Qed.
Lemma side_range : forall m ed s, faces_once m -> In ed (gedges m) -> In s (ge_sides ed) -> (s_e s < m_n m)%nat /\ (s_b s < 3)%nat.
Proof.
  intros m ed s [_ H] He Hs. apply H. rewrite <- gedges_sides. apply in_map_iff. exists s. split; [reflexivity|].
  apply in_flat_map. exists ed. auto.
Qed.
Lemma gedge_kinds : forall m ed, In ed (gedges m) ->
  (match ge_kind ed with KLand | KOpen => exists s, ge_sides ed = [s] | _ => True end).
Proof.
  intros m ed H. unfold gedges in H. apply in_app_or in H. destruct H as [H|H]; apply in_map_iff in H; destruct H as (f & <- & _); cbn.
  - destruct (i_kind f); exact I.
  - destruct (b_bc f); eexists; reflexivity.
Qed.

(** The numbering fits the wet edges. *)
Record num_ok (m : mesh) (wet : nat -> bool) (nb : numbering) : Prop := NumOk {
  no_face : forall x s, In x (numbered_edges m) -> wet_edge wet (snd x) = true -> In s (ge_sides (snd x)) ->
     n_face nb (s_e s) (s_b s) = n_edge nb (fst x);
  no_seq : map (fun x => n_edge nb (fst x)) (filter (fun x => wet_edge wet (snd x)) (numbered_edges m)) = seq 0 (n_count nb) }.

Section Global.
  Context (m : mesh) (wet : nat -> bool) (nb : numbering) (d : dcsys).
  Context (inverse : nat -> (nat -> nat -> R) -> nat -> nat -> R) (solve_dense : nat -> (nat -> nat -> R) -> (nat -> R) -> nat -> R)
          (solve_sparse : nat -> (nat -> nat -> R) -> (nat -> R) -> nat -> R).
  Context (HM : faces_once m) (HN : num_ok m wet nb).
  Notation n1 := (2 * ndof m)%nat.
  Notation n2 := (ndof m).
  Notation nh := (nhat m).
  Notation inv22 := (inv22 m inverse d).
  Notation A' := (cond_11 m inverse d).
  Notation F' := (cond_1h m inverse solve_dense d).
  Notation r' := (cond_r m inverse solve_dense d).
  Notation K' := (cond_h1 m inverse d).
  Notation couple := (couple m inverse solve_dense d).

  (** ** The flat system *)
  Definition zf (z : nat -> R) (e b j : nat) : R := z (n_face nb e b * nh + j)%nat.
  Definition ze_ (z : nat -> R) (i j : nat) : R := z (n_edge nb i * nh + j)%nat.
  Definition side_eq (x y : nat -> nat -> R) (s : gside) (k : nat) : R :=
    mul n1 (d_h1 d (s_e s) (s_b s)) (x (s_e s)) k + mul n2 (d_h2 d (s_e s) (s_b s)) (y (s_e s)) k.
  Definition edge_eq (x y : nat -> nat -> R) (z : nat -> R) (e : nat * gedge) (k : nat) : R :=
    lsum (wet_sides wet (snd e)) (fun s => side_eq x y s k) + mul nh (d_hh d (fst e)) (ze_ z (fst e)) k.
  Definition flat_elements (x y : nat -> nat -> R) (z : nat -> R) : Prop := forall e, (e < m_n m)%nat -> wet e = true ->
    el1 n1 n2 nh (d_11 d e) (d_12 d e) (d_r d e) (d_1h d e) (zf z e) (x e) (y e) /\
    el2 n1 n2 nh (d_21 d e) (d_22 d e) (d_2h d e) (zf z e) (x e) (y e).
  Definition flat_edges (x y : nat -> nat -> R) (z : nat -> R) : Prop := forall e k, In e (numbered_edges m) -> wet_edge wet (snd e) = true -> (k < nh)%nat ->
    edge_eq x y z e k = 0.
  Definition flat_system (x y : nat -> nat -> R) (z : nat -> R) : Prop := flat_elements x y z /\ flat_edges x y z.

  (** ** Local problems *)
  Context (HD : forall e, (e < m_n m)%nat -> wet e = true -> two_sided n2 (d_22 d e) (inv22 e)).
  Context (HS : forall e v, (e < m_n m)%nat -> wet e = true -> solves n1 (A' e) v (solve_dense n1 (A' e) v)).
  Context (HU : forall e v x x', (e < m_n m)%nat -> wet e = true -> solves n1 (A' e) v x -> solves n1 (A' e) v x' -> agree n1 x x').

  Definition xz (z : nat -> R) (e : nat) : nat -> R := x_of nh (F' e) (r' e) (zf z e).
  Definition yz (z : nat -> R) (e : nat) : nat -> R := y_of n1 n2 nh (d_21 d e) (inv22 e) (d_2h d e) (F' e) (r' e) (zf z e).

  Lemma xz_elements : forall z, flat_elements (xz z) (yz z) z.
  Proof.
    intros z e He We. apply (el_x_y n1 n2 nh (d_11 d e) (d_12 d e) (d_21 d e) (d_22 d e) (inv22 e) (d_r d e) (d_1h d e) (d_2h d e) (F' e) (r' e) (HD e He We)).
    - intros b j _ _. apply HS; assumption.
    - apply HS; assumption.
  Qed.
  Lemma elements_xz : forall x y z e, flat_elements x y z -> (e < m_n m)%nat -> wet e = true -> agree n1 (x e) (xz z e) /\ agree n2 (y e) (yz z e).
  Proof.
    intros x y z e H He We. destruct (H e He We) as [H1 H2].
    apply (el_unique n1 n2 nh (d_11 d e) (d_12 d e) (d_21 d e) (d_22 d e) (inv22 e) (d_r d e) (d_1h d e) (d_2h d e) (F' e) (r' e) (HD e He We)); try assumption.
    - intros v u u'. apply HU; assumption.
    - intros b j _ _. apply HS; assumption.
    - apply HS; assumption.
  Qed.
  Lemma edge_eq_ext : forall x y x' y' z e k, In e (numbered_edges m) ->
    (forall K, (K < m_n m)%nat -> wet K = true -> agree n1 (x K) (x' K) /\ agree n2 (y K) (y' K)) -> edge_eq x y z e k = edge_eq x' y' z e k.
  Proof.
    intros x y x' y' z e k He H. unfold edge_eq. f_equal. apply lsum_ext. intros s Hs. apply in_wet_sides in Hs. destruct Hs as [Hs Ws].
    destruct (side_range m (snd e) s HM (in_numbered m e He) Hs) as [R1 R2]. destruct (H _ R1 Ws) as [A1 A2].
    unfold side_eq. f_equal; apply mul_ext; auto.
  Qed.
  Lemma flat_iff : forall z, flat_edges (xz z) (yz z) z <-> exists x y, flat_system x y z.
  Proof.
    intros z. split.
    - intros H. exists (xz z), (yz z). split; [apply xz_elements|exact H].
    - intros (x & y & H1 & H2) e k He We Hk. rewrite (edge_eq_ext (xz z) (yz z) x y z e k He); [apply H2; assumption|].
      intros K HK WK. destruct (elements_xz x y z K H1 HK WK) as [A1 A2]. split; intros r Hr; symmetry; auto.
  Qed.

  (** ** Rows of the condensed matrix *)
  Lemma nh_pos : (0 < nh)%nat.
  Proof. unfold nhat. lia. Qed.
  Lemma dofs_length : forall i, length (dofs m i) = nh.
  Proof. intros. unfold dofs. apply seq_length. Qed.
  Lemma dofs_nth : forall i j, (j < nh)%nat -> nth j (dofs m i) 0%nat = (i * nh + j)%nat.
  Proof. intros. unfold dofs. apply seq_nth. exact H. Qed.
  Lemma block_row : forall i i' f z r, rowdot (ModelCond.block (dofs m i) (dofs m i') f) z r = hit (dofs m i) r (mul nh f (fun j => z (i' * nh + j)%nat)).
  Proof.
    intros. rewrite rowdot_block, dofs_length. apply hit_ext. intros k _. unfold mul. apply rsum_ext. intros j Hj. rewrite dofs_nth by exact Hj. reflexivity.
  Qed.
  Lemma lsum_hit : forall (X : Type) (l : list X) rows r f, lsum l (fun a => hit rows r (f a)) = hit rows r (fun k => lsum l (fun a => f a k)).
  Proof.
    induction l as [|a l IH]; intros rows r f.
    - unfold lsum. cbn. unfold hit. symmetry. apply rsum_const0. intros. destruct (Nat.eqb _ r); reflexivity.
    - rewrite lsum_cons, IH, <- hit_plus. apply hit_ext. intros. rewrite lsum_cons. reflexivity.
  Qed.
  Lemma rsum_hit : forall n rows r f, rsum n (fun a => hit rows r (f a)) = hit rows r (fun k => rsum n (fun a => f a k)).
  Proof.
    induction n as [|n IH]; intros rows r f; cbn [rsum].
    - unfold hit. symmetry. apply rsum_const0. intros. destruct (Nat.eqb _ r); reflexivity.
    - rewrite IH, <- hit_plus. reflexivity.
  Qed.
  Lemma own_mul : forall x v k, mul nh (own_block m inverse solve_dense wet d x) v k =
    mul nh (d_hh d (fst x)) v k - lsum (wet_sides wet (snd x)) (fun s => mul nh (couple (s_e s) (s_b s) (s_b s)) v k).
  Proof.
    intros x v k. unfold own_block. generalize (wet_sides wet (snd x)) as l. generalize (d_hh d (fst x)) as H.
    intros H l. revert H. induction l as [|s l IH]; intros H; cbn [fold_left]; [unfold lsum; cbn; ring|].
    rewrite IH, mul_minus2, lsum_cons. ring.
  Qed.
  Lemma side_triplets_row : forall i s z r, (s_b s < 3)%nat ->
    rowdot (side_triplets m inverse solve_dense nb d i s) z r =
    hit (dofs m i) r (fun k => mul nh (couple (s_e s) (s_b s) (s_b s)) (zf z (s_e s) (s_b s)) k - rsum 3 (fun b => mul nh (couple (s_e s) (s_b s) b) (zf z (s_e s) b) k)).
  Proof.
    intros i s z r Hb. unfold side_triplets, rowdot. rewrite lsum_flat_map, lsum_seq.
    rewrite (rsum_ext 3 _ (fun b => hit (dofs m i) r (fun k => (if Nat.eqb b (s_b s) then mul nh (couple (s_e s) (s_b s) b) (zf z (s_e s) b) k else 0)
       - mul nh (couple (s_e s) (s_b s) b) (zf z (s_e s) b) k))).
    - rewrite rsum_hit. apply hit_ext. intros k _. rewrite rsum_minus. f_equal.
      apply (rsum_pick 3 (s_b s) (fun b => mul nh (couple (s_e s) (s_b s) b) (zf z (s_e s) b) k)). exact Hb.
    - intros b _. destruct (Nat.eqb b (s_b s)).
      + unfold lsum. cbn [map fold_right]. unfold hit. symmetry. apply rsum_const0. intros k _. destruct (Nat.eqb _ r); ring.
      + fold (rowdot (ModelCond.block (dofs m i) (dofs m (n_face nb (s_e s) b)) (fun p c => - couple (s_e s) (s_b s) b p c)) z r).
        rewrite block_row. apply hit_ext. intros k _. rewrite mul_neg. unfold zf. ring.
  Qed.
  (** Minus the right-hand side of an edge. *)
  Definition edge_load (e : nat * gedge) (k : nat) : R :=
    lsum (wet_sides wet (snd e)) (fun s => mul n1 (K' (s_e s) (s_b s)) (r' (s_e s)) k).
  Lemma edge_row : forall e z r, In e (numbered_edges m) -> wet_edge wet (snd e) = true ->
    rowdot (edge_triplets m inverse solve_dense wet nb d e) z r + hit (dofs m (n_edge nb (fst e))) r (edge_load e) =
    hit (dofs m (n_edge nb (fst e))) r (edge_eq (xz z) (yz z) z e).
  Proof.
    intros e z r He We. unfold edge_triplets. rewrite rowdot_app, block_row.
    unfold rowdot at 1. rewrite lsum_flat_map.
    rewrite (lsum_ext _ (wet_sides wet (snd e)) _ (fun s => hit (dofs m (n_edge nb (fst e))) r (fun k =>
      mul nh (couple (s_e s) (s_b s) (s_b s)) (zf z (s_e s) (s_b s)) k - rsum 3 (fun b => mul nh (couple (s_e s) (s_b s) b) (zf z (s_e s) b) k)))).
    2:{ intros s Hs. apply in_wet_sides in Hs. apply side_triplets_row. eapply side_range; [exact HM|apply in_numbered; exact He|apply Hs]. }
    rewrite lsum_hit, <- !hit_plus. apply hit_ext. intros k _. rewrite own_mul. unfold edge_load, edge_eq.
    rewrite lsum_minus.
    assert (E : lsum (wet_sides wet (snd e)) (fun s => mul nh (couple (s_e s) (s_b s) (s_b s)) (fun j => z (n_edge nb (fst e) * nh + j)%nat) k) =
                lsum (wet_sides wet (snd e)) (fun s => mul nh (couple (s_e s) (s_b s) (s_b s)) (zf z (s_e s) (s_b s)) k)).
    { apply lsum_ext. intros s Hs. apply in_wet_sides in Hs. unfold zf. rewrite (no_face m wet nb HN e s He We (proj1 Hs)). reflexivity. }
    rewrite E.
    assert (E2 : lsum (wet_sides wet (snd e)) (fun s => side_eq (xz z) (yz z) s k) =
       lsum (wet_sides wet (snd e)) (fun s => mul n1 (K' (s_e s) (s_b s)) (r' (s_e s)) k) -
       lsum (wet_sides wet (snd e)) (fun s => rsum 3 (fun b => mul nh (couple (s_e s) (s_b s) b) (zf z (s_e s) b) k))).
    { rewrite <- lsum_minus. apply lsum_ext. intros s _. unfold side_eq, xz, yz. rewrite couple_sum. reflexivity. }
    rewrite E2. unfold ze_. ring.
  Qed.

  (** ** Assembly *)
  Lemma sub_at_ok : forall w i v, (i < n_count nb)%nat -> sub_at m nb w i v =
    Ok (fun r => if Nat.leb (i * nh) r && Nat.ltb r (i * nh + nh) then v (r - i * nh)%nat else w r).
  Proof.
    intros w i v Hi. unfold sub_at, set_sub. pose proof nh_pos as P. unfold dofs. rewrite seq_length.
    destruct nh as [|n] eqn:E; [lia|]. cbn [seq]. rewrite <- E in *.
    assert (L : Nat.leb (i * nh + nh) (nh * n_count nb) = true) by (apply Nat.leb_le; nia). rewrite L. reflexivity.
  Qed.
  Lemma add_sides : forall e w, In e (numbered_edges m) -> (wet_edge wet (snd e) = true -> (n_edge nb (fst e) < n_count nb)%nat) ->
    (forall r, (n_edge nb (fst e) * nh <= r)%nat -> w r = 0) ->
    exists w', ofold (add_side m inverse solve_dense nb d e) (wet_sides wet (snd e)) w = Ok w' /\
      forall r, w' r = w r - hit (dofs m (n_edge nb (fst e))) r (edge_load e).
  Proof.
    intros e w He Hi H0. destruct (wet_edge wet (snd e)) eqn:We.
    2:{ rewrite (wet_sides_dry _ _ We). exists w. split; [reflexivity|]. intros r. unfold edge_load. rewrite (wet_sides_dry _ _ We).
        unfold hit. rewrite rsum_const0; [ring|]. intros k _. unfold lsum. cbn. destruct (Nat.eqb _ r); reflexivity. }
    specialize (Hi eq_refl). pose proof (gedge_kinds m (snd e) (in_numbered m e He)) as HK. unfold edge_load.
    assert (Sub : forall l w, (match ge_kind (snd e) with KInternal | KLevee => True | _ => False end) ->
      exists w', ofold (add_side m inverse solve_dense nb d e) l w = Ok w' /\
      forall r, w' r = w r - hit (dofs m (n_edge nb (fst e))) r (fun k => lsum l (fun s => mul n1 (K' (s_e s) (s_b s)) (r' (s_e s)) k))).
    { clear - Hi. induction l as [|s l IH]; intros w Kd.
      - exists w. split; [reflexivity|]. intros r. unfold hit. rewrite rsum_const0; [ring|]. intros k _. unfold lsum. cbn. destruct (Nat.eqb _ r); reflexivity.
      - cbn [ofold]. assert (S1 : exists w1, add_side m inverse solve_dense nb d e w s = Ok w1 /\ forall r, w1 r = w r - hit (dofs m (n_edge nb (fst e))) r (fun k => mul n1 (K' (s_e s) (s_b s)) (r' (s_e s)) k)).
        { unfold add_side. destruct (ge_kind (snd e)); try contradiction; rewrite (sub_at_ok _ _ _ Hi); (eexists; split; [reflexivity|]); intros r; cbv beta;
          unfold dofs; rewrite hit_seq; (destruct (Nat.leb_spec (n_edge nb (fst e) * nh) r); cbn [andb]; [|ring]);
          (destruct (Nat.ltb_spec r (n_edge nb (fst e) * nh + nh)); [|ring]); rewrite mv_mul;
          replace (n_edge nb (fst e) * nh + (r - n_edge nb (fst e) * nh))%nat with r by lia; reflexivity. }
        destruct S1 as (w1 & S1 & E1). rewrite S1. cbn [bind]. destruct (IH w1 Kd) as (w' & S2 & E2). exists w'. split; [exact S2|].
        intros r. rewrite E2, E1. rewrite (hit_ext _ _ (fun k => lsum (s :: l) _) (fun k => mul n1 (K' (s_e s) (s_b s)) (r' (s_e s)) k + lsum l (fun s => mul n1 (K' (s_e s) (s_b s)) (r' (s_e s)) k))) by (intros; rewrite lsum_cons; reflexivity).
        rewrite hit_plus. match goal with |- ?c - ?a - ?b = _ => change (c - a - b = c - (a + b)) end. ring. }
    destruct (ge_kind (snd e)) eqn:Kd; [apply Sub; exact I|apply Sub; exact I| |];
    (destruct HK as [s Es]; assert (Ews : wet_sides wet (snd e) = [s]);
     [unfold wet_sides; unfold wet_edge in We; rewrite Es in *; cbn in *; destruct (wet (s_e s)); [reflexivity|discriminate]|];
     rewrite Ews; cbn [ofold]; unfold add_side; rewrite Kd, (sub_at_ok _ _ _ Hi); cbn [bind]; (eexists; split; [reflexivity|]); intros r; cbv beta;
     rewrite (hit_ext _ _ (fun k => lsum [s] _) (fun k => mul n1 (K' (s_e s) (s_b s)) (r' (s_e s)) k)) by (intros; unfold lsum; cbn; ring);
     unfold dofs; rewrite hit_seq; (destruct (Nat.leb_spec (n_edge nb (fst e) * nh) r) as [Lr|Lr]; cbn [andb]; [|ring]);
     (destruct (Nat.ltb_spec r (n_edge nb (fst e) * nh + nh)); [|ring]); rewrite mv_mul, (H0 r Lr); ring).
  Qed.

  Lemma assemble_ok : forall l a n w ts, (forall e, In e l -> In e (numbered_edges m)) ->
    map (fun x => n_edge nb (fst x)) (filter (fun x => wet_edge wet (snd x)) l) = seq a n -> (a + n <= n_count nb)%nat ->
    (forall r, (a * nh <= r)%nat -> w r = 0) ->
    exists w', ofold (assemble_edge m inverse solve_dense wet nb d) l (w, ts) =
      Ok (w', ts ++ flat_map (fun x => if wet_edge wet (snd x) then edge_triplets m inverse solve_dense wet nb d x else []) l) /\
    forall r, w' r = w r - lsum (filter (fun x => wet_edge wet (snd x)) l) (fun e => hit (dofs m (n_edge nb (fst e))) r (edge_load e)).
  Proof.
    induction l as [|e l IH]; intros a n w ts Hl Hs Hc H0; cbn [ofold flat_map filter].
    - exists w. rewrite app_nil_r. split; [reflexivity|]. intros r. unfold lsum. cbn. ring.
    - assert (He : In e (numbered_edges m)) by (apply Hl; left; reflexivity).
      cbn [filter] in Hs. destruct (wet_edge wet (snd e)) eqn:We.
      + cbn [map] in Hs. destruct n as [|n]; [discriminate|]. cbn [seq] in Hs. injection Hs as Ha Hs.
        destruct (add_sides e w He) as (w1 & S1 & E1); [intros _; lia|rewrite Ha; exact H0|].
        unfold assemble_edge at 1. cbn [fst snd]. rewrite S1. cbn [bind]. rewrite We.
        destruct (IH (S a) n w1 (ts ++ edge_triplets m inverse solve_dense wet nb d e)) as (w' & S2 & E2); [intros x Hx; apply Hl; right; exact Hx|exact Hs|lia| |].
        * intros r Hr. rewrite E1, H0 by lia. unfold dofs. rewrite hit_seq, Ha. destruct (Nat.ltb_spec r (a * nh + nh)); [cbn [Nat.mul] in Hr; lia|]. rewrite andb_false_r. ring.
        * exists w'. rewrite <- app_assoc in S2. split; [exact S2|]. intros r. rewrite E2, E1, lsum_cons. ring.
      + unfold assemble_edge at 1. cbn [fst snd]. rewrite (wet_sides_dry _ _ We). cbn [ofold bind]. rewrite We, app_nil_r. cbn [app].
        destruct (IH a n w ts) as (w' & S2 & E2); [intros x Hx; apply Hl; right; exact Hx|exact Hs|exact Hc|exact H0|].
        exists w'. split; [exact S2|exact E2].
  Qed.

  Lemma wet_index : forall e, In e (numbered_edges m) -> wet_edge wet (snd e) = true -> (n_edge nb (fst e) < n_count nb)%nat.
  Proof.
    intros e He We. assert (Q : In (n_edge nb (fst e)) (seq 0 (n_count nb))).
    { rewrite <- (no_seq m wet nb HN). apply in_map_iff. exists e. split; [reflexivity|]. apply filter_In. auto. }
    apply in_seq in Q. lia.
  Qed.
  Lemma block_in_range : forall i i' (f : nat -> nat -> R), (i < n_count nb)%nat -> (i' < n_count nb)%nat ->
    in_range (nh * n_count nb) (ModelCond.block (dofs m i) (dofs m i') f) = true.
  Proof.
    intros i i' f Hi Hi'. unfold in_range. apply forallb_forall. intros t Ht. unfold ModelCond.block in Ht. apply in_flat_map in Ht.
    destruct Ht as (p & Hp & Ht). apply in_map_iff in Ht. destruct Ht as (q & <- & Hq). rewrite dofs_length in *. apply in_seq in Hp, Hq. cbn [fst snd].
    rewrite !dofs_nth by lia. apply andb_true_iff. split; apply Nat.ltb_lt; nia.
  Qed.
  Lemma in_range_app : forall n a b, @in_range R n (a ++ b) = in_range n a && in_range n b.
  Proof. intros. unfold in_range. apply forallb_app. Qed.
  Lemma in_range_flat : forall (X : Type) n (f : X -> list (nat * nat * R)) l, (forall x, In x l -> in_range n (f x) = true) -> in_range n (flat_map f l) = true.
  Proof.
    induction l as [|x l IH]; intros H; [reflexivity|]. cbn [flat_map]. rewrite in_range_app, H, IH; [reflexivity| |left; reflexivity].
    intros y Hy. apply H. right. exact Hy.
  Qed.
  (** every face of a wet element lies on a wet, numbered edge. *)
  Lemma face_index : forall e b, (e < m_n m)%nat -> (b < 3)%nat -> wet e = true -> exists x, In x (numbered_edges m) /\ wet_edge wet (snd x) = true /\ n_face nb e b = n_edge nb (fst x).
  Proof.
    intros e b He Hb We. assert (H : In (e, b) (all_sides m)) by (apply (proj2 HM); auto). rewrite <- gedges_sides in H.
    apply in_map_iff in H. destruct H as (s & Es & Hs). injection Es as <- <-. apply in_flat_map in Hs. destruct Hs as (ed & Hed & Hs).
    rewrite <- numbered_snd in Hed. apply in_map_iff in Hed. destruct Hed as (x & <- & Hx).
    assert (Wx : wet_edge wet (snd x) = true) by (apply existsb_exists; exists s; auto).
    exists x. split; [exact Hx|]. split; [exact Wx|]. apply (no_face m wet nb HN); assumption.
  Qed.
  Lemma triplets_in_range : forall e, In e (numbered_edges m) -> wet_edge wet (snd e) = true ->
    in_range (nh * n_count nb) (edge_triplets m inverse solve_dense wet nb d e) = true.
  Proof.
    intros e He We. pose proof (wet_index e He We) as Hi. unfold edge_triplets. rewrite in_range_app, block_in_range by exact Hi. cbn [andb].
    apply in_range_flat. intros s Hs. apply in_wet_sides in Hs. destruct Hs as [Hs Ws]. unfold side_triplets. apply in_range_flat. intros b Hb. apply in_seq in Hb.
    destruct (Nat.eqb b (s_b s)); [reflexivity|]. apply block_in_range; [exact Hi|].
    destruct (side_range m (snd e) s HM (in_numbered m e He) Hs) as [R1 _]. destruct (face_index (s_e s) b R1 ltac:(lia) Ws) as (x & Hx & Wx & ->).
    apply wet_index; assumption.
  Qed.

  (** The condensed system is equivalent to the flat one. *)
  Definition all_triplets : list (nat * nat * R) :=
    flat_map (fun x => if wet_edge wet (snd x) then edge_triplets m inverse solve_dense wet nb d x else []) (numbered_edges m).
  Lemma condensed : exists w, ofold (assemble_edge m inverse solve_dense wet nb d) (numbered_edges m) (fun _ => 0, []) = Ok (w, all_triplets) /\
    in_range (nh * n_count nb) all_triplets = true /\
    forall z, solves (nh * n_count nb) (entry all_triplets) w z <-> flat_edges (xz z) (yz z) z.
  Proof.
    destruct (assemble_ok (numbered_edges m) 0 (n_count nb) (fun _ => 0) []) as (w & S1 & E1); [auto|apply (no_seq m wet nb HN)|lia|reflexivity|].
    cbn [app] in S1. exists w. split; [exact S1|]. unfold all_triplets.
    assert (RG : in_range (nh * n_count nb) (flat_map (fun x => if wet_edge wet (snd x) then edge_triplets m inverse solve_dense wet nb d x else []) (numbered_edges m)) = true).
    { apply in_range_flat. intros x Hx. destruct (wet_edge wet (snd x)) eqn:We; [|reflexivity]. apply triplets_in_range; assumption. }
    split; [exact RG|]. intros z.
    assert (Row : forall r, rsum (nh * n_count nb) (fun c => entry (flat_map (fun x => if wet_edge wet (snd x) then edge_triplets m inverse solve_dense wet nb d x else []) (numbered_edges m)) r c * z c) - w r =
      lsum (filter (fun x => wet_edge wet (snd x)) (numbered_edges m)) (fun e => hit (dofs m (n_edge nb (fst e))) r (edge_eq (xz z) (yz z) z e))).
    { intros r. rewrite entry_dot by exact RG. rewrite E1. unfold rowdot. rewrite lsum_flat_map.
      assert (Fl : forall (f : nat * gedge -> R) l, lsum l (fun x => if wet_edge wet (snd x) then f x else 0) = lsum (filter (fun x => wet_edge wet (snd x)) l) f).
      { clear. intros f l. induction l as [|x l IH]; [reflexivity|]. cbn [filter]. rewrite lsum_cons, IH. destruct (wet_edge wet (snd x)); [rewrite lsum_cons; reflexivity|ring]. }
      rewrite (lsum_ext _ (numbered_edges m) _ (fun x => if wet_edge wet (snd x) then rowdot (edge_triplets m inverse solve_dense wet nb d x) z r else 0)).
      2:{ intros x _. destruct (wet_edge wet (snd x)); reflexivity. }
      rewrite Fl. match goal with |- lsum ?L ?f - (0 - lsum ?L ?g) = _ => replace (lsum L f - (0 - lsum L g)) with (lsum L f + lsum L g) by ring end.
      rewrite <- lsum_plus. apply lsum_ext. intros x Hx. apply filter_In in Hx. apply edge_row; apply Hx. }
    assert (NI : NoDup (map (fun x => n_edge nb (fst x)) (filter (fun x => wet_edge wet (snd x)) (numbered_edges m)))) by (rewrite (no_seq m wet nb HN); apply seq_NoDup).
    split.
    - intros H e k He We Hk. pose proof (wet_index e He We) as Hi.
      assert (Hr : (n_edge nb (fst e) * nh + k < nh * n_count nb)%nat) by nia.
      specialize (H _ Hr). specialize (Row (n_edge nb (fst e) * nh + k)%nat). rewrite H in Row.
      assert (Hin : In e (filter (fun x => wet_edge wet (snd x)) (numbered_edges m))) by (apply filter_In; auto).
      rewrite Rminus_diag_eq in Row by reflexivity. rewrite Row. clear - NI Hin Hk.
      revert NI Hin. generalize (filter (fun x => wet_edge wet (snd x)) (numbered_edges m)) as l.
      induction l as [|x l IH]; intros NI Hin; [destruct Hin|]. cbn [map] in NI. inversion NI as [|? ? N1 N2]; subst. rewrite lsum_cons.
      destruct Hin as [->|Hin].
      + rewrite lsum_const0; [unfold dofs; rewrite hit_seq|].
        * replace (n_edge nb (fst e) * nh + k - n_edge nb (fst e) * nh)%nat with k by lia.
          destruct (Nat.leb_spec (n_edge nb (fst e) * nh) (n_edge nb (fst e) * nh + k)); [|lia]. destruct (Nat.ltb_spec (n_edge nb (fst e) * nh + k) (n_edge nb (fst e) * nh + nh)); [|lia]. cbn [andb]. ring.
        * intros y Hy. unfold dofs. rewrite hit_seq. assert (D : n_edge nb (fst y) <> n_edge nb (fst e)) by (intros E; apply N1; rewrite <- E; apply (in_map (fun x => n_edge nb (fst x))); exact Hy).
          destruct (Nat.leb_spec (n_edge nb (fst y) * nh) (n_edge nb (fst e) * nh + k)); [|reflexivity]. destruct (Nat.ltb_spec (n_edge nb (fst e) * nh + k) (n_edge nb (fst y) * nh + nh)); [|reflexivity]. exfalso. nia.
      + rewrite <- IH by assumption. unfold dofs at 1. rewrite hit_seq. assert (D : n_edge nb (fst x) <> n_edge nb (fst e)) by (intros E; apply N1; rewrite E; apply (in_map (fun x => n_edge nb (fst x))); exact Hin).
        destruct (Nat.leb_spec (n_edge nb (fst x) * nh) (n_edge nb (fst e) * nh + k)); cbn [andb]; [|ring]. destruct (Nat.ltb_spec (n_edge nb (fst e) * nh + k) (n_edge nb (fst x) * nh + nh)); [|ring]. exfalso. nia.
    - intros H r Hr. apply Rminus_diag_uniq. rewrite Row. apply lsum_const0. intros e He. apply filter_In in He. destruct He as [He We].
      unfold dofs. rewrite hit_seq. destruct (Nat.leb_spec (n_edge nb (fst e) * nh) r); cbn [andb]; [|reflexivity].
      destruct (Nat.ltb_spec r (n_edge nb (fst e) * nh + nh)); [|reflexivity]. apply H; [assumption|assumption|lia].
  Qed.
End Global.

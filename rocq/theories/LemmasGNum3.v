(** The assembled rows and the read-back. *)
From Coq Require Import NArith List Bool Arith Lia Reals Lra Permutation.
From Verif Require Import Outcome ModelDist ModelComm ModelDofs SpecDofs LemmasDofs ModelGNum SpecGNum LemmasGNum1 LemmasGNum2.
Import ListNotations.
Open Scope N_scope.

Lemma sum_app : forall (A : Type) (f : A -> R) l l', sum_of f (l ++ l') = Rplus (sum_of f l) (sum_of f l').
Proof. intros A f l l'. unfold sum_of. induction l as [|a l IH]; cbn; [lra|]. rewrite IH. lra. Qed.
Lemma sum_flat : forall (A B : Type) (g : A -> list B) (f : B -> R) l, sum_of f (flat_map g l) = sum_of (fun a => sum_of f (g a)) l.
Proof. intros A B g f l. induction l as [|a l IH]; [reflexivity|]. cbn [flat_map]. rewrite sum_app, IH. reflexivity. Qed.
Lemma sum_map : forall (A B : Type) (g : A -> B) (f : B -> R) l, sum_of f (map g l) = sum_of (fun a => f (g a)) l.
Proof. intros A B g f l. unfold sum_of. induction l as [|a l IH]; cbn; [reflexivity|]. rewrite IH. reflexivity. Qed.
Lemma sum_ext : forall (A : Type) (f g : A -> R) l, (forall a, In a l -> f a = g a) -> sum_of f l = sum_of g l.
Proof. intros A f g l H. unfold sum_of. induction l as [|a l IH]; cbn; [reflexivity|]. rewrite IH, (H a) by (intros; try apply H; cbn; auto). reflexivity. Qed.
Lemma sum_plus : forall (A : Type) (f g : A -> R) l, sum_of (fun a => Rplus (f a) (g a)) l = Rplus (sum_of f l) (sum_of g l).
Proof. intros A f g l. unfold sum_of. induction l as [|a l IH]; cbn; [lra|]. rewrite IH. lra. Qed.
Lemma sum_mult : forall (A : Type) (f : A -> R) c l, Rmult (sum_of f l) c = sum_of (fun a => Rmult (f a) c) l.
Proof. intros A f c l. unfold sum_of. induction l as [|a l IH]; cbn; [lra|]. rewrite <- IH. lra. Qed.
Lemma sum_perm : forall (A : Type) (f : A -> R) l l', Permutation l l' -> sum_of f l = sum_of f l'.
Proof. intros A f l l' P. unfold sum_of. induction P; cbn; [reflexivity|rewrite IHP; reflexivity|lra|congruence]. Qed.
Lemma filter_flat : forall (A B : Type) (g : A -> list B) p l, filter p (flat_map g l) = flat_map (fun a => filter p (g a)) l.
Proof. intros A B g p l. induction l as [|a l IH]; [reflexivity|]. cbn [flat_map]. rewrite filter_app, IH. reflexivity. Qed.
Lemma filter_all : forall (A : Type) (p : A -> bool) l, (forall a, In a l -> p a = true) -> filter p l = l.
Proof. intros A p l H. induction l as [|a l IH]; [reflexivity|]. cbn [filter]. rewrite (H a), IH by (intros; try apply H; cbn; auto). reflexivity. Qed.
Lemma filter_none : forall (A : Type) (p : A -> bool) l, (forall a, In a l -> p a = false) -> filter p l = [].
Proof. intros A p l H. induction l as [|a l IH]; [reflexivity|]. cbn [filter]. rewrite (H a), IH by (intros; try apply H; cbn; auto). reflexivity. Qed.
Lemma flat_concat : forall (A B : Type) (g : A -> list B) ls, flat_map (flat_map g) ls = flat_map g (concat ls).
Proof. intros A B g ls. induction ls as [|l ls IH]; [reflexivity|]. cbn [flat_map concat]. rewrite flat_map_app, IH. reflexivity. Qed.
Lemma filter_perm : forall (A : Type) (p : A -> bool) l l', Permutation l l' -> Permutation (filter p l) (filter p l').
Proof. intros A p l l' P. induction P; cbn; [constructor|destruct (p x); [constructor; exact IHP|exact IHP]|destruct (p x), (p y); try apply Permutation_refl; constructor|eapply perm_trans; eassumption]. Qed.

Lemma upto_nodup : forall n, NoDup (upto n).
Proof.
  intros n. unfold upto. apply FinFun.Injective_map_NoDup; [intros a b H; apply Nat2N.inj; exact H|apply seq_NoDup].
Qed.
Lemma numbering_inj : forall wet rs num n j k, numbering_of wet rs num n -> wet_edge wet rs j -> wet_edge wet rs k -> num j = num k -> j = k.
Proof.
  intros wet rs num n j k (ks & A & B & C) J K E. apply B in J. apply B in K. apply (nodup_inj _ _ num ks j k); [rewrite C; apply upto_nodup|exact J|exact K|exact E].
Qed.

(** Units of two divisions with the same items correspond. *)
Lemma unit_back : forall (fs rs : list (list gunit)) u, map (map (map fst)) fs = map (map (map fst)) rs -> In u (concat fs) ->
  exists us u0, In us rs /\ In u0 us /\ map fst u = map fst u0.
Proof.
  intros fs rs u H I. apply in_concat in I. destruct I as (us & I1 & I2).
  apply (in_map (map (map fst))) in I1. rewrite H in I1. apply in_map_iff in I1. destruct I1 as (us0 & E & I1).
  apply (in_map (map fst)) in I2. rewrite <- E in I2. apply in_map_iff in I2. destruct I2 as (u0 & E0 & I2). exists us0, u0. auto.
Qed.

Section Rows.
  Context (wet : nat -> bool) (rs fs : list (list gunit)) (D : divided wet rs) (num : nat -> N) (n : N) (Nm : numbering_of wet rs num n)
    (Items : map (map (map fst)) fs = map (map (map fst)) rs)
    (Good : forall e, In e (entries_of fs) -> holds wet (fst e) = true -> i_glob (snd e) = num (i_edge (fst e)) /\ i_slot (snd e) = num (i_edge (fst e))).

  Lemma fs_items : items_of fs = items_of rs.
  Proof. exact (items_same fs rs Items). Qed.
  Lemma held_edge : forall it, In it (items_of rs) -> holds wet it = true -> wet_edge wet rs (i_edge it).
  Proof. intros it I H. apply (holds_wet wet) in H. destruct H as (s & Hs & W). exists s. split; [|exact W]. apply in_sides. exists it. auto. Qed.
  Lemma entry_item : forall e, In e (entries_of fs) -> In (fst e) (items_of rs).
  Proof. intros e I. rewrite <- fs_items. unfold items_of. apply in_map. exact I. Qed.

  (** The number seen through a face of a wet element is that of its edge. *)
  Lemma slot_seen : forall u e s f, In u (concat fs) -> In e u -> In s (i_slots (fst e)) -> wet (fst s) = true -> (f < 3)%nat ->
    exists j, edge_at rs (fst s, f) j /\ wet_edge wet rs j /\ slot_number u (fst s, f) = num j.
  Proof.
    intros u e s f Iu Ie Is W F. destruct (unit_back fs rs u Items Iu) as (us & u0 & I1 & I2 & E0).
    assert (I3 : In (fst e) (map fst u0)) by (rewrite <- E0; apply in_map; exact Ie). apply in_map_iff in I3. destruct I3 as (e0 & Ee & I3).
    destruct D as (_ & _ & _ & Dc). destruct (Dc us u0 e0 s f I1 I2 I3) as (e1 & I4 & Hs1); [rewrite Ee; exact Is|exact F|].
    assert (I5 : In (fst e1) (map fst u)) by (rewrite E0; apply in_map; exact I4). apply in_map_iff in I5. destruct I5 as (e2 & Ee2 & I5).
    unfold slot_number. destruct (find (has_slot (fst s, f)) u) as [e3|] eqn:Fd.
    - apply find_some in Fd. destruct Fd as [I6 Hs]. unfold has_slot in Hs. apply existsb_exists in Hs. destruct Hs as (s3 & Is3 & Q).
      unfold slot_eqb in Q. apply andb_true_iff in Q. destruct Q as [Q1 Q2]. apply Nat.eqb_eq in Q1. apply Nat.eqb_eq in Q2. cbn [fst snd] in Q1, Q2.
      assert (s3 = (fst s, f)) as -> by (destruct s3; cbn in *; congruence).
      assert (I7 : In e3 (entries_of fs)) by (unfold entries_of; apply in_concat; exists u; auto).
      assert (H3 : holds wet (fst e3) = true) by (apply holds_wet; exists (fst s, f); auto).
      exists (i_edge (fst e3)). split; [apply in_sides; exists (fst e3); split; [exact (entry_item e3 I7)|auto]|]. split; [apply held_edge; [exact (entry_item e3 I7)|exact H3]|].
      exact (proj2 (Good e3 I7 H3)).
    - exfalso. pose proof (find_none _ _ Fd e2 I5) as K. unfold has_slot in K. rewrite Ee2 in K.
      assert (T : existsb (slot_eqb (fst s, f)) (i_slots (fst e1)) = true); [|congruence]. apply existsb_exists. exists (fst s, f). split; [exact Hs1|].
      unfold slot_eqb. cbn [fst snd]. rewrite !Nat.eqb_refl. reflexivity.
  Qed.
  Lemma others_small : forall f f', In f' (others f) -> (f' < 3)%nat.
  Proof. intros f f' H. apply filter_In in H. destruct H as [[<-|[<-|[<-|[]]]] _]; lia. Qed.

  Context (own : slot -> R) (con : slot -> nat -> R) (rh : slot -> R) (X : N -> R) (at_ : slot -> R)
    (At : forall s j, edge_at rs s j -> wet_edge wet rs j -> at_ s = X (num j)).
  Definition side_term (s : slot) : R := Rplus (Rmult (own s) (at_ s)) (sum_of (fun f => Rmult (con s f) (at_ (fst s, f))) (others (snd s))).

  Lemma row_of_edge : forall k u e, wet_edge wet rs k -> In u (concat fs) -> In e u ->
    row_times (edge_blocks wet own con u e) X (num k) = (if Nat.eqb (i_edge (fst e)) k then sum_of side_term (wet_slots wet (fst e)) else 0%R).
  Proof.
    intros k u e K Iu Ie. assert (I0 : In e (entries_of fs)) by (unfold entries_of; apply in_concat; exists u; auto).
    unfold edge_blocks. destruct (holds wet (fst e)) eqn:Hd.
    - destruct (Good e I0 Hd) as [G1 _]. pose proof (held_edge _ (entry_item e I0) Hd) as We. unfold row_times.
      destruct (Nat.eqb (i_edge (fst e)) k) eqn:Q.
      + apply Nat.eqb_eq in Q. rewrite G1, Q, filter_all.
        2: { intros w [<-|Iw]; cbn [fst]; [apply N.eqb_refl|]. apply in_flat_map in Iw. destruct Iw as (s & _ & Iw). apply in_map_iff in Iw. destruct Iw as (f & <- & _). apply N.eqb_refl. }
        change (sum_of ?f (?a :: ?l)) with (Rplus (f a) (sum_of f l)). cbn [fst snd]. rewrite sum_flat, sum_mult, <- sum_plus. apply sum_ext. intros s Is.
        apply filter_In in Is. destruct Is as [Is Ws]. unfold side_term. rewrite (At s k); [|apply in_sides; exists (fst e); split; [exact (entry_item e I0)|auto]|exact K]. f_equal.
        rewrite sum_map. apply sum_ext. intros f If. cbn [fst snd]. destruct (slot_seen u e s f Iu Ie Is Ws (others_small _ _ If)) as (j & A & B & C).
        rewrite C, (At _ _ A B). reflexivity.
      + rewrite filter_none; [reflexivity|]. apply Nat.eqb_neq in Q. assert (Z : (num (i_edge (fst e)) =? num k) = false).
        { apply N.eqb_neq. intros Z. apply Q. exact (numbering_inj wet rs num n _ _ Nm We K Z). }
        rewrite G1. intros w [<-|Iw]; cbn [fst]; [exact Z|]. apply in_flat_map in Iw. destruct Iw as (s & _ & Iw). apply in_map_iff in Iw. destruct Iw as (f & <- & _). exact Z.
    - assert (wet_slots wet (fst e) = []) as ->.
      { unfold wet_slots. apply filter_none. intros s Is. destruct (is_wet wet s) eqn:W; [|reflexivity]. rewrite (proj2 (holds_wet wet (fst e))) in Hd; [discriminate|exists s; auto]. }
      destruct (Nat.eqb (i_edge (fst e)) k); reflexivity.
  Qed.
  Lemma rhs_of_edge : forall k e, wet_edge wet rs k -> In e (entries_of fs) ->
    row_rhs (edge_rhs wet rh e) (num k) = (if Nat.eqb (i_edge (fst e)) k then sum_of rh (wet_slots wet (fst e)) else 0%R).
  Proof.
    intros k e K I0. unfold edge_rhs, row_rhs. destruct (holds wet (fst e)) eqn:Hd.
    - destruct (Good e I0 Hd) as [G1 _]. pose proof (held_edge _ (entry_item e I0) Hd) as We. cbn [filter fst]. rewrite G1. destruct (Nat.eqb (i_edge (fst e)) k) eqn:Q.
      + apply Nat.eqb_eq in Q. rewrite Q, N.eqb_refl. unfold sum_of. cbn. ring.
      + apply Nat.eqb_neq in Q. assert (Z : (num (i_edge (fst e)) =? num k) = false).
        { apply N.eqb_neq. intros Z. apply Q. exact (numbering_inj wet rs num n _ _ Nm We K Z). }
        rewrite Z. reflexivity.
    - assert (wet_slots wet (fst e) = []) as ->.
      { unfold wet_slots. apply filter_none. intros s Is. destruct (is_wet wet s) eqn:W; [|reflexivity]. rewrite (proj2 (holds_wet wet (fst e))) in Hd; [discriminate|exists s; auto]. }
      destruct (Nat.eqb (i_edge (fst e)) k); reflexivity.
  Qed.

  Lemma over_sides : forall (F : slot -> R) k,
    sum_of (fun e : entry => if Nat.eqb (i_edge (fst e)) k then sum_of F (wet_slots wet (fst e)) else 0%R) (entries_of fs) =
    sum_of F (filter (fun s => wet (fst s)) (sides_of rs k)).
  Proof.
    intros F k. unfold sides_of. rewrite <- fs_items. unfold items_of. rewrite filter_map. generalize (entries_of fs). intros l0. induction l0 as [|e l IH]; [reflexivity|].
    cbn [filter map]. change (sum_of ?f (?a :: ?l)) with (Rplus (f a) (sum_of f l)). rewrite IH. destruct (Nat.eqb (i_edge (fst e)) k); cbn [map flat_map].
    - rewrite filter_app, sum_app. reflexivity.
    - apply Rplus_0_l.
  Qed.

  Lemma row_ok : forall k, wet_edge wet rs k -> row_times (matrix wet own con (concat fs)) X (num k) = edge_equation wet rs own con at_ k.
  Proof.
    intros k K. unfold edge_equation. change (sum_of (fun s => Rplus _ _) ?l) with (sum_of side_term l). rewrite <- over_sides.
    unfold row_times, matrix. rewrite filter_flat, sum_flat. unfold entries_of.
    assert (G : forall us, (forall u, In u us -> In u (concat fs)) ->
      sum_of (fun u => sum_of (fun w : N * N * R => Rmult (snd w) (X (snd (fst w)))) (filter (fun w => fst (fst w) =? num k) (flat_map (edge_blocks wet own con u) u))) us =
      sum_of (fun e : entry => if Nat.eqb (i_edge (fst e)) k then sum_of side_term (wet_slots wet (fst e)) else 0%R) (concat us)).
    { induction us as [|u us IH]; intros H; [reflexivity|]. cbn [concat]. rewrite sum_app. change (sum_of ?f (?a :: ?l)) with (Rplus (f a) (sum_of f l)). cbn beta. rewrite IH by (intros; apply H; right; assumption). f_equal.
      rewrite filter_flat, sum_flat. apply sum_ext. intros e Ie. apply row_of_edge; [exact K|apply H; left; reflexivity|exact Ie]. }
    apply G. intros u I. exact I.
  Qed.
  Lemma rhs_ok : forall k, wet_edge wet rs k -> row_rhs (right_side wet rh (concat fs)) (num k) = sum_of rh (filter (fun s => wet (fst s)) (sides_of rs k)).
  Proof.
    intros k K. rewrite <- over_sides. unfold row_rhs, right_side. rewrite (flat_concat _ _ (edge_rhs wet rh)), filter_flat, sum_flat. fold (entries_of fs).
    apply sum_ext. intros e I. exact (rhs_of_edge k e K I).
  Qed.
End Rows.

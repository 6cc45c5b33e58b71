From Coq Require Import String ZArith Reals List Bool Arith Lia Lra.
From Coquelicot Require Import Rcomplements.
From Verif Require Import Num Outcome ModelSWE ModelShape ModelBasis ModelVtk SpecShape SpecVtk LemmasVtk1 LemmasVtk2.
Import ListNotations.
Open Scope R_scope.

Definition none : elem := Elem 0 (fun _ => (0, 0)) (fun _ => V3 0 0 0) (fun _ => 0) true true.

Section N.
  Context (n : nat) (Hn : (1 <= n)%nat).

  Section Tri.
    Context (A B C : pt).
    Definition loc (a b : R) : pt := comb A B C (1 - (a + b) / INR n) (a / INR n) (b / INR n).
    Lemma gpt_loc : forall i j, gpt n A B C i j = loc (INR j) (INR i).
    Proof. intros. unfold gpt, loc. f_equal. unfold Rdiv. ring. Qed.
    Lemma comb_loc : forall a b a' b' a'' b'' u v w, u + v + w = 1 ->
      comb (loc a b) (loc a' b') (loc a'' b'') u v w = loc (u * a + v * a' + w * a'') (u * b + v * b' + w * b'').
    Proof.
      intros. assert (N : INR n <> 0) by (pose proof (n_pos n Hn); lra). replace u with (1 - v - w) by lra. unfold comb, loc, comb. cbn [fst snd]. f_equal; field; exact N.
    Qed.
    Lemma loc_inj : forall a b a' b', orient A B C <> 0 -> loc a b = loc a' b' -> a = a' /\ b = b'.
    Proof.
      intros a b a' b' O E. pose proof (n_pos n Hn) as N. unfold loc, comb in E. injection E as E1 E2.
      assert (E1' : (a - a') * (fst B - fst A) + (b - b') * (fst C - fst A) = 0).
      { apply (f_equal (fun x => x * INR n)) in E1. field_simplify in E1; try lra. }
      assert (E2' : (a - a') * (snd B - snd A) + (b - b') * (snd C - snd A) = 0).
      { apply (f_equal (fun x => x * INR n)) in E2. field_simplify in E2; try lra. }
      assert (K1 : (a - a') * orient A B C = 0).
      { unfold orient. replace ((a - a') * ((fst B - fst A) * (snd C - snd A) - (snd B - snd A) * (fst C - fst A)))
          with (((a - a') * (fst B - fst A) + (b - b') * (fst C - fst A)) * (snd C - snd A) - ((a - a') * (snd B - snd A) + (b - b') * (snd C - snd A)) * (fst C - fst A)) by ring.
        rewrite E1', E2'. ring. }
      assert (K2 : (b - b') * orient A B C = 0).
      { unfold orient. replace ((b - b') * ((fst B - fst A) * (snd C - snd A) - (snd B - snd A) * (fst C - fst A)))
          with (((a - a') * (snd B - snd A) + (b - b') * (snd C - snd A)) * (fst B - fst A) - ((a - a') * (fst B - fst A) + (b - b') * (fst C - fst A)) * (snd B - snd A)) by ring.
        rewrite E1', E2'. ring. }
      apply Rmult_integral in K1. apply Rmult_integral in K2. split; [destruct K1 | destruct K2]; lra.
    Qed.
    Lemma loc_in : forall a b, 0 <= a -> 0 <= b -> a + b <= INR n -> in_triangle A B C (loc a b).
    Proof.
      intros a b Ha Hb Hs. pose proof (n_pos n Hn) as N. exists (1 - (a + b) / INR n), (a / INR n), (b / INR n).
      repeat apply conj; [| apply Rdiv_le_0_compat; assumption | apply Rdiv_le_0_compat; assumption | field; lra | reflexivity].
      enough ((a + b) / INR n <= 1) by lra. apply (Rmult_le_reg_r (INR n)); [exact N |]. unfold Rdiv. rewrite Rmult_assoc, Rinv_l by lra. lra.
    Qed.
    Lemma in_loc : forall x, in_triangle A B C x -> exists a b, 0 <= a /\ 0 <= b /\ a + b <= INR n /\ x = loc a b.
    Proof.
      intros x [u [v [w [Hu [Hv [Hw [HS ->]]]]]]]. pose proof (n_pos n Hn) as N. exists (v * INR n), (w * INR n).
      repeat apply conj; [apply Rmult_le_pos; lra | apply Rmult_le_pos; lra | nra |].
      unfold loc. replace (v * INR n / INR n) with v by (field; lra). replace (w * INR n / INR n) with w by (field; lra).
      replace ((v * INR n + w * INR n) / INR n) with (v + w) by (field; lra). f_equal. lra.
    Qed.
  End Tri.

  Context (els : list elem) (e : nat) (He : (e < length els)%nat).
  Let P := flat_map (points_of n) els.
  Let A := el_nodes (nth e els none) 0%nat.
  Let B := el_nodes (nth e els none) 1%nat.
  Let C := el_nodes (nth e els none) 2%nat.
  Let L := loc A B C.

  (** Scaled coordinates of a point of a cell. *)
  Definition cell_a (up : bool) (j : nat) (v w : R) : R := INR j + v + (if up then 0 else w).
  Definition cell_b (up : bool) (i : nat) (v w : R) : R := INR i + (if up then w else 1 - w).
  Lemma cell_comb : forall c up i j u v w, is_cell n e c up i j -> u + v + w = 1 ->
    comb (corner P c 0) (corner P c 1) (corner P c 2) u v w = L (cell_a up j v w) (cell_b up i v w).
  Proof.
    intros c up i j u v w H HS.
    destruct H as [i j H | i j H]; unfold corner; cbn [nth]; unfold P;
      rewrite !(corner_at n Hn) by (try exact He; lia); fold none; fold A B C; cbn [fst]; rewrite !gpt_loc, comb_loc by exact HS;
      unfold L, cell_a, cell_b; rewrite !plus_INR, ?S_INR; cbn [INR]; f_equal; nra.
  Qed.
  Lemma nat_floor_unique : forall i j x, INR i < x < INR i + 1 -> INR j < x < INR j + 1 -> i = j.
  Proof.
    intros i j x Hi Hj. destruct (Nat.lt_trichotomy i j) as [K | [K | K]]; [| exact K |].
    - apply lt_le_S, le_INR in K. rewrite S_INR in K. lra.
    - apply lt_le_S, le_INR in K. rewrite S_INR in K. lra.
  Qed.
  Let cs := map (@tl nat) (cells_at n e).
  Lemma cs_len : length cs = (n * n)%nat.
  Proof. unfold cs. rewrite map_length. apply cells_at_len. exact Hn. Qed.

  Lemma tiles_cover : forall x, in_triangle A B C x -> exists k, (k < length cs)%nat /\ in_cell P (nth k cs []) x.
  Proof.
    intros x Hx. apply in_loc in Hx as [a [b [Ha [Hb [Hs ->]]]]]. fold L.
    assert (X : forall (up : bool) (i j : nat) u v w, (if up then i + j < n else S i + j < n)%nat -> 0 <= u -> 0 <= v -> 0 <= w -> u + v + w = 1 ->
      a = cell_a up j v w -> b = cell_b up i v w -> exists k, (k < length cs)%nat /\ in_cell P (nth k cs []) (L a b)).
    { intros up i j u v w H Hu Hv Hw HS Ea Eb. rewrite cs_len.
      assert (K : exists k, (k < n * n)%nat /\ kind n k = up /\ row_of n k = i /\ col_of n k = j).
      { destruct up; [apply cell_exists_up | apply cell_exists_down]; assumption. }
      destruct K as [k [Hk [K1 [K2 K3]]]]. exists k. split; [exact Hk |]. exists u, v, w. repeat apply conj; try assumption.
      pose proof (cell_kind n Hn e k Hk) as IC. rewrite K1, K2, K3 in IC. fold cs in IC.
      rewrite (cell_comb _ _ _ _ u v w IC HS), <- Ea, <- Eb. reflexivity. }
    destruct (nfloor_ex a Ha) as [j [J1 J2]]. destruct (nfloor_ex b Hb) as [i [I1 I2]].
    assert (IJ : (i + j <= n)%nat) by (apply INR_le; rewrite plus_INR; lra).
    destruct (Nat.eq_dec (i + j) n) as [E | E].
    - assert (E' : INR i + INR j = INR n) by (rewrite <- plus_INR; f_equal; exact E).
      assert (a = INR j) by lra. assert (b = INR i) by lra. destruct j as [| j].
      + destruct i as [| i]; [lia |]. apply (X true i 0%nat 0 0 1); unfold cell_a, cell_b; rewrite ?S_INR in *; cbn [INR] in *; try lra. lia.
      + apply (X true i j 0 1 0); unfold cell_a, cell_b; rewrite ?S_INR in *; try lra. lia.
    - destruct (Rle_dec ((a - INR j) + (b - INR i)) 1) as [F | F].
      + apply (X true i j (1 - (a - INR j) - (b - INR i)) (a - INR j) (b - INR i)); unfold cell_a, cell_b; try lra. lia.
      + assert (IJ2 : (S i + j < n)%nat) by (apply INR_lt; rewrite plus_INR, S_INR; lra).
        apply (X false i j (1 - (a - INR j)) ((a - INR j) + (b - INR i) - 1) (1 - (b - INR i))); unfold cell_a, cell_b; try lra. exact IJ2.
  Qed.
  Lemma tiles_within : forall k x, (k < length cs)%nat -> in_cell P (nth k cs []) x -> in_triangle A B C x.
  Proof.
    intros k x Hk [u [v [w [Hu [Hv [Hw [HS ->]]]]]]]. rewrite cs_len in Hk. pose proof (cell_kind n Hn e k Hk) as IC. fold cs in IC.
    rewrite (cell_comb _ _ _ _ u v w IC HS). unfold L.
    assert (M : (if kind n k then S (row_of n k + col_of n k) <= n else S (S (row_of n k + col_of n k)) <= n)%nat) by (destruct IC; lia).
    destruct (kind n k); apply le_INR in M; rewrite ?S_INR, plus_INR in M;
      pose proof (pos_INR (row_of n k)); pose proof (pos_INR (col_of n k)); apply loc_in; unfold cell_a, cell_b; lra.
  Qed.
  Lemma tiles_disjoint : orient A B C <> 0 -> forall k k' x, (k < length cs)%nat -> (k' < length cs)%nat ->
    inside_cell P (nth k cs []) x -> inside_cell P (nth k' cs []) x -> k = k'.
  Proof.
    intros O k k' x Hk Hk' [u [v [w [Hu [Hv [Hw [HS ->]]]]]]] [u' [v' [w' [Hu' [Hv' [Hw' [S' E]]]]]]]. rewrite cs_len in Hk, Hk'.
    pose proof (cell_kind n Hn e k Hk) as IC. pose proof (cell_kind n Hn e k' Hk') as IC'. fold cs in IC, IC'.
    rewrite (cell_comb _ _ _ _ u v w IC HS), (cell_comb _ _ _ _ u' v' w' IC' S') in E.
    apply loc_inj in E as [Ea Eb]; [| exact O]. unfold cell_a, cell_b in Ea, Eb.
    assert (EC : col_of n k = col_of n k') by (apply (nat_floor_unique _ _ (INR (col_of n k) + v + (if kind n k then 0 else w))); [destruct (kind n k); lra | rewrite Ea; destruct (kind n k'); lra]).
    assert (ER : row_of n k = row_of n k') by (apply (nat_floor_unique _ _ (INR (row_of n k) + (if kind n k then w else 1 - w))); [destruct (kind n k); lra | rewrite Eb; destruct (kind n k'); lra]).
    apply (cell_unique n Hn); try assumption. rewrite EC in Ea. rewrite ER in Eb. destruct (kind n k), (kind n k'); try reflexivity; lra.
  Qed.
  Lemma tiles_all : orient A B C <> 0 -> tiles P cs A B C.
  Proof. intros O. repeat apply conj; [exact tiles_cover | exact tiles_within | exact (tiles_disjoint O)]. Qed.
  Lemma cell_orient : forall k, (k < n * n)%nat ->
    orient (corner P (nth k cs []) 0) (corner P (nth k cs []) 1) (corner P (nth k cs []) 2) = (if kind n k then 1 else -1) * (orient A B C / (INR n * INR n)).
  Proof.
    intros k Hk. pose proof (cell_kind n Hn e k Hk) as IC. fold cs in IC. pose proof (n_pos n Hn) as N.
    assert (X0 : forall a b c : pt, comb a b c 1 0 0 = a) by (intros [] [] []; unfold comb; cbn; f_equal; ring).
    assert (X1 : forall a b c : pt, comb a b c 0 1 0 = b) by (intros [] [] []; unfold comb; cbn; f_equal; ring).
    assert (X2 : forall a b c : pt, comb a b c 0 0 1 = c) by (intros [] [] []; unfold comb; cbn; f_equal; ring).
    pose proof (cell_comb _ _ _ _ 1 0 0 IC ltac:(lra)) as C0. rewrite X0 in C0.
    pose proof (cell_comb _ _ _ _ 0 1 0 IC ltac:(lra)) as C1. rewrite X1 in C1.
    pose proof (cell_comb _ _ _ _ 0 0 1 IC ltac:(lra)) as C2. rewrite X2 in C2.
    rewrite C0, C1, C2. unfold L, loc, orient, comb, cell_a, cell_b. cbn [fst snd]. destruct (kind n k); field; lra.
  Qed.
End N.

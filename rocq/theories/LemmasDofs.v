(** Closed forms for the numbering of global unknowns. *)
From Coq Require Import NArith List Bool Arith Permutation Lia.
From Verif Require Import Outcome ModelDist ModelComm ModelDofs SpecDofs LemmasPart LemmasDist.
Import ListNotations.
Open Scope N_scope.

Lemma w32_small : forall n, n < 2 ^ 32 -> w32 n = n.
Proof. intros n H. unfold w32. apply N.mod_small. exact H. Qed.

Definition range (a n : N) : list N := map (fun i => i + a) (seqN n).

Lemma seqN_app : forall n m, seqN (n + m) = seqN n ++ map (fun i => i + n) (seqN m).
Proof.
  intros n m. unfold seqN. rewrite N2Nat.inj_add, seq_app, map_app. f_equal. cbn [Nat.add]. rewrite map_map.
  rewrite <- (Nat.add_0_r (N.to_nat n)) at 1. generalize 0%nat at 1 2. generalize (N.to_nat m). intros k. induction k as [|k IH]; intros b; [reflexivity|].
  cbn [seq map]. f_equal; [lia|]. rewrite <- IH. f_equal. f_equal. lia.
Qed.

Lemma range_app : forall a n m, range a (n + m) = range a n ++ range (a + n) m.
Proof.
  intros a n m. unfold range. rewrite seqN_app, map_app, map_map. f_equal. apply map_ext. intros i. lia.
Qed.
Lemma range_0 : forall n, range 0 n = seqN n.
Proof. intros n. unfold range. rewrite <- (map_id (seqN n)) at 2. apply map_ext. intros i. lia. Qed.
Lemma range_nil : forall a, range a 0 = [].
Proof. reflexivity. Qed.
Lemma range_length : forall a n, length (range a n) = N.to_nat n.
Proof. intros a n. unfold range, seqN. rewrite !map_length, seq_length. reflexivity. Qed.
Lemma range_head : forall a n, 0 < n -> nth_error (range a n) 0 = Some a.
Proof.
  intros a n H. unfold range, seqN. destruct (N.to_nat n) as [|k] eqn:E; [lia|]. cbn. reflexivity.
Qed.

Lemma indices_range : forall off nd, off + 3 * nd < 2 ^ 32 -> indices off nd = range off (3 * nd).
Proof.
  intros off nd H. unfold indices, dofs, range. rewrite w32_small by lia. rewrite (N.mul_comm nd 3). apply map_ext_in. intros i Hi.
  apply seqN_In in Hi. apply w32_small. lia.
Qed.
Lemma shift_range : forall o a n, a + n + o < 2 ^ 32 -> shift o (range a n) = range (a + o) n.
Proof.
  intros o a n H. unfold shift, range. rewrite map_map. apply map_ext_in. intros i Hi. apply seqN_In in Hi. rewrite w32_small by lia. lia.
Qed.

(** ** Blocks *)
Fixpoint blocks_from (a : N) (l : list N) : list (list N) :=
  match l with [] => [] | n :: r => range a (3 * n) :: blocks_from (a + 3 * n) r end.
Fixpoint dblocks_from (a : N) (l : list dedge) : list (list N) :=
  match l with
  | [] => []
  | e :: r => if owns e then range a (3 * g_ndof e) :: dblocks_from (a + 3 * g_ndof e) r else [] :: dblocks_from a r
  end.
Definition dsum (l : list dedge) : N := sumN (map (fun e => if owns e then g_ndof e else 0) l).

Lemma number_edges_eq : forall l a, a + 3 * sumN l < 2 ^ 32 -> number_edges l a = (blocks_from a l, a + 3 * sumN l).
Proof.
  intros l a H. unfold number_edges.
  assert (G : forall l acc a, a + 3 * sumN l < 2 ^ 32 ->
    fold_left (fun acc ndof => (fst acc ++ [indices (snd acc) ndof], w32 (snd acc + dofs ndof))) l (acc, a) = (acc ++ blocks_from a l, a + 3 * sumN l)).
  { clear. induction l as [|n l IH]; intros acc a H; cbn [fold_left blocks_from sumN] in *.
    - rewrite app_nil_r. f_equal. lia.
    - cbn [fst snd]. rewrite indices_range by lia. unfold dofs. rewrite (w32_small (n * 3)) by lia. rewrite w32_small by lia.
      rewrite IH by lia. rewrite <- app_assoc. cbn [app]. rewrite (N.mul_comm n 3). f_equal. lia. }
  apply (G l [] a H).
Qed.

Lemma number_dist_eq : forall l a, a + 3 * dsum l < 2 ^ 32 -> number_dist l a = (dblocks_from a l, a + 3 * dsum l).
Proof.
  intros l a H. unfold number_dist.
  assert (G : forall l acc a, a + 3 * dsum l < 2 ^ 32 ->
    fold_left (fun acc e => if owns e then (fst acc ++ [indices (snd acc) (g_ndof e)], w32 (snd acc + dofs (g_ndof e)))
                          else (fst acc ++ [[]], snd acc)) l (acc, a) = (acc ++ dblocks_from a l, a + 3 * dsum l)).
  { clear. unfold dsum. induction l as [|e l IH]; intros acc a H; cbn [fold_left dblocks_from sumN map] in *.
    - rewrite app_nil_r. f_equal. lia.
    - cbn [fst snd]. destruct (owns e).
      + rewrite indices_range by lia. unfold dofs. rewrite (w32_small (g_ndof e * 3)) by lia. rewrite w32_small by lia.
        rewrite IH by lia. rewrite <- app_assoc. cbn [app]. rewrite (N.mul_comm (g_ndof e) 3). f_equal. lia.
      + rewrite IH by lia. rewrite <- app_assoc. cbn [app]. reflexivity. }
  apply (G l [] a H).
Qed.

Definition numbered (a : N) (u : dunit) : numbering :=
  Numbering (blocks_from a (u_int u)) (blocks_from (a + 3 * sumN (u_int u)) (u_bnd u))
            (dblocks_from (a + 3 * sumN (u_int u) + 3 * sumN (u_bnd u)) (u_dist u)).

Lemma owned_size_eq : forall u, owned_size u = 3 * sumN (u_int u) + 3 * sumN (u_bnd u) + 3 * dsum (u_dist u).
Proof. intros u. unfold owned_size, dsum. lia. Qed.

Lemma number_serial_eq : forall u a, a + 3 * sumN (u_int u) + 3 * sumN (u_bnd u) < 2 ^ 32 ->
  number_serial u a = (Numbering (blocks_from a (u_int u)) (blocks_from (a + 3 * sumN (u_int u)) (u_bnd u)) [], a + 3 * sumN (u_int u) + 3 * sumN (u_bnd u)).
Proof.
  intros u a H. unfold number_serial. rewrite (number_edges_eq (u_int u)) by lia. cbn [fst snd]. rewrite number_edges_eq by lia. reflexivity.
Qed.

Lemma pre_send_eq : forall u, owned_size u < 2 ^ 32 -> pre_send u = (numbered 0 u, owned_size u).
Proof.
  intros u H. rewrite owned_size_eq in *. unfold pre_send. rewrite number_serial_eq by lia. cbn [fst snd n_int n_bnd].
  rewrite number_dist_eq by lia. reflexivity.
Qed.

Lemma shift_blocks : forall o l a, a + 3 * sumN l + o < 2 ^ 32 -> map (shift o) (blocks_from a l) = blocks_from (a + o) l.
Proof.
  induction l as [|n l IH]; intros a H; cbn [blocks_from map sumN] in *; [reflexivity|]. rewrite shift_range by lia. rewrite IH by lia.
  do 2 f_equal. lia.
Qed.
Lemma shift_dblocks : forall o l a, a + 3 * dsum l + o < 2 ^ 32 -> map (shift o) (dblocks_from a l) = dblocks_from (a + o) l.
Proof.
  unfold dsum. induction l as [|e l IH]; intros a H; cbn [dblocks_from map sumN] in *; [reflexivity|]. destruct (owns e); cbn [map].
  - rewrite shift_range by lia. rewrite IH by lia. do 2 f_equal. lia.
  - rewrite IH by lia. reflexivity.
Qed.
Lemma finalize_eq : forall u o, o + owned_size u < 2 ^ 32 -> finalize (numbered 0 u) o = numbered o u.
Proof.
  intros u o H. rewrite owned_size_eq in H. unfold finalize, numbered. cbn [n_int n_bnd n_dist].
  rewrite !shift_blocks, shift_dblocks by lia. f_equal; f_equal; lia.
Qed.

(** ** Scans *)
Fixpoint offsets_from (a : N) (v : list N) : list N := match v with [] => [] | x :: r => a :: offsets_from (a + x) r end.

Lemma sumN_app : forall a b, sumN (a ++ b) = sumN a + sumN b.
Proof. induction a as [|x a IH]; intros b; cbn; [reflexivity|]. rewrite IH. lia. Qed.

Lemma accumulate_eq : forall v, sumN v < 2 ^ 32 -> accumulate v = sumN v.
Proof.
  intros v H. unfold accumulate.
  assert (G : forall v a, a + sumN v < 2 ^ 32 -> fold_left (fun a x => w32 (a + x)) v a = a + sumN v).
  { clear. induction v as [|x v IH]; intros a H; cbn [fold_left sumN] in *; [lia|]. rewrite w32_small by lia. rewrite IH by lia. lia. }
  rewrite G by lia. reflexivity.
Qed.

Lemma exclusive_scan_eq : forall v, sumN v < 2 ^ 32 -> exclusive_scan v = offsets_from 0 v.
Proof.
  intros v H. destruct v as [|z v] using rev_ind; [reflexivity|]. clear IHv. rewrite sumN_app in H. cbn [sumN] in H.
  unfold exclusive_scan, rotate_right.
  assert (E : match v ++ [z] with [] => [] | _ :: _ => last (v ++ [z]) 0 :: removelast (v ++ [z]) end = z :: v).
  { destruct (v ++ [z]) eqn:E; [destruct v; discriminate|]. rewrite <- E. rewrite last_last, removelast_last. reflexivity. }
  rewrite E. cbn [set_front running].
  assert (G : forall v pre a, a + sumN v < 2 ^ 32 ->
    fold_left (fun acc y => acc ++ [w32 (y + last acc 0)]) v (pre ++ [a]) = pre ++ offsets_from a (v ++ [z])).
  { clear. induction v as [|x v IH]; intros pre a H; cbn [fold_left sumN] in *; [reflexivity|].
    rewrite last_last. rewrite w32_small by lia. rewrite (IH (pre ++ [a]) (x + a)) by lia. rewrite <- app_assoc. cbn [app offsets_from].
    rewrite (N.add_comm x a). reflexivity. }
  apply (G v [] 0). lia.
Qed.

Lemma unit_offsets_eq : forall L v, L + sumN v < 2 ^ 32 -> unit_offsets L v = offsets_from L v.
Proof.
  intros L v H. unfold unit_offsets. rewrite exclusive_scan_eq by lia.
  assert (G : forall v a, a + L + sumN v < 2 ^ 32 -> map (fun o => w32 (o + L)) (offsets_from a v) = offsets_from (a + L) v).
  { clear. induction v as [|x v IH]; intros a H; cbn [offsets_from map sumN] in *; [reflexivity|]. rewrite w32_small by lia. f_equal.
    rewrite IH by lia. f_equal. lia. }
  rewrite G by lia. reflexivity.
Qed.

(** ** All units *)
Fixpoint fin_units (a : N) (us : list dunit) : list numbering :=
  match us with [] => [] | u :: r => numbered a u :: fin_units (a + owned_size u) r end.
Definition usize (us : list dunit) : N := sumN (map owned_size us).
Fixpoint fin_all (a : N) (ls : list (list dunit)) : list (list numbering) :=
  match ls with [] => [] | us :: r => fin_units a us :: fin_all (a + usize us) r end.

Lemma pre_send_all : forall us, usize us < 2 ^ 32 -> map snd (map pre_send us) = map owned_size us.
Proof.
  unfold usize. induction us as [|u us IH]; intros H; cbn [map sumN] in *; [reflexivity|]. rewrite pre_send_eq by lia. rewrite IH by lia. reflexivity.
Qed.

Lemma finalize_units_eq : forall us a, a + usize us < 2 ^ 32 -> finalize_units a (map pre_send us) = fin_units a us.
Proof.
  intros us a H. unfold finalize_units. rewrite pre_send_all by lia. rewrite unit_offsets_eq by exact H.
  revert a H. unfold usize. induction us as [|u us IH]; intros a H; cbn [map offsets_from combine fin_units sumN fst snd] in *; [reflexivity|].
  rewrite pre_send_eq by lia. cbn [fst]. rewrite finalize_eq by lia. rewrite IH by lia. reflexivity.
Qed.

Lemma totals_eq : forall ls, total_unknowns ls < 2 ^ 32 ->
  map (fun us => accumulate (map snd us)) (map (map pre_send) ls) = map usize ls.
Proof.
  unfold total_unknowns. induction ls as [|us ls IH]; intros H; cbn [map sumN] in *; [reflexivity|]. fold (usize us) in H.
  rewrite pre_send_all by lia. rewrite accumulate_eq by (fold (usize us); lia). rewrite IH by lia. reflexivity.
Qed.

Lemma total_unknowns_eq : forall ls, total_unknowns ls = sumN (map usize ls).
Proof. reflexivity. Qed.

Lemma fin_eq : forall ls, total_unknowns ls < 2 ^ 32 ->
  map (fun x => finalize_units (snd x) (fst x)) (combine (map (map pre_send) ls) (exclusive_scan (map usize ls))) = fin_all 0 ls.
Proof.
  intros ls H. rewrite exclusive_scan_eq by exact H.
  assert (G : forall ls a, a + sumN (map usize ls) < 2 ^ 32 ->
    map (fun x => finalize_units (snd x) (fst x)) (combine (map (map pre_send) ls) (offsets_from a (map usize ls))) = fin_all a ls).
  { clear. induction ls as [|us ls IH]; intros a H; cbn [map offsets_from combine fin_all sumN fst snd] in *; [reflexivity|].
    rewrite finalize_units_eq by lia. rewrite IH by lia. reflexivity. }
  apply G. rewrite total_unknowns_eq in H. lia.
Qed.

(** ** Owned blocks *)
Lemma concat_blocks : forall l a, concat (blocks_from a l) = range a (3 * sumN l).
Proof.
  induction l as [|n l IH]; intros a; cbn [blocks_from concat sumN]; [rewrite range_nil; reflexivity|]. rewrite IH, N.mul_add_distr_l, range_app. reflexivity.
Qed.
Lemma concat_dblocks : forall l a, concat (map snd (filter (fun eb => owns (fst eb)) (combine l (dblocks_from a l)))) = range a (3 * dsum l).
Proof.
  unfold dsum. induction l as [|e l IH]; intros a; cbn [dblocks_from map sumN combine]; [reflexivity|]. destruct (owns e) eqn:E; cbn [combine filter fst]; rewrite E.
  - cbn [map concat snd]. rewrite IH, N.mul_add_distr_l, range_app. reflexivity.
  - rewrite IH. f_equal.
Qed.
Lemma concat_numbered : forall u a, concat (owned_blocks u (numbered a u)) = range a (owned_size u).
Proof.
  intros u a. unfold owned_blocks, numbered. cbn [n_int n_bnd n_dist]. rewrite !concat_app, !concat_blocks, concat_dblocks, owned_size_eq.
  rewrite !range_app. rewrite <- app_assoc. rewrite !N.add_assoc. reflexivity.
Qed.

Lemma dblocks_length : forall l a, length (dblocks_from a l) = length l.
Proof. induction l as [|e l IH]; intros a; cbn; [reflexivity|]. destruct (owns e); cbn; rewrite IH; reflexivity. Qed.
Lemma blocks_length : forall l a, length (blocks_from a l) = length l.
Proof. induction l as [|e l IH]; intros a; cbn; [reflexivity|]. rewrite IH; reflexivity. Qed.
Lemma dblocks_In : forall l a e b, In (e, b) (combine l (dblocks_from a l)) -> owns e = true ->
  exists x, b = range x (3 * g_ndof e) /\ a <= x /\ x + 3 * g_ndof e <= a + 3 * dsum l.
Proof.
  unfold dsum. induction l as [|e0 l IH]; intros a e b H Ho; cbn [dblocks_from combine] in H; [contradiction|]. destruct (owns e0) eqn:E; cbn [combine map sumN] in *; rewrite E.
  - destruct H as [H|H].
    + injection H as <- <-. exists a. split; [reflexivity|]. lia.
    + destruct (IH _ _ _ H Ho) as (x & X1 & X2 & X3). exists x. split; [exact X1|]. lia.
  - destruct H as [H|H]; [injection H as <- <-; congruence|].
    destruct (IH _ _ _ H Ho) as (x & X1 & X2 & X3). exists x. split; [exact X1|]. lia.
Qed.

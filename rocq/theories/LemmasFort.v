(** ADCIRC mesh files: writing and reading back. *)
From Coq Require Import String Reals ZArith NArith List Bool Lia Lra.
From Verif Require Import Outcome ModelStream ModelMeta ModelFort SpecMeta SpecFort LemmasRound LemmasStream LemmasMeta LemmasDbmd.
Import ListNotations.
Local Open Scope N_scope.

(** ** How long numbers are *)
Lemma digits_short : forall l f n, n < 10 ^ N.of_nat (S l) -> (List.length (digits f n) <= S l)%nat.
Proof.
  induction l as [|l IH]; intros f n H.
  - destruct f as [|f]; [cbn; lia|]. change (10 ^ N.of_nat 1) with 10 in H. cbn [digits]. rewrite (N.div_small n 10) by lia. cbn. lia.
  - destruct f as [|f]; [cbn; lia|]. cbn [digits]. rewrite app_length. cbn [List.length]. destruct (n / 10 =? 0); [cbn; lia|].
    assert (n / 10 < 10 ^ N.of_nat (S l)). { apply N.div_lt_upper_bound; [discriminate|]. replace (N.of_nat (S (S l))) with (N.succ (N.of_nat (S l))) in H by lia. rewrite N.pow_succ_r' in H. exact H. }
    specialize (IH f _ H0). lia.
Qed.
Lemma dec_short : forall n, n < 4294967296 -> (List.length (dec n) <= 10)%nat.
Proof. intros n H. apply digits_short. change (10 ^ N.of_nat 10) with 10000000000. lia. Qed.
Lemma strip_length : forall ds, (List.length (strip ds) <= List.length ds)%nat.
Proof. intros ds. destruct (strip_zeros ds) as [z E]. apply (f_equal (@List.length N)) in E. rewrite app_length in E. lia. Qed.
Lemma point_length : forall f, (List.length (point f) <= S (List.length f))%nat.
Proof. intros [|c f]; cbn; lia. Qed.
Lemma general_length : forall m k, canonical 10 15 (m, k) -> (-1000 < k + 14 < 1000)%Z -> (List.length (general m k) <= 21)%nat.
Proof.
  intros m k Cn Hk. unfold canonical in Cn. cbn [fst] in Cn. assert (L : List.length (dec m) = 15%nat) by (apply dec_length; exact Cn).
  assert (Hs := strip_length (dec m)). rewrite L in Hs. unfold general. destruct ((k + 14 <? -4) || (15 <=? k + 14))%Z eqn:E1; [|destruct (k + 14 <? 0)%Z eqn:E2].
  - destruct (strip (dec m)) as [|c f]; [cbn; lia|]. cbn [List.length] in *. rewrite app_length. cbn [List.length]. rewrite app_length. pose proof (point_length f).
    destruct (Z.abs (k + 14) <? 10)%Z eqn:E2.
    + apply Z.ltb_lt in E2. assert (List.length (dec (Z.to_N (Z.abs (k + 14)))) <= 1)%nat by (apply digits_short; change (10 ^ N.of_nat 1) with 10; lia). cbn [List.length]. lia.
    + assert (List.length (dec (Z.to_N (Z.abs (k + 14)))) <= 3)%nat by (apply digits_short; change (10 ^ N.of_nat 3) with 1000; lia). cbn [List.length]. lia.
  - apply orb_false_iff in E1. destruct E1 as [E1 _]. apply Z.ltb_ge in E1. apply Z.ltb_lt in E2. cbn [List.length]. rewrite app_length, repeat_length. lia.
  - rewrite app_length. pose proof (point_length (strip (skipn (Z.to_nat (k + 14 + 1)) (dec m)))). pose proof (strip_length (skipn (Z.to_nat (k + 14 + 1)) (dec m))).
    rewrite skipn_length in *. rewrite firstn_length. rewrite L in *. lia.
Qed.

Local Open Scope R_scope.
Lemma pw_opp : forall r k, (2 <= r)%N -> pw r (- k) = / pw r k.
Proof.
  intros r k Hr. assert (pw r (- k) * pw r k = 1). { rewrite <- pw_add by exact Hr. replace (- k + k)%Z with 0%Z by lia. reflexivity. }
  pose proof (pw_pos r Hr k). apply (Rmult_eq_reg_r (pw r k)); [|lra]. rewrite H, Rinv_l by lra. reflexivity.
Qed.
Lemma pw_two_ten : pw 2 1024 <= pw 10 512.
Proof. change 1024%Z with (Z.of_N 1024). change 512%Z with (Z.of_N 512). rewrite <- !pw_N by (exact two || exact ten). apply nr_le. apply N.leb_le. vm_compute. reflexivity. Qed.
Lemma pw_ten_two : pw 10 (-540) <= pw 2 (-1074).
Proof.
  change (-540)%Z with (- (540))%Z. change (-1074)%Z with (- (1074))%Z. rewrite (pw_opp 10 540 ten), (pw_opp 2 1074 two). apply Rinv_le_contravar; [apply (pw_pos 2 two)|]. change 1074%Z with (Z.of_N 1074). change 540%Z with (Z.of_N 540).
  rewrite <- !pw_N by (exact two || exact ten). apply nr_le. apply N.leb_le. vm_compute. reflexivity.
Qed.
Lemma leading_bounds : forall d, (2 ^ 52 <= d_man d < 2 ^ 53)%N -> (-1074 <= d_exp d <= 971)%Z ->
  (-600 < leading 10 (fst (frac (d_man d) 2 (d_exp d))) (snd (frac (d_man d) 2 (d_exp d))) < 600)%Z.
Proof.
  intros d Hm He. destruct (frac_pos 2 (d_man d) (d_exp d) two ltac:(lia)) as [A B]. pose proof (leading_spec 10 ten _ _ A B) as [L1 L2]. rewrite frac_value in L1, L2 by exact two.
  set (L := leading 10 _ _) in *. clearbody L. assert (P := pw_pos 2 two (d_exp d)).
  assert (U : nr (d_man d) * pw 2 (d_exp d) < pw 2 1024).
  { replace 1024%Z with (53 + 971)%Z by lia. rewrite pw_add by exact two. change (pw 2 53) with (pw 2 (Z.of_N 53)). rewrite <- (pw_N 2 two). destruct Hm as [_ Hm]. apply nr_lt in Hm.
    assert (pw 2 (d_exp d) <= pw 2 971) by (apply pw_mono; [exact two|lia]). apply Rlt_le_trans with (nr (2 ^ 53) * pw 2 (d_exp d)); [apply Rmult_lt_compat_r; assumption|]. apply Rmult_le_compat_l; [apply nr_nonneg|assumption]. }
  assert (V : pw 2 (-1074) <= nr (d_man d) * pw 2 (d_exp d)).
  { assert (pw 2 (-1074) <= pw 2 (d_exp d)) by (apply pw_mono; [exact two|lia]). assert (1 <= nr (d_man d)) by (apply (nr_le 1); lia). nra. }
  pose proof pw_two_ten as W1. pose proof pw_ten_two as W2.
  assert (L < 512)%Z by (apply (pw_lt_inv 10 ten); lra). assert (-540 < L + 1)%Z by (apply (pw_lt_inv 10 ten); lra). lia.
Qed.
Local Open Scope N_scope.

Lemma print_length : forall d, in_range d -> (List.length (print_double (Double false (d_man d) (d_exp d))) <= 21)%nat.
Proof.
  intros d [Hn He]. unfold print_double. cbn [d_neg d_man d_exp app]. destruct (d_man d =? 0) eqn:Ez; [cbn; lia|]. apply N.eqb_neq in Ez.
  destruct Hn as [[Hn _]|Hn]; [contradiction|]. pose proof (leading_bounds d Hn He) as L. destruct (frac_pos 2 (d_man d) (d_exp d) two ltac:(lia)) as [A B].
  destruct (frac (d_man d) 2 (d_exp d)) as [a b]. cbn [fst snd] in *. pose proof (round_to_canonical 10 15 ten eq_refl a b A B) as C1.
  destruct (round_to 10 15 a b) as [m k] eqn:E. apply general_length; [exact C1|]. unfold round_to in E. destruct (_ =? _) in E; injection E as _ <-; lia.
Qed.
Lemma print_sign : forall d, print_double d = (if d_neg d then [45] else []) ++ print_double (Double false (d_man d) (d_exp d)).
Proof. intros d. unfold print_double. reflexivity. Qed.

(** A double in a field of 22 characters is set off from what stands before. *)
Definition sets_off (t : text) : Prop := match t with [] => False | c :: _ => c = blank \/ c = 45 end.
Lemma setw_off : forall d r, in_range d -> sets_off (setw 22 (print_double d) ++ r).
Proof.
  intros d r H. pose proof (print_length d H) as L. unfold setw. rewrite print_sign. destruct (d_neg d).
  - destruct (22 - _)%nat; cbn; auto.
  - cbn [app]. replace (22 - List.length (print_double (Double false (d_man d) (d_exp d))))%nat with (S (21 - List.length (print_double (Double false (d_man d) (d_exp d)))))%nat by lia. cbn. auto.
Qed.
Lemma off_ends : forall t, sets_off t -> t <> [] /\ ends_number t /\ stops t /\ match t with [] => False | _ => True end.
Proof. intros [|c t] H; [destruct H|]. destruct H as [->| ->]; repeat split; discriminate. Qed.
Lemma blanks_repeat : forall n, blanks (repeat blank n).
Proof. intros n. induction n; constructor; [reflexivity|assumption]. Qed.
Lemma read_double_setw : forall w d r, stops r -> match r with [] => False | _ => True end ->
  read_double (open (setw w (print_double d) ++ r)) = (open r, Some (reread d)).
Proof. intros w d r Hr Hn. unfold setw. rewrite <- app_assoc. apply read_double_print; [apply blanks_repeat|exact Hr|exact Hn]. Qed.
Lemma read_uint_setw : forall w n r, n < 4294967296 -> r <> [] -> ends_number r -> read_uint (open (setw w (dec n) ++ r)) = (open r, Some n).
Proof. intros w n r Hn Hr He. unfold setw. rewrite <- app_assoc. apply read_uint_dec'; [apply blanks_repeat|assumption..]. Qed.
Lemma setw_uint_ends : forall n r, n < 4294967296 -> setw 12 (dec n) ++ r <> [] /\ ends_number (setw 12 (dec n) ++ r).
Proof.
  intros n r H. apply dec_short in H. unfold setw. replace (12 - List.length (dec n))%nat with (S (11 - List.length (dec n)))%nat by lia. cbn [repeat app]. split; [discriminate|reflexivity].
Qed.

(** ** Nodes and elements *)
Lemma insert_new : forall (A : Type) (l : list (N * A)) k v, ~ In k (map fst l) -> insert l k v = l ++ [(k, v)].
Proof.
  intros A l k v H. unfold insert. replace (existsb (fun e => fst e =? k) l) with false; [reflexivity|]. symmetry. apply not_true_is_false. intros E. apply H.
  apply existsb_exists in E. destruct E as ([i w] & Hin & E). apply N.eqb_eq in E. cbn [fst] in E. subst i. apply (in_map fst) in Hin. exact Hin.
Qed.
Lemma read_nodes_ok : forall l steps r vars done, List.length steps = List.length l -> NoDup (map fst done ++ map fst l) -> uints (map fst l) ->
  Forall (fun n => point_in_range (snd n)) l ->
  exists vars', ofold read_node steps (open (flat_map print_node l ++ r), vars, done) = Ok (open r, vars', done ++ reread_nodes l).
Proof.
  induction l as [|[k [[x y] z]] l IH]; intros [|st steps] r vars done HL Hd Hu Hp; try discriminate; [exists vars; cbn; rewrite app_nil_r; reflexivity|].
  cbn [map fst] in Hu, Hd. apply uints_cons in Hu. destruct Hu as [Hk Hu]. pose proof (Forall_inv Hp) as (Hx & Hy & Hz). apply Forall_inv_tail in Hp.
  cbn [flat_map ofold]. unfold print_node at 1. rewrite <- !app_assoc. change ([newline] ++ ?t) with (newline :: t). unfold read_node at 1. destruct vars as [id [[vx vy] vz]].
  set (rest := newline :: _). pose proof (setw_off x (setw 22 (print_double y) ++ setw 22 (print_double z) ++ rest) Hx) as Ox. pose proof (setw_off y (setw 22 (print_double z) ++ rest) Hy) as Oy. pose proof (setw_off z rest Hz) as Oz.
  apply off_ends in Ox. apply off_ends in Oy. apply off_ends in Oz.
  rewrite read_uint_first by tauto. rewrite read_double_setw by tauto. rewrite read_double_setw by tauto. rewrite read_double_setw by first [exact I | repeat split; discriminate].
  cbn [store of_index bind]. unfold rest. rewrite skip_line_end. assert (Hn : ~ In k (map fst done)). { intros Hin. apply NoDup_remove_2 in Hd. apply Hd, in_or_app. left. exact Hin. }
  rewrite insert_new by exact Hn. destruct (IH steps r (Some k, (Some (reread x), Some (reread y), Some (reread z))) (done ++ [(k, (reread x, reread y, reread z))])) as [v' E].
  - cbn in HL. lia.
  - rewrite map_app, <- app_assoc. exact Hd.
  - exact Hu.
  - exact Hp.
  - exists v'. refine (eq_trans E _). rewrite <- app_assoc. reflexivity.
Qed.
Lemma read_elements_ok : forall l steps r vars done, List.length steps = List.length l -> NoDup (map fst done ++ map fst l) -> uints (map fst l) ->
  Forall (fun e : N * (N * N * N * N) => let '(a, b, c, d) := snd e in uints [a; b; c; d]) l ->
  exists vars', ofold read_element steps (open (flat_map print_element l ++ r), vars, done) = Ok (open r, vars', done ++ l).
Proof.
  induction l as [|[k [[[a b] c] d]] l IH]; intros [|st steps] r vars done HL Hd Hu Hp; try discriminate; [exists vars; cbn; rewrite app_nil_r; reflexivity|].
  cbn [map fst] in Hu, Hd. apply uints_cons in Hu. destruct Hu as [Hk Hu]. pose proof (Forall_inv Hp) as Hv. cbn [snd] in Hv. do 4 (apply uints_cons in Hv; destruct Hv as [? Hv]). apply Forall_inv_tail in Hp.
  cbn [flat_map ofold]. unfold print_element at 1. rewrite <- !app_assoc. change ([newline] ++ ?t) with (newline :: t). unfold read_element at 1. destruct vars as [id [[[va vb] vc] vd]].
  set (rest := newline :: _). 
  rewrite read_uint_first by first [assumption | apply setw_uint_ends; assumption].
  do 3 (rewrite read_uint_setw by first [assumption | apply setw_uint_ends; assumption]). rewrite read_uint_setw by (assumption || discriminate || reflexivity).
  cbn [store of_index bind]. unfold rest. rewrite skip_line_end. assert (Hn : ~ In k (map fst done)). { intros Hin. apply NoDup_remove_2 in Hd. apply Hd, in_or_app. left. exact Hin. }
  rewrite insert_new by exact Hn. destruct (IH steps r (Some k, (Some a, Some b, Some c, Some d)) (done ++ [(k, (a, b, c, d))])) as [v' E].
  - cbn in HL. lia.
  - rewrite map_app, <- app_assoc. exact Hd.
  - exact Hu.
  - exact Hp.
  - exists v'. refine (eq_trans E _). rewrite <- app_assoc. reflexivity.
Qed.

(** ** Lists *)
Lemma read_count_ok : forall n label r, n < 4294967296 -> ends_number label -> Forall (fun c => c <> newline) label -> (List.length label < 1000)%nat ->
  read_count (open (dec n ++ label ++ newline :: r)) = (open r, Some n).
Proof.
  intros n label r Hn He Hf Hl. unfold read_count. rewrite read_uint_first; [rewrite skip_line_ok by assumption; reflexivity|exact Hn|destruct label; discriminate|].
  destruct label as [|c label]; [reflexivity|exact He].
Qed.
Lemma dec_not_newline : forall n, Forall (fun c => c <> newline) (dec n).
Proof. intros n. eapply Forall_impl; [|apply dec_digits]. intros c H. apply digit_range in H. unfold newline. lia. Qed.
Lemma read_list_ok : forall l r, uints l -> read_list (List.length l) (open (print_ids l ++ r)) = (open r, l).
Proof.
  intros l r H. induction H as [|n l Hn Hl IH]; [reflexivity|]. unfold print_ids in *. cbn [List.length read_list flat_map]. rewrite <- !app_assoc. change ([newline] ++ ?t) with (newline :: t).
  change (dec n ++ newline :: ?t) with (dec n ++ [] ++ newline :: t). rewrite read_count_ok; [|exact Hn|exact I|constructor|cbn; lia]. rewrite IH. reflexivity.
Qed.
(** A label in a file. *)
Definition label_ok (s : text) : Prop := match s with [] => False | c :: _ => is_digit c = false end /\ Forall (fun c => c <> newline) s /\ (List.length s < 900)%nat.
Lemma mod_u32 : forall n, n mod 4294967296 < 4294967296.
Proof. intros n. apply N.mod_lt. discriminate. Qed.
Lemma regroup : forall a b c t : text, a ++ b ++ [blank; newline] ++ c ++ t = (a ++ b ++ [blank]) ++ newline :: c ++ t.
Proof. intros. rewrite <- !app_assoc. reflexivity. Qed.
Lemma read_lists_ok : forall label l r base old, label_ok (lit label) -> Forall ids_list l ->
  read_lists (List.length l) old (open (flat_map (print_list label) (combine (seq base (List.length l)) l) ++ r)) = Ok (open r, l).
Proof.
  intros label l r base old HL H. revert base old. induction H as [|ns l [Hu Hs] Hl IH]; intros base old; [reflexivity|].
  cbn [List.length seq combine flat_map read_lists]. unfold print_list at 1. cbn [fst snd]. rewrite <- !app_assoc. pose proof (mod_u32 (N.of_nat (S base))) as M. set (num := N.of_nat (S base) mod 4294967296) in *. clearbody num.
  destruct HL as (H1 & H2 & H3). rewrite regroup.
  rewrite read_count_ok.
  - cbn [store of_index bind]. rewrite Nat2N.id, read_list_ok by exact Hu. rewrite IH. reflexivity.
  - exact Hs.
  - destruct (lit label); [contradiction|exact H1].
  - apply Forall_app; split; [exact H2|]. apply Forall_app; split; [apply dec_not_newline|repeat constructor; discriminate].
  - rewrite !app_length. pose proof (dec_short num M). cbn [List.length]. lia.
Qed.
Definition reread_bar (b : bar) : bar := Bar (b_front b) (b_back b) (reread (b_height b)) (reread (b_sub b)) (reread (b_super b)).
Lemma read_bars_ok : forall l r, Forall bar_ok l -> read_bars (List.length l) (open (flat_map print_bar l ++ r)) = (open r, map reread_bar l).
Proof.
  intros l r H. induction H as [|b l [Hf Hb] Hl IH]; [reflexivity|]. cbn [List.length read_bars flat_map map]. unfold print_bar at 1. rewrite <- !app_assoc. change ([newline] ++ ?t) with (newline :: t).
  rewrite read_uint_first by (assumption || discriminate || reflexivity). rewrite read_uint_next by (assumption || discriminate || reflexivity).
  do 3 (rewrite read_double_print; [|exact blank_one|repeat split; discriminate|exact I]). rewrite skip_line_end, IH. reflexivity.
Qed.
Definition reread_land (l : land) : land := match l with Plain t l => Plain t l | Barrier t l => Barrier t (map reread_bar l) end.
Lemma label_land : label_ok (lit " = Number of nodes for land boundary ").
Proof. split; [reflexivity|]. split; [repeat constructor; discriminate|cbn; lia]. Qed.
Lemma barrier_not_plain : forall t, is_barrier t = true -> is_plain t || (t =? 77) || (t =? 88) = false.
Proof.
  intros t H. unfold is_barrier in H. apply N.eqb_eq in H. unfold is_plain. rewrite H. cbn [N.eqb Pos.eqb orb]. apply orb_false_iff. split; apply N.eqb_neq; intros ->; discriminate.
Qed.
Lemma read_lands_ok : forall l r base old, Forall land_ok l ->
  read_lands (List.length l) old (open (flat_map print_land (combine (seq base (List.length l)) l) ++ r)) = Ok (open r, map reread_land l).
Proof.
  intros l r base old H. revert base old. induction H as [|a l Ha Hl IH]; intros base old; [reflexivity|].
  cbn [List.length seq combine flat_map read_lands map]. unfold print_land at 1. cbn [fst snd]. rewrite <- !app_assoc. pose proof (mod_u32 (N.of_nat (S base))) as M. set (num := N.of_nat (S base) mod 4294967296) in *. clearbody num.
  assert (Hs : N.of_nat (land_size a) < 4294967296) by (destruct a as [t ns|t bs]; apply Ha). assert (Ht : land_type a < 4294967296) by (destruct a as [t ns|t bs]; apply Ha).
  destruct label_land as (L1 & L2 & L3). rewrite read_uint_first by (assumption || discriminate || reflexivity). rewrite read_uint_next by (assumption || discriminate || reflexivity).
  cbn [store keep of_index bind]. change ([newline] ++ ?t) with (newline :: t). rewrite (app_assoc (lit _) (dec num)). rewrite skip_line_ok.
  2: { apply Forall_app. split; [exact L2|apply dec_not_newline]. }
  2: { rewrite app_length. pose proof (dec_short num M). lia. }
  rewrite Nat2N.id. destruct a as [t ns|t bs]; cbn [land_type land_size reread_land] in *.
  - destruct Ha as (Hc & _ & Hu & _). replace (is_plain t || (t =? 77) || (t =? 88)) with true by (symmetry; destruct Hc as [-> |[-> | ->]]; reflexivity).
    rewrite read_list_ok by exact Hu. rewrite IH. reflexivity.
  - destruct Ha as (Hc & _ & _ & Hb). rewrite barrier_not_plain, Hc by exact Hc. rewrite read_bars_ok by exact Hb. rewrite IH. reflexivity.
Qed.

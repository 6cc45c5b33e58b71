(** Reading back what was written. *)
From Coq Require Import Reals ZArith NArith List Bool Lia Lra.
From Verif Require Import ModelStream LemmasRound.
Import ListNotations.
Local Open Scope N_scope.

Lemma span_app : forall f a r, Forall (fun c => f c = true) a -> match r with [] => True | c :: _ => f c = false end -> span f (a ++ r) = (a, r).
Proof.
  intros f a r H Hr. induction H as [|c a Hc Ha IH]; cbn [app span].
  - destruct r as [|c r]; [reflexivity|]. cbn [span]. rewrite Hr. reflexivity.
  - rewrite Hc, IH. reflexivity.
Qed.
Lemma span_split : forall f l, l = fst (span f l) ++ snd (span f l) /\ Forall (fun c => f c = true) (fst (span f l)).
Proof.
  intros f l. induction l as [|c l [E F]]; cbn [span]; [split; [reflexivity|constructor]|]. destruct (f c) eqn:Hc; [|split; [reflexivity|constructor]].
  destruct (span f l) as [a b]. cbn [fst snd] in *. split; [cbn [app]; congruence|constructor; assumption].
Qed.

(** ** Numerals *)
Definition all_digits (l : text) : Prop := Forall (fun c => is_digit c = true) l.
Lemma digit_char : forall n, is_digit (48 + n mod 10) = true.
Proof. intros n. pose proof (N.mod_lt n 10 ltac:(lia)) as H. generalize dependent (n mod 10). intros x H. unfold is_digit. apply andb_true_iff. split; apply N.leb_le; lia. Qed.
Lemma digits_all : forall f n, all_digits (digits f n).
Proof.
  unfold all_digits. induction f as [|f IH]; intros n; cbn [digits]; [constructor|]. apply Forall_app. split; [|constructor; [apply digit_char|constructor]].
  destruct (n / 10 =? 0); [constructor|apply IH].
Qed.
Lemma value_app : forall a b, value (a ++ b) = value a * 10 ^ N.of_nat (length b) + value b.
Proof.
  intros a b. unfold value. rewrite fold_left_app. set (x := fold_left _ a 0). clearbody x. revert x.
  induction b as [|c b IH] using rev_ind; intros x; [cbn; lia|]. rewrite !fold_left_app, app_length. cbn [fold_left length]. rewrite IH.
  replace (N.of_nat (length b + 1)) with (N.succ (N.of_nat (length b))) by lia. rewrite N.pow_succ_r'. lia.
Qed.
Lemma value_one : forall c, value [c] = c - 48.
Proof. intros. unfold value. cbn [fold_left]. lia. Qed.
Lemma digits_value : forall f n, n < 10 ^ N.of_nat f -> value (digits f n) = n.
Proof.
  induction f as [|f IH]; intros n H; cbn [digits]; [cbn in H; change (value []) with 0; lia|].
  rewrite value_app. cbn [length]. change (10 ^ N.of_nat 1) with 10. rewrite value_one. pose proof (N.div_mod n 10 ltac:(lia)) as E.
  replace (N.of_nat (S f)) with (N.succ (N.of_nat f)) in H by lia. rewrite N.pow_succ_r' in H.
  match goal with |- value ?h * 10 + _ = _ => assert (V : value h = n / 10) end.
  { destruct (n / 10 =? 0) eqn:Z; [apply N.eqb_eq in Z; rewrite Z; reflexivity|]. apply IH. apply N.div_lt_upper_bound; lia. }
  rewrite V. clear - E. generalize dependent (n / 10). generalize (n mod 10). intros. lia.
Qed.
Lemma size_bound : forall n, n < 10 ^ N.of_nat (S (N.size_nat n)).
Proof.
  intros n. assert (H : n < 2 ^ N.of_nat (S (N.size_nat n))).
  { destruct n as [|p]; [reflexivity|]. cbn [N.size_nat]. pose proof (Pos.size_gt p) as G.
    assert (E : N.of_nat (Pos.size_nat p) = N.pos (Pos.size p)) by (clear G; induction p as [p IH|p IH|]; cbn [Pos.size_nat Pos.size]; [| |reflexivity]; rewrite Nat2N.inj_succ, IH; reflexivity).
    replace (N.of_nat (S (Pos.size_nat p))) with (N.succ (N.pos (Pos.size p))) by lia. rewrite N.pow_succ_r'. assert (N.pos p < 2 ^ N.pos (Pos.size p)) by (apply G). lia. }
  eapply N.lt_le_trans; [exact H|]. apply N.pow_le_mono_l. lia.
Qed.
Lemma dec_value : forall n, value (dec n) = n.
Proof. intros n. apply digits_value, size_bound. Qed.
Lemma dec_digits : forall n, all_digits (dec n).
Proof. intros. apply digits_all. Qed.
Lemma dec_cons : forall n, exists c r, dec n = c :: r.
Proof. intros n. unfold dec. cbn [digits]. destruct (if n / 10 =? 0 then [] else _) as [|c r]; eexists _, _; reflexivity. Qed.
Lemma digits_length : forall l f n, 10 ^ N.of_nat l <= n < 10 ^ N.of_nat (S l) -> n < 10 ^ N.of_nat f -> length (digits f n) = S l.
Proof.
  induction l as [|l IH]; intros f n H Hf.
  - destruct f as [|f]; [cbn in *; lia|]. cbn [digits]. change (10 ^ N.of_nat 1) with 10 in H. rewrite (N.div_small n 10) by lia. reflexivity.
  - destruct f as [|f]; [exfalso; change (10 ^ N.of_nat 0) with 1 in Hf; assert (10 ^ N.of_nat (S l) <> 0) by (apply N.pow_nonzero; lia); lia|].
    assert (E : forall x, 10 ^ N.of_nat (S x) = 10 * 10 ^ N.of_nat x) by (intros x; rewrite Nat2N.inj_succ, N.pow_succ_r'; reflexivity).
    cbn [digits]. rewrite app_length. cbn [length]. rewrite !E in H. rewrite E in Hf. pose proof (N.div_mod n 10 ltac:(lia)) as D. pose proof (N.mod_lt n 10 ltac:(lia)) as M.
    assert (B : 10 ^ N.of_nat l <= n / 10 < 10 ^ N.of_nat (S l)).
    { rewrite E. split; [apply N.div_le_lower_bound; lia|apply N.div_lt_upper_bound; lia]. }
    assert (Z : 10 ^ N.of_nat l <> 0) by (apply N.pow_nonzero; lia). destruct (n / 10 =? 0) eqn:Q; [apply N.eqb_eq in Q; lia|].
    rewrite IH; [lia|exact B|]. apply N.div_lt_upper_bound; lia.
Qed.
Lemma dec_length : forall l n, 10 ^ N.of_nat l <= n < 10 ^ N.of_nat (S l) -> length (dec n) = S l.
Proof. intros l n H. apply digits_length; [exact H|apply size_bound]. Qed.

Definition blanks (l : text) : Prop := Forall (fun c => is_space c = true) l.
Definition ends_number (r : text) : Prop := match r with [] => True | c :: _ => is_digit c = false end.
Lemma digit_range : forall c, is_digit c = true <-> 48 <= c <= 57.
Proof. intros c. unfold is_digit. rewrite andb_true_iff, !N.leb_le. reflexivity. Qed.
Lemma digit_not_space : forall c, is_digit c = true -> is_space c = false.
Proof. intros c H. apply digit_range in H. unfold is_space. apply orb_false_iff. split; [apply andb_false_iff; right; apply N.leb_gt; lia|apply N.eqb_neq; lia]. Qed.

Lemma sentry_ok : forall w c r, blanks w -> is_space c = false -> sentry (open (w ++ c :: r)) = (open (c :: r), true).
Proof. intros w c r Hw Hc. unfold sentry, open. cbn [good s_eof s_fail s_rest negb andb]. rewrite (span_app is_space w (c :: r)) by assumption. reflexivity. Qed.
Lemma sign_digit : forall c r, is_digit c = true -> sign (c :: r) = (false, c :: r).
Proof.
  intros c r H. apply digit_range in H. unfold sign. assert (c =? 45 = false) by (apply N.eqb_neq; lia). assert (c =? 43 = false) by (apply N.eqb_neq; lia). rewrite H0, H1. reflexivity.
Qed.

Lemma read_uint_dec : forall w n c r, blanks w -> n <= uint_max -> is_digit c = false ->
  read_uint (open (w ++ dec n ++ c :: r)) = (open (c :: r), Some n).
Proof.
  intros w n c r Hw Hn Hc. destruct (dec_cons n) as (d & t & E). assert (D := dec_digits n). rewrite E in D. inversion D as [|? ? Hd Ht]; subst.
  unfold read_uint. rewrite E. cbn [app]. rewrite sentry_ok by (try exact Hw; apply digit_not_space; exact Hd). unfold open. cbn [s_rest]. rewrite sign_digit by exact Hd.
  change (d :: t ++ c :: r) with ((d :: t) ++ c :: r). rewrite <- E. rewrite (span_app is_digit (dec n) (c :: r)); [|apply dec_digits|exact Hc].
  rewrite dec_value. replace (isnil (dec n)) with false by (rewrite E; reflexivity). assert (n <=? uint_max = true) as -> by (apply N.leb_le; exact Hn). reflexivity.
Qed.
Lemma read_byte_ok : forall w c r, blanks w -> is_space c = false -> read_byte (open (w ++ c :: r)) = (open r, Some c).
Proof. intros w c r Hw Hc. unfold read_byte. rewrite sentry_ok by assumption. reflexivity. Qed.
Lemma read_word_ok : forall w a c r, blanks w -> a <> [] -> Forall (fun c => is_space c = false) a -> is_space c = true ->
  read_word (open (w ++ a ++ c :: r)) = (open (c :: r), Some a).
Proof.
  intros w a c r Hw Ha Hf Hc. unfold read_word. destruct a as [|x a]; [contradiction|]. assert (Hx := Forall_inv Hf). cbn [app]. rewrite sentry_ok by assumption. cbn [s_rest open].
  change (x :: a ++ c :: r) with ((x :: a) ++ c :: r). rewrite (span_app _ (x :: a) (c :: r)); [reflexivity| |rewrite Hc; reflexivity].
  eapply Forall_impl; [|exact Hf]. cbn. intros y ->. reflexivity.
Qed.
Lemma drop_to_ok : forall n delim a r, Forall (fun c => c <> delim) a -> (length a < n)%nat -> drop_to n delim (a ++ delim :: r) = (r, false).
Proof.
  induction n as [|n IH]; intros delim a r Ha Hn; [lia|]. destruct a as [|c a]; cbn [app drop_to].
  - rewrite N.eqb_refl. reflexivity.
  - inversion Ha as [|? ? Hc Ha']; subst. destruct (c =? delim) eqn:E; [apply N.eqb_eq in E; contradiction|]. apply IH; [exact Ha'|cbn [length] in Hn; lia].
Qed.
Lemma skip_line_ok : forall a r, Forall (fun c => c <> newline) a -> (length a < 1000)%nat -> skip_line (open (a ++ newline :: r)) = open r.
Proof. intros a r Ha Hn. unfold skip_line, ignore. cbn [good open s_eof s_fail negb andb s_rest]. rewrite drop_to_ok by assumption. reflexivity. Qed.

(** ** Doubles *)
Lemma value_zeros : forall a z, value (a ++ repeat 48 z) = value a * 10 ^ N.of_nat z.
Proof.
  intros a z. rewrite value_app, repeat_length. assert (H : value (repeat 48 z) = 0); [|lia].
  induction z as [|z IH]; [reflexivity|]. change (repeat 48 (S z)) with ([48] ++ repeat 48 z). rewrite value_app, IH. reflexivity.
Qed.
Lemma repeat_cons_snoc : forall (x : N) z, repeat x (S z) = repeat x z ++ [x].
Proof. intros x z. induction z as [|z IH]; [reflexivity|]. cbn [repeat app] in *. congruence. Qed.
Lemma strip_zeros : forall ds, exists z, ds = strip ds ++ repeat 48 z.
Proof.
  intros ds. unfold strip. destruct (span_split (N.eqb 48) (rev ds)) as [E F]. set (a := fst _) in *. set (b := snd _) in *. exists (length a).
  apply (f_equal (@rev N)) in E. rewrite rev_involutive, rev_app_distr in E. rewrite E at 1. f_equal.
  assert (A : a = repeat 48 (length a)). { clear E. induction F as [|c a' Hc Ha IH]; [reflexivity|]. cbn [length repeat]. apply N.eqb_eq in Hc. rewrite <- IH. congruence. }
  rewrite A at 1. clear A E F. induction (length a) as [|n IH]; [reflexivity|]. cbn [repeat rev]. rewrite IH. clear IH. symmetry. apply repeat_cons_snoc.
Qed.
Lemma strip_digits : forall ds, all_digits ds -> all_digits (strip ds).
Proof. intros ds H. destruct (strip_zeros ds) as [z E]. unfold all_digits in *. rewrite E in H. apply Forall_app in H. apply H. Qed.

(** A number as written: integer part, fraction, exponent. *)
Definition stops (r : text) : Prop := match r with [] => True | c :: _ => is_digit c = false /\ c <> 46 /\ c <> 101 /\ c <> 69 end.
Definition numeral (neg : bool) (i f : text) : text := (if neg then [45] else []) ++ i ++ point f.
Lemma sign_numeral : forall (neg : bool) (i t : text), all_digits i -> i <> [] -> sign ((if neg then [45] else ([] : text)) ++ i ++ t) = (neg, i ++ t).
Proof. intros neg i t Hi Hn. destruct neg; cbn [app]; [reflexivity|]. destruct i as [|c i]; [contradiction|]. apply sign_digit. inversion Hi; assumption. Qed.
Lemma isnil_app : forall (i f : text), i <> [] -> isnil (i ++ f) = false.
Proof. intros [|c i] f H; [contradiction|reflexivity]. Qed.
Lemma scan_point : forall i f t, all_digits i -> all_digits f -> match t with [] => True | c :: _ => is_digit c = false /\ c <> 46 end ->
  span is_digit (i ++ point f ++ t) = (i, point f ++ t) /\
  fraction (point f ++ t) = (f, t).
Proof.
  intros i f t Hi Hf Ht. split.
  - apply span_app; [exact Hi|]. destruct f as [|x f]; cbn [point isnil app]; [destruct t as [|c t]; [exact I|apply Ht]|reflexivity].
  - unfold fraction. destruct f as [|x f]; cbn [point isnil app].
    + destruct t as [|c t]; [reflexivity|]. destruct Ht as [_ Ht]. apply N.eqb_neq in Ht. rewrite Ht. reflexivity.
    + change (46 =? 46) with true. cbv iota. change (x :: f ++ t) with ((x :: f) ++ t). apply span_app; [exact Hf|]. destruct t as [|c t]; [exact I|apply Ht].
Qed.
Lemma scan_plain : forall neg i f r, all_digits i -> all_digits f -> i <> [] -> stops r ->
  scan_double (numeral neg i f ++ r) = (Some (neg, value (i ++ f), (- Z.of_nat (length f))%Z), r).
Proof.
  intros neg i f r Hi Hf Hn Hr. unfold scan_double, numeral. rewrite <- !app_assoc. rewrite sign_numeral by assumption.
  destruct (scan_point i f r Hi Hf) as [E1 E2]; [destruct r as [|c r]; [exact I|destruct Hr as (A & B & _); split; assumption]|].
  rewrite E1, E2. rewrite isnil_app by exact Hn. destruct r as [|c r]; [reflexivity|]. destruct Hr as (_ & _ & A & B).
  apply N.eqb_neq in A, B. rewrite A, B. reflexivity.
Qed.
Lemma scan_exponent : forall neg i f (eneg : bool) x r, all_digits i -> all_digits f -> i <> [] -> all_digits x -> x <> [] -> ends_number r ->
  scan_double (numeral neg i f ++ 101 :: (if eneg then 45 else 43) :: x ++ r) =
  (Some (neg, value (i ++ f), ((if eneg then - Z.of_N (value x) else Z.of_N (value x)) + - Z.of_nat (length f))%Z), r).
Proof.
  intros neg i f eneg x r Hi Hf Hn Hx Hxn Hr. unfold scan_double, numeral. rewrite <- !app_assoc. rewrite sign_numeral by assumption.
  destruct (scan_point i f (101 :: (if eneg then 45 else 43) :: x ++ r) Hi Hf) as [E1 E2]; [split; [reflexivity|discriminate]|].
  rewrite E1, E2. rewrite isnil_app by exact Hn. cbn [N.eqb Pos.eqb orb].
  assert (E : sign ((if eneg then 45 else 43) :: x ++ r) = (eneg, x ++ r)) by (destruct eneg; reflexivity). rewrite E.
  rewrite (span_app is_digit x r Hx) by exact Hr. destruct x as [|c x]; [contradiction|]. reflexivity.
Qed.

(** What is read back of a printed 15-digit number is the same number, possibly with trailing
    zeros moved to the exponent. *)
Lemma stops_ends : forall r, stops r -> ends_number r.
Proof. intros [|c r]; [trivial|intros H; apply H]. Qed.
Lemma zeros_digits : forall z, all_digits (repeat 48 z).
Proof. intros z. induction z; constructor; [reflexivity|assumption]. Qed.
Lemma general_read : forall (neg : bool) m k r, canonical 10 15 (m, k) -> stops r ->
  exists m' z, m = m' * 10 ^ N.of_nat z /\ scan_double ((if neg then [45] else []) ++ general m k ++ r) = (Some (neg, m', (k + Z.of_nat z)%Z), r).
Proof.
  intros neg m k r Cn Hr. unfold canonical in Cn. cbn [fst] in Cn.
  assert (L : length (dec m) = 15%nat) by (apply dec_length; exact Cn). assert (D := dec_digits m). assert (V := dec_value m).
  assert (M0 : m <> 0) by (change (10 ^ (15 - 1)) with 100000000000000 in Cn; lia).
  unfold general. set (x := (k + 14)%Z). set (ds := dec m) in *. clearbody ds.
  destruct ((x <? -4) || (15 <=? x))%Z eqn:E1; [|destruct (x <? 0)%Z eqn:E2].
  - destruct (strip_zeros ds) as [z Ez]. pose proof (strip_digits ds D) as Sd. destruct (strip ds) as [|c f] eqn:Es.
    { exfalso. cbn [app] in Ez. rewrite Ez in V. pose proof (value_zeros [] z) as Q. cbn [app] in Q. rewrite Q in V. change (value []) with 0 in V. lia. }
    exists (value (c :: f)), z. split; [rewrite <- value_zeros, <- Ez; symmetry; exact V|].
    set (xs := (if (Z.abs x <? 10)%Z then [48] else []) ++ dec (Z.to_N (Z.abs x))).
    assert (Hx : all_digits xs) by (unfold xs, all_digits; apply Forall_app; split; [destruct (Z.abs x <? 10)%Z; repeat constructor|apply dec_digits]).
    assert (Hxn : xs <> []) by (unfold xs; destruct (dec_cons (Z.to_N (Z.abs x))) as (a & b & ->); destruct (Z.abs x <? 10)%Z; discriminate).
    assert (Vx : value xs = Z.to_N (Z.abs x)) by (unfold xs; rewrite value_app, dec_value; destruct (Z.abs x <? 10)%Z; [change (value [48]) with 0|change (value []) with 0]; lia).
    replace ((if neg then [45] else []) ++ (c :: point f ++ 101 :: (if (x <? 0)%Z then 45 else 43) :: xs) ++ r)
      with (numeral neg [c] f ++ 101 :: (if (x <? 0)%Z then 45 else 43) :: xs ++ r) by (unfold numeral; repeat (cbn [app]; rewrite <- ?app_assoc); reflexivity).
    pose proof (Forall_inv Sd) as Hc. pose proof (Forall_inv_tail Sd) as Hf. rewrite scan_exponent; [|repeat constructor; exact Hc|exact Hf|discriminate|exact Hx|exact Hxn|apply stops_ends; exact Hr].
    rewrite Vx. apply (f_equal (@length N)) in Ez. rewrite app_length, repeat_length, L in Ez. cbn [length] in Ez. do 3 f_equal. subst x. destruct (k + 14 <? 0)%Z eqn:Q; [apply Z.ltb_lt in Q|apply Z.ltb_ge in Q]; lia.
  - apply orb_false_iff in E1. destruct E1 as [E1 _]. apply Z.ltb_ge in E1. apply Z.ltb_lt in E2. destruct (strip_zeros ds) as [z Ez]. pose proof (strip_digits ds D) as Sd.
    set (f := repeat 48 (Z.to_nat (- x - 1)) ++ strip ds). exists (value ([48] ++ f)), z.
    assert (Hs : strip ds <> []). { intros Es. rewrite Es in Ez. cbn [app] in Ez. rewrite Ez in V. pose proof (value_zeros [] z) as Q. cbn [app] in Q. rewrite Q in V. change (value []) with 0 in V. lia. }
    assert (Vf : value ([48] ++ f) = value (strip ds)). { unfold f. rewrite app_assoc, value_app. pose proof (value_zeros [48] (Z.to_nat (- x - 1))) as Q. rewrite Q. change (value [48]) with 0. lia. }
    split; [rewrite Vf, <- value_zeros, <- Ez; symmetry; exact V|].
    assert (Pf : point f = 46 :: f) by (unfold point; destruct f eqn:Ef; [exfalso; unfold f in Ef; apply app_eq_nil in Ef; apply Hs, Ef|reflexivity]).
    replace ((if neg then [45] else []) ++ (48 :: 46 :: f) ++ r) with (numeral neg [48] f ++ r) by (unfold numeral; rewrite Pf; repeat (cbn [app]; rewrite <- ?app_assoc); reflexivity).
    rewrite scan_plain; [|repeat constructor|unfold f, all_digits; apply Forall_app; split; [apply zeros_digits|exact Sd]|discriminate|exact Hr].
    do 3 f_equal. apply (f_equal (@length N)) in Ez. rewrite app_length, repeat_length, L in Ez. unfold f. rewrite app_length, repeat_length. lia.
  - apply orb_false_iff in E1. destruct E1 as [_ E1]. apply Z.leb_gt in E1. apply Z.ltb_ge in E2. set (a := firstn (Z.to_nat (x + 1)) ds). set (b := skipn (Z.to_nat (x + 1)) ds).
    assert (Eab : ds = a ++ b) by (symmetry; apply firstn_skipn). assert (La : length a = Z.to_nat (x + 1)) by (unfold a; rewrite firstn_length; lia).
    assert (Lb : length b = (15 - Z.to_nat (x + 1))%nat) by (unfold b; rewrite skipn_length; lia).
    destruct (strip_zeros b) as [z Ez]. unfold all_digits in D. rewrite Eab in D. apply Forall_app in D. destruct D as [Da Db]. exists (value (a ++ strip b)), z.
    split; [rewrite <- value_zeros, <- app_assoc, <- Ez, <- Eab; symmetry; exact V|].
    replace ((if neg then [45] else []) ++ (a ++ point (strip b)) ++ r) with (numeral neg a (strip b) ++ r) by (unfold numeral; rewrite <- !app_assoc; reflexivity).
    rewrite scan_plain; [|exact Da|apply strip_digits; exact Db|intros E; rewrite E in La; cbn in La; lia|exact Hr].
    do 3 f_equal. apply (f_equal (@length N)) in Ez. rewrite app_length, repeat_length in Ez. lia.
Qed.

(** to_double depends on the value only. *)
Lemma to_double_shift : forall neg m k z, to_double neg (m * 10 ^ N.of_nat z) k = to_double neg m (k + Z.of_nat z).
Proof.
  intros neg m k z. unfold to_double. assert (P : 0 < 10 ^ N.of_nat z) by (apply (radix_pow_pos 10 ten)).
  destruct (m =? 0) eqn:E; [apply N.eqb_eq in E; subst m; reflexivity|]. apply N.eqb_neq in E. replace (m * 10 ^ N.of_nat z =? 0) with false by (symmetry; apply N.eqb_neq; nia).
  destruct (frac_pos 10 (m * 10 ^ N.of_nat z) k ten ltac:(nia)) as [A B]. destruct (frac_pos 10 m (k + Z.of_nat z) ten ltac:(nia)) as [A' B'].
  pose proof (frac_value 10 (m * 10 ^ N.of_nat z) k ten) as V. pose proof (frac_value 10 m (k + Z.of_nat z) ten) as V'.
  destruct (frac (m * 10 ^ N.of_nat z) 10 k) as [a b]. destruct (frac m 10 (k + Z.of_nat z)) as [a' b']. cbn [fst snd] in *.
  rewrite (round_to_eq 2 53 two eq_refl a b a' b' A B A' B'); [reflexivity|].
  apply nr_inj. rewrite !nr_mult in *. rewrite (pw_add 10 ten), (pw_N 10 ten) in *. rewrite nat_N_Z in V. pose proof (nr_pos b B). pose proof (nr_pos b' B').
  assert (Q : (nr a / nr b = nr a' / nr b')%R) by lra. apply (Rmult_eq_reg_r (/ (nr b * nr b'))); [|apply Rinv_neq_0_compat; nra]. transitivity (nr a / nr b)%R; [field; lra|]. rewrite Q. field. lra.
Qed.

(** The double a printed double reads back as. *)
Definition reread (d : double) : double :=
  if d_man d =? 0 then Double (d_neg d) 0 0
  else let (m, k) := round_to 10 15 (fst (frac (d_man d) 2 (d_exp d))) (snd (frac (d_man d) 2 (d_exp d))) in to_double (d_neg d) m k.
Lemma general_first : forall m k, canonical 10 15 (m, k) -> exists c t, general m k = c :: t /\ is_digit c = true.
Proof.
  intros m k Cn. unfold canonical in Cn. cbn [fst] in Cn. assert (M0 : m <> 0) by (change (10 ^ (15 - 1)) with 100000000000000 in Cn; lia). unfold general. assert (D := dec_digits m). assert (V := dec_value m).
  destruct (dec_cons m) as (d & t & Ed). destruct ((k + 14 <? -4) || (15 <=? k + 14))%Z eqn:E1; [|destruct (k + 14 <? 0)%Z eqn:E2].
  - destruct (strip_zeros (dec m)) as [z Ez]. pose proof (strip_digits _ D) as Sd. destruct (strip (dec m)) as [|c f] eqn:Es.
    + exfalso. cbn [app] in Ez. rewrite Ez in V. pose proof (value_zeros [] z) as Q. cbn [app] in Q. rewrite Q in V. change (value []) with 0 in V. lia.
    + eexists _, _. split; [reflexivity|]. inversion Sd; assumption.
  - eexists _, _. split; reflexivity.
  - apply Z.ltb_ge in E2. replace (Z.to_nat (k + 14 + 1)) with (S (Z.to_nat (k + 14))) by lia. rewrite Ed in *. cbn [firstn app]. eexists _, _. split; [reflexivity|]. inversion D; assumption.
Qed.
Lemma read_double_print : forall w d r, blanks w -> stops r ->
  match r with [] => False | _ => True end ->
  read_double (open (w ++ print_double d ++ r)) = (open r, Some (reread d)).
Proof.
  intros w d r Hw Hr Hn. unfold print_double, reread.
  destruct (d_man d =? 0) eqn:Ez.
  - assert (S0 : scan_double (((if d_neg d then [45] else []) ++ [48]) ++ r) = (Some (d_neg d, 0, 0%Z), r)).
    { replace (((if d_neg d then [45] else []) ++ [48]) ++ r) with (numeral (d_neg d) [48] [] ++ r) by (unfold numeral; cbn [point isnil]; rewrite !app_nil_r; reflexivity).
      rewrite scan_plain; [reflexivity|repeat constructor|constructor|discriminate|exact Hr]. }
    assert (H1 : exists c t, ((if d_neg d then [45] else []) ++ [48]) ++ r = c :: t /\ is_space c = false) by (destruct (d_neg d); eexists _, _; split; reflexivity).
    destruct H1 as (c & t & E & Hc). rewrite E in *. unfold read_double. rewrite sentry_ok by assumption. cbn [s_rest open]. rewrite S0. destruct r; [contradiction|reflexivity].
  - apply N.eqb_neq in Ez. destruct (frac_pos 2 (d_man d) (d_exp d) two ltac:(lia)) as [A B]. destruct (frac (d_man d) 2 (d_exp d)) as [a b]. cbn [fst snd] in *.
    pose proof (round_to_canonical 10 15 ten eq_refl a b A B) as Cn. destruct (round_to 10 15 a b) as [m k].
    destruct (general_read (d_neg d) m k r Cn Hr) as (m' & z & Em & S0). rewrite app_assoc in S0.
    assert (H1 : exists c t, ((if d_neg d then [45] else []) ++ general m k) ++ r = c :: t /\ is_space c = false).
    { destruct (general_first m k Cn) as (c & t & -> & Hc). destruct (d_neg d); eexists _, _; (split; [reflexivity|]); [reflexivity|apply digit_not_space; exact Hc]. }
    destruct H1 as (c & t & E & Hc). rewrite E in *. unfold read_double. rewrite sentry_ok by assumption. cbn [s_rest open]. rewrite S0.
    rewrite Em, to_double_shift. destruct r; [contradiction|reflexivity].
Qed.

(** A double made from at most 15 decimal digits is read back unchanged. *)
Lemma to_double_canonical : forall m, 0 < m < 10 ^ 15 -> exists z, (z <= 14)%nat /\ 10 ^ 14 <= m * 10 ^ N.of_nat z < 10 ^ 15.
Proof.
  intros m Hm. assert (H : forall n, (n <= 14)%nat -> m < 10 ^ N.of_nat (S n) -> exists z, (z <= 14)%nat /\ 10 ^ 14 <= m * 10 ^ N.of_nat z < 10 ^ 15).
  { induction n as [|n IH]; intros Hn Hlt.
    - exists 14%nat. change (10 ^ N.of_nat 1) with 10 in Hlt. change (10 ^ N.of_nat 14) with 100000000000000. change (10 ^ 14) with 100000000000000. change (10 ^ 15) with 1000000000000000. lia.
    - destruct (N.lt_ge_cases m (10 ^ N.of_nat (S n))) as [G|G]; [apply IH; [lia|exact G]|]. exists (14 - S n)%nat. split; [lia|].
      assert (E : forall j, (j <= 14)%nat -> 10 ^ N.of_nat j * 10 ^ N.of_nat (14 - j) = 10 ^ 14) by (intros j Hj; rewrite <- N.pow_add_r; f_equal; lia).
      specialize (E (S n) Hn). set (q := 10 ^ N.of_nat (14 - S n)) in *. rewrite <- E. change (10 ^ 15) with (10 * 10 ^ 14). rewrite <- E.
      rewrite (Nat2N.inj_succ (S n)), N.pow_succ_r' in Hlt. set (x := 10 ^ N.of_nat (S n)) in *. assert (0 < q) by (apply (radix_pow_pos 10 ten)). nia. }
  apply (H 14%nat); [lia|apply Hm].
Qed.
Lemma reread_digits : forall neg m k, m < 10 ^ 15 -> reread (to_double neg m k) = to_double neg m k.
Proof.
  intros neg m k Hm. destruct (N.eq_dec m 0) as [->|M0]; [reflexivity|].
  destruct (to_double_canonical m ltac:(lia)) as (z & _ & Hz). replace k with (k - Z.of_nat z + Z.of_nat z)%Z by lia. rewrite <- to_double_shift. set (M := m * 10 ^ N.of_nat z) in *. set (K := (k - Z.of_nat z)%Z). clearbody M K.
  assert (Cn : canonical 10 15 (M, K)) by exact Hz. assert (M1 : M <> 0) by (change (10 ^ 14) with 100000000000000 in Hz; lia). pose proof (digits_survive M K Cn) as S. cbv zeta in S.
  destruct (frac_pos 10 M K ten ltac:(lia)) as [A B]. pose proof (round_to_canonical 2 53 two eq_refl _ _ A B) as C2. unfold canonical in C2.
  assert (Ed : to_double neg M K = Double neg (fst (round_to 2 53 (fst (frac M 10 K)) (snd (frac M 10 K)))) (snd (round_to 2 53 (fst (frac M 10 K)) (snd (frac M 10 K))))).
  { unfold to_double. replace (M =? 0) with false by (symmetry; apply N.eqb_neq; exact M1). destruct (frac M 10 K) as [a b]. cbn [fst snd]. destruct (round_to 2 53 a b). reflexivity. }
  rewrite Ed at 1. unfold reread. cbn [d_man d_exp d_neg]. set (n := fst (round_to 2 53 _ _)) in *. set (e := snd (round_to 2 53 _ _)) in *.
  replace (n =? 0) with false by (symmetry; apply N.eqb_neq; change (2 ^ (53 - 1)) with 4503599627370496 in C2; lia). rewrite S. reflexivity.
Qed.

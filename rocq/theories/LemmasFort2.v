(** ADCIRC mesh files: the whole round trip. *)
From Coq Require Import String Reals ZArith NArith List Bool Lia Lra.
From Verif Require Import Outcome ModelStream ModelMeta ModelFort SpecMeta SpecFort LemmasRound LemmasStream LemmasMeta LemmasDbmd LemmasFort.
Import ListNotations.
Local Open Scope N_scope.

Definition reread_fort (f : fort) : fort :=
  Fort (ft_name f) (reread_nodes (ft_nodes f)) (ft_elements f) (ft_neta f) (ft_open f) (ft_nvel f) (map reread_land (ft_land f)) (ft_generic f).

Ltac label := split; [reflexivity|split; [repeat constructor; discriminate|cbn; lia]].
Lemma label_open : label_ok (lit " = Number of nodes for open boundary "). Proof. label. Qed.
Lemma label_gen : label_ok (lit " = Number of nodes for generic boundary "). Proof. label. Qed.
Lemma label_1 : label_ok (lit " = Number of open boundaries"). Proof. label. Qed.
Lemma label_2 : label_ok (lit " = Total number of open boundary nodes"). Proof. label. Qed.
Lemma label_3 : label_ok (lit " = Number of land Boundaries"). Proof. label. Qed.
Lemma label_4 : label_ok (lit " = Number of generic boundaries"). Proof. label. Qed.
Lemma label_5 : label_ok (lit " = Total number of generic boundary nodes"). Proof. label. Qed.

Lemma count_label : forall n label r, label_ok (lit label) -> n < 4294967296 -> read_count (open (dec n ++ lit label ++ newline :: r)) = (open r, Some n).
Proof.
  intros n label r (H1 & H2 & H3) Hn. apply read_count_ok; [exact Hn| |exact H2|lia]. destruct (lit label); [contradiction|exact H1].
Qed.
Lemma nonblank_dec : forall n r, existsb (fun c => negb (c =? blank)) (dec n ++ r) = true.
Proof.
  intros n r. destruct (dec_cons n) as (c & t & E). pose proof (dec_digits n) as D. rewrite E in D. apply Forall_inv in D. rewrite E. cbn [app existsb].
  apply digit_range in D. replace (c =? blank) with false; [reflexivity|]. symmetry. apply N.eqb_neq. unfold blank. lia.
Qed.
Lemma generic_ok : forall total lists, total < 4294967296 -> short lists -> Forall ids_list lists ->
  read_generic (open (dec (N.of_nat (List.length lists)) ++ lit " = Number of generic boundaries" ++ newline ::
    dec total ++ lit " = Total number of generic boundary nodes" ++ newline ::
    flat_map (print_list " = Number of nodes for generic boundary ") (numbered lists))) = Ok (Some (Generic (Some total) lists)).
Proof.
  intros total lists Ht Hs Hl. unfold read_generic. rewrite (app_assoc (dec _) (lit _)). rewrite getline_ok.
  2: { apply Forall_app. split; [apply dec_no_newline|]. repeat constructor. }
  cbn [keep]. rewrite nonblank_dec. rewrite read_uint_first by (exact Hs || discriminate || reflexivity).
  fold (open (dec total ++ lit " = Total number of generic boundary nodes" ++ newline :: flat_map (print_list " = Number of nodes for generic boundary ") (numbered lists))).
  rewrite count_label by (exact label_5 || exact Ht). cbn [of_index bind]. rewrite Nat2N.id. unfold numbered.
  rewrite <- (List.app_nil_r (flat_map _ _)). rewrite read_lists_ok by (exact label_gen || exact Hl). reflexivity.
Qed.

Lemma spaces4 : forall n r, n < 4294967296 -> read_count (open (lit "    " ++ dec n ++ newline :: r)) = (open r, Some n).
Proof.
  intros n r Hn. unfold read_count. rewrite read_uint_dec'; [rewrite skip_line_end; reflexivity|repeat constructor|exact Hn|discriminate|reflexivity].
Qed.

Theorem fort_round_trip : forall f, fort_ok f -> exists t, write_fort f = Ok t /\ read_fort t = Ok (reread_fort f).
Proof.
  intros f ((Nn & Nw) & _ & (Dn & Un & Ln) & Hp & (De & Ue & Le) & He & (neta & En & Hneta) & So & Ho & (nvel & Ev & Hnvel) & Sl & Hl & g & Eg & (nngn & Et & Hnngn) & Sg & Hg).
  unfold write_fort. rewrite En, Ev, Eg. cbn [print_member of_index bind]. rewrite Et. cbn [print_member of_index bind]. eexists. split; [reflexivity|].
  unfold print_total. repeat (rewrite <- !app_assoc; cbn [app]).
  unfold read_fort. rewrite read_word_plain by (assumption || reflexivity). rewrite skip_line_end. rewrite read_uint_first by (assumption || discriminate || reflexivity).
  rewrite spaces4 by exact Ln. cbn [of_index bind]. rewrite !Nat2N.id.
  match goal with |- context [flat_map print_node (ft_nodes f) ++ ?rest] =>
    destruct (read_nodes_ok (ft_nodes f) (seq 0 (List.length (ft_nodes f))) rest (None, (None, None, None)) [] (seq_length _ _) Dn Un Hp) as [v1 E1] end.
  match type of E1 with ?a = _ => match goal with |- context [bind ?b _] => change b with a end end. rewrite E1. clear E1. cbn [bind app].
  match goal with |- context [flat_map print_element (ft_elements f) ++ ?rest] =>
    destruct (read_elements_ok (ft_elements f) (seq 0 (List.length (ft_elements f))) rest (None, (None, None, None, None)) [] (seq_length _ _) De Ue He) as [v2 E2] end.
  match type of E2 with ?a = _ => match goal with |- context [bind ?b _] => change b with a end end. rewrite E2. clear E2. cbn [bind app].
  rewrite count_label by (exact label_1 || exact So). rewrite count_label by (exact label_2 || exact Hneta). cbn [of_index bind]. rewrite Nat2N.id.
  unfold numbered at 1. rewrite read_lists_ok by (exact label_open || exact Ho). cbn [bind].
  rewrite count_label by (exact label_3 || exact Sl). rewrite count_label by (exact label_2 || exact Hnvel). cbn [of_index bind]. rewrite Nat2N.id.
  unfold numbered at 1. rewrite read_lands_ok by exact Hl. cbn [bind].
  rewrite generic_ok by assumption. cbn [bind keep]. unfold reread_fort. rewrite En, Ev, Eg. do 3 f_equal. destruct g as [tt ll]. cbn [gn_total gn_lists] in *. rewrite Et. reflexivity.
Qed.

Lemma reread_15 : forall d, fifteen_digits d -> reread d = d.
Proof. intros d (neg & m & k & Hm & ->). apply reread_digits. exact Hm. Qed.
Theorem fort_exact : forall f, fort_ok f -> Forall (fun n => coordinates_15 (snd n)) (ft_nodes f) -> Forall (bars_all fifteen_digits) (ft_land f) ->
  exists t, write_fort f = Ok t /\ read_fort t = Ok f.
Proof.
  intros f H Hn Hb. destruct (fort_round_trip f H) as (t & E1 & E2). exists t. split; [exact E1|]. rewrite E2. f_equal. unfold reread_fort. rewrite reread_points_15 by exact Hn.
  replace (map reread_land (ft_land f)) with (ft_land f); [destruct f; reflexivity|]. symmetry. induction Hb as [|a l Ha Hl IH]; [reflexivity|]. cbn [map]. rewrite IH. f_equal.
  destruct a as [t' ns|t' bs]; [reflexivity|]. cbn [reread_land]. f_equal. cbn [bars_all] in Ha. clear - Ha. induction Ha as [|b l (A & B & D) Hl IH]; [reflexivity|]. cbn [map]. rewrite IH. f_equal.
  destruct b as [fr bk hh sb sp]; unfold reread_bar; cbn [b_front b_back b_height b_sub b_super] in *. rewrite !reread_15 by assumption. reflexivity.
Qed.
Theorem fort_close : forall f, fort_ok f -> Forall (bars_all normal) (ft_land f) ->
  exists t f', write_fort f = Ok t /\ read_fort t = Ok f' /\ close_fort f' f.
Proof.
  intros f H Hb. destruct (fort_round_trip f H) as (t & E1 & E2). exists t, (reread_fort f). split; [exact E1|]. split; [exact E2|]. destruct H as (_ & _ & _ & Hp & _).
  unfold close_fort, reread_fort. cbn [ft_name ft_nodes ft_elements ft_neta ft_open ft_nvel ft_land ft_generic]. repeat (split; [reflexivity||shelve|]). reflexivity.
  Unshelve.
  - clear - Hp. unfold reread_nodes. induction Hp as [|[k [[x y] z]] l ((Hx & _) & (Hy & _) & Hz & _) Hl IH]; constructor; [|exact IH]. cbn [fst snd reread_point close_points]. auto using reread_close.
  - clear - Hb. induction Hb as [|a l Ha Hl IH]; constructor; [|exact IH]. destruct a as [t ns|t bs]; [split; reflexivity|]. split; [reflexivity|]. cbn [bars_all] in Ha. clear - Ha.
    induction Ha as [|b l (A & B & D) Hl IH]; constructor; [|exact IH]. destruct b as [fr bk hh sb sp]. cbn [b_height b_sub b_super] in A, B, D. unfold close_bar, reread_bar. cbn [b_front b_back b_height b_sub b_super]. auto 6 using reread_close.
Qed.
(** Once written and read, writing and reading changes nothing more. *)
Lemma fifteen_reread_points : forall l, Forall (fun n => coordinates_15 (snd n)) (reread_nodes l).
Proof. intros l. apply Forall_forall. intros n H. unfold reread_nodes in H. apply in_map_iff in H. destruct H as ([k [[x y] z]] & <- & _). cbn [snd reread_point coordinates_15]. auto using reread_fifteen. Qed.

(** Mesh metadata: the round trip. *)
From Coq Require Import String Reals ZArith NArith List Bool Lia Lra.
From Verif Require Import Outcome ModelStream ModelMeta SpecMeta LemmasRound LemmasStream.
Import ListNotations.
Local Open Scope N_scope.

Lemma uint_ok : forall n, n < 4294967296 -> n <= uint_max.
Proof. intros n H. unfold uint_max. lia. Qed.
Lemma blank_one : blanks [blank]. Proof. repeat constructor. Qed.
Lemma blanks_nil : blanks []. Proof. constructor. Qed.

Lemma read_uint_dec' : forall w n t, blanks w -> n < 4294967296 -> t <> [] -> ends_number t -> read_uint (open (w ++ dec n ++ t)) = (open t, Some n).
Proof. intros w n [|c t] Hw Hn Ht He; [contradiction|]. apply read_uint_dec; [exact Hw|apply uint_ok; exact Hn|exact He]. Qed.

Definition line_tail (r : text) : text := newline :: r.
Lemma blanks_list_end : forall l r, r <> [] -> ends_number r -> flat_map (fun i => blank :: dec i) l ++ r <> [] /\ ends_number (flat_map (fun i => blank :: dec i) l ++ r).
Proof. intros [|x l] r H He; cbn [flat_map app]; [split; assumption|split; [discriminate|reflexivity]]. Qed.

Lemma read_all_uints : forall l old r, length old = length l -> uints l -> r <> [] -> ends_number r ->
  read_all read_uint (open (flat_map (fun i => blank :: dec i) l ++ r)) old = (open r, l).
Proof.
  induction l as [|x l IH]; intros [|o old] r HL HU Hr He; try discriminate; [reflexivity|].
  cbn [flat_map read_all]. inversion HU as [|? ? Hx HU']; subst. cbn [app]; rewrite <- ?app_assoc. destruct (blanks_list_end l r Hr He) as [A B].
  change (blank :: dec x ++ flat_map (fun i => blank :: dec i) l ++ r) with ([blank] ++ dec x ++ flat_map (fun i => blank :: dec i) l ++ r).
  rewrite read_uint_dec'; [|exact blank_one|exact Hx|exact A|exact B]. rewrite IH; [reflexivity|cbn in HL; lia|exact HU'|exact Hr|exact He].
Qed.
Lemma read_all_bytes : forall l old r, length old = length l -> Forall (fun c => c < 256 /\ is_space c = false) l ->
  read_all read_byte (open (flat_map (fun c => [blank; c]) l ++ r)) old = (open r, l).
Proof.
  induction l as [|x l IH]; intros [|o old] r HL HU; try discriminate; [reflexivity|].
  cbn [flat_map read_all app]. inversion HU as [|? ? [_ Hx] HU']; subst.
  change (blank :: x :: flat_map (fun c => [blank; c]) l ++ r) with ([blank] ++ x :: flat_map (fun c => [blank; c]) l ++ r).
  rewrite read_byte_ok; [|exact blank_one|exact Hx]. rewrite IH; [reflexivity|cbn in HL; lia|exact HU'].
Qed.
Lemma resize_nil : forall n, length (resize n []) = N.to_nat n.
Proof. intros n. unfold resize. rewrite firstn_nil. cbn [app length]. rewrite repeat_length. lia. Qed.

Lemma types_end : forall l r, r <> [] -> ends_number r -> flat_map (fun c : N => [blank; c]) l ++ r <> [] /\ ends_number (flat_map (fun c : N => [blank; c]) l ++ r).
Proof. intros [|x l] r H He; cbn [flat_map app]; [split; assumption|split; [discriminate|reflexivity]]. Qed.
Lemma read_elem_ok : forall e r, elem_ok e -> r <> [] -> ends_number r ->
  read_elem (open ([blank] ++ print_elem e ++ r)) (Elem [] [] []) = Ok (open r, e).
Proof.
  intros e r (H1 & H2 & H3 & H4 & H5 & H6) Hr He. unfold read_elem, print_elem. rewrite <- !app_assoc.
  destruct (types_end (e_types e) r Hr He) as [A1 B1]. destruct (blanks_list_end (e_neighbours e) _ A1 B1) as [A2 B2]. destruct (blanks_list_end (e_nodes e) _ A2 B2) as [A3 B3].
  rewrite read_uint_dec'; [|exact blank_one|exact H3|exact A3|exact B3]. cbn [of_index bind e_nodes e_neighbours e_types].
  rewrite read_all_uints; [|rewrite resize_nil; lia|exact H4|exact A2|exact B2].
  rewrite read_all_uints; [|rewrite resize_nil; lia|exact H5|exact A1|exact B1].
  rewrite read_all_bytes; [|rewrite resize_nil; lia|exact H6]. destruct e; reflexivity.
Qed.

Lemma skip_line_end : forall r, skip_line (open (newline :: r)) = open r.
Proof. intros r. apply (skip_line_ok [] r); [constructor|cbn; lia]. Qed.

Definition fill {A : Type} (t : table A) (l : list (N * A)) : table A := fold_left (fun t e => tset t (fst e) (snd e)) l t.
Lemma fill_other : forall (A : Type) (l : list (N * A)) t k, ~ In k (map fst l) -> fill t l k = t k.
Proof.
  intros A. induction l as [|[i v] l IH]; intros t k H; [reflexivity|]. cbn [fill fold_left fst snd]. change (fill (tset t i v) l k = t k). cbn [map fst In] in H.
  rewrite IH by tauto. unfold tset. destruct (k =? i) eqn:E; [apply N.eqb_eq in E; subst; tauto|reflexivity].
Qed.
Lemma fill_in : forall (A : Type) (l : list (N * A)) t k v, NoDup (map fst l) -> In (k, v) l -> fill t l k = Some v.
Proof.
  intros A. induction l as [|[i w] l IH]; intros t k v Hd H; [destruct H|]. cbn [map fst] in Hd. inversion Hd as [|? ? Hn Hd']; subst. change (fill (tset t i w) l k = Some v). destruct H as [E|H].
  - injection E as -> ->. rewrite fill_other by exact Hn. unfold tset. rewrite N.eqb_refl. reflexivity.
  - apply IH; assumption.
Qed.
Lemma fill_tabulates : forall (A : Type) (l : list (N * A)), NoDup (map fst l) -> tabulates (fill (fun _ => None) l) l.
Proof. intros A l H. split; [intros k v Hin; apply fill_in; assumption|intros k Hk; apply fill_other; exact Hk]. Qed.

Definition elem_lines (l : list (N * elem)) : text := flat_map (fun e => dec (fst e) ++ [blank] ++ print_elem (snd e) ++ [newline]) l.
Lemma read_elems : forall l steps r id t, length steps = length l -> NoDup (map fst l) -> uints (map fst l) -> Forall (fun e => elem_ok (snd e)) l ->
  (forall k, In k (map fst l) -> t k = None) ->
  exists id', ofold read_elem_line steps (open (elem_lines l ++ r), id, t) = Ok (open r, id', fill t l).
Proof.
  induction l as [|[k e] l IH]; intros [|s steps] r id t HL Hd Hu Hok Ht; try discriminate; [exists id; reflexivity|].
  cbn [map fst] in Hd, Hu, Ht. inversion Hd as [|? ? Hn Hd']; subst. inversion Hu as [|? ? Hk Hu']; subst. inversion Hok as [|? ? He Hok']; subst. cbn [snd] in He.
  cbn [ofold]. assert (St : read_elem_line (open (elem_lines ((k, e) :: l) ++ r), id, t) s = Ok (open (elem_lines l ++ r), Some k, tset t k e)).
  { unfold read_elem_line, elem_lines. cbn [flat_map fst snd]. rewrite <- !app_assoc. change (dec k ++ ?x) with ([] ++ dec k ++ x).
    match goal with |- context [read_uint (open ([] ++ dec k ++ ?x))] => rewrite (read_uint_dec' [] k x blanks_nil Hk ltac:(discriminate) ltac:(reflexivity)) end.
    cbn [store of_index bind]. rewrite (Ht k) by (left; reflexivity). cbn [keep]. 
    match goal with |- context [open ([blank] ++ print_elem e ++ ?x)] => rewrite (read_elem_ok e x He ltac:(discriminate) ltac:(reflexivity)) end.
    cbn [bind fst snd app]. rewrite skip_line_end. reflexivity. }
  rewrite St. cbn [bind]. destruct (IH steps r (Some k) (tset t k e)) as [id' E]; [cbn in HL; lia|assumption..| |].
  - intros k' Hk'. unfold tset. destruct (k' =? k) eqn:Q; [apply N.eqb_eq in Q; subst; contradiction|]. apply Ht. right. exact Hk'.
  - exists id'. exact E.
Qed.

Definition reread_point (p : point3) : point3 := let '(x, y, z) := p in (reread x, reread y, reread z).
Lemma read_point_ok : forall p old r, read_point (open ([blank] ++ print_point p ++ newline :: r)) old = (open (newline :: r), reread_point p).
Proof.
  intros [[x y] z] [[a b] c] r. unfold read_point, print_point, reread_point. rewrite <- !app_assoc.
  rewrite read_double_print; [|exact blank_one|repeat split; discriminate|exact I].
  rewrite read_double_print; [|exact blank_one|repeat split; discriminate|exact I].
  rewrite read_double_print; [|exact blank_one|repeat split; discriminate|exact I]. reflexivity.
Qed.
Definition node_lines (l : list (N * point3)) : text := flat_map (fun n => dec (fst n) ++ [blank] ++ print_point (snd n) ++ [newline]) l.
Definition reread_nodes (l : list (N * point3)) : list (N * point3) := map (fun n => (fst n, reread_point (snd n))) l.
Lemma read_nodes : forall l steps r id t, length steps = length l -> uints (map fst l) ->
  exists id', ofold read_node_line steps (open (node_lines l ++ r), id, t) = Ok (open r, id', fill t (reread_nodes l)).
Proof.
  induction l as [|[k p] l IH]; intros [|s steps] r id t HL Hu; try discriminate; [exists id; reflexivity|].
  cbn [map fst] in Hu. inversion Hu as [|? ? Hk Hu']; subst.
  cbn [ofold]. assert (St : read_node_line (open (node_lines ((k, p) :: l) ++ r), id, t) s = Ok (open (node_lines l ++ r), Some k, tset t k (reread_point p))).
  { unfold read_node_line, node_lines. cbn [flat_map fst snd]. rewrite <- !app_assoc. change (dec k ++ ?x) with ([] ++ dec k ++ x).
    match goal with |- context [read_uint (open ([] ++ dec k ++ ?x))] => rewrite (read_uint_dec' [] k x blanks_nil Hk ltac:(discriminate) ltac:(reflexivity)) end.
    cbn [store of_index bind]. change ([newline] ++ ?x) with (newline :: x). rewrite (read_point_ok p). rewrite skip_line_end. reflexivity. }
  rewrite St. cbn [bind]. apply (IH steps r (Some k)); [cbn in HL; lia|assumption].
Qed.

Lemma count_line : forall n (label r : text), n < 4294967296 -> match label with c :: _ => is_digit c = false | [] => False end ->
  Forall (fun c => c <> newline) label -> (length label < 1000)%nat ->
  exists s, read_uint (open (dec n ++ label ++ newline :: r)) = (s, Some n) /\ skip_line s = open r.
Proof.
  intros n label r Hn Hl Hf Hlen. destruct label as [|c label]; [contradiction|]. exists (open ((c :: label) ++ newline :: r)). split.
  - apply (read_uint_dec' []); [constructor|exact Hn|discriminate|exact Hl].
  - apply skip_line_ok; assumption.
Qed.
Lemma label_elements : match lit " = number of elements" with c :: _ => is_digit c = false | [] => False end /\
  Forall (fun c => c <> newline) (lit " = number of elements") /\ (length (lit " = number of elements") < 1000)%nat.
Proof. split; [reflexivity|]. split; [repeat constructor; discriminate|cbn; lia]. Qed.
Lemma label_nodes : match lit " = number of nodes" with c :: _ => is_digit c = false | [] => False end /\
  Forall (fun c => c <> newline) (lit " = number of nodes") /\ (length (lit " = number of nodes") < 1000)%nat.
Proof. split; [reflexivity|]. split; [repeat constructor; discriminate|cbn; lia]. Qed.

Lemma read_word_plain : forall a c r, a <> [] -> Forall (fun c => is_space c = false) a -> is_space c = true -> read_word (open (a ++ c :: r)) = (open (c :: r), Some a).
Proof. intros. exact (read_word_ok [] a c r blanks_nil H H0 H1). Qed.
(** After the name line. *)
Lemma read_body : forall m s, writable m ->
  s = open (dec (N.of_nat (length (md_elements m))) ++ lit " = number of elements" ++ newline :: elem_lines (md_elements m) ++
        dec (N.of_nat (length (md_nodes m))) ++ lit " = number of nodes" ++ newline :: node_lines (md_nodes m)) ->
  exists els nodes, tabulates els (md_elements m) /\ tabulates nodes (reread_nodes (md_nodes m)) /\
    els = fill (fun _ => None) (md_elements m) /\ nodes = fill (fun _ => None) (reread_nodes (md_nodes m)) /\
    forall name : text, (let (s2, n) := read_uint s in
      do n <- of_index n ;
      do r1 <- ofold read_elem_line (seq 0 (N.to_nat n)) (skip_line s2, None, fun _ => None) ;
      let '(s3, _, els) := r1 in
      let (s4, k) := read_uint s3 in
      do k <- of_index k ;
      do r2 <- ofold read_node_line (seq 0 (N.to_nat k)) (skip_line s4, None, fun _ => None) ;
      let '(_, _, nodes) := r2 in
      Ok (name, els, nodes)) = Ok (name, els, nodes).
Proof.
  intros m s ((D1 & U1 & L1) & (D2 & U2 & L2) & Hok) ->. exists (fill (fun _ => None) (md_elements m)), (fill (fun _ => None) (reread_nodes (md_nodes m))).
  split; [apply fill_tabulates; exact D1|]. split. { apply fill_tabulates. unfold reread_nodes. rewrite map_map. exact D2. }
  split; [reflexivity|]. split; [reflexivity|]. intros name. destruct label_elements as (A1 & A2 & A3). destruct label_nodes as (B1 & B2 & B3).
  match goal with |- context [lit " = number of elements" ++ newline :: ?x] => destruct (count_line (N.of_nat (length (md_elements m))) (lit " = number of elements") x L1 A1 A2 A3) as (s2 & E2 & K2) end.
  rewrite E2. cbn [of_index bind]. rewrite K2. rewrite Nat2N.id.
  destruct (read_elems (md_elements m) (seq 0 (length (md_elements m))) (dec (N.of_nat (length (md_nodes m))) ++ lit " = number of nodes" ++ newline :: node_lines (md_nodes m)) None (fun _ => None)) as [id1 R1];
    [apply seq_length|assumption..|reflexivity|]. rewrite R1. cbn [bind].
  destruct (count_line (N.of_nat (length (md_nodes m))) (lit " = number of nodes") (node_lines (md_nodes m)) L2 B1 B2 B3) as (s4 & E4 & K4). rewrite E4. cbn [of_index bind]. rewrite K4, Nat2N.id.
  destruct (read_nodes (md_nodes m) (seq 0 (length (md_nodes m))) [] None (fun _ => None)) as [id2 R2]; [apply seq_length|assumption|]. rewrite app_nil_r in R2.
  match type of R2 with ?l = _ => match goal with |- context [ofold read_node_line ?a ?b] => change (ofold read_node_line a b) with l end end. rewrite R2. reflexivity.
Qed.

Lemma write_meta_eq : forall m, write_meta m = md_name m ++ newline :: (dec (N.of_nat (length (md_elements m))) ++ lit " = number of elements" ++ newline :: elem_lines (md_elements m) ++
  dec (N.of_nat (length (md_nodes m))) ++ lit " = number of nodes" ++ newline :: node_lines (md_nodes m)).
Proof. intros m. unfold write_meta, elem_lines, node_lines. repeat (cbn [app]; rewrite <- ?app_assoc). reflexivity. Qed.

Lemma meta_round_trip : forall m, word (md_name m) -> writable m ->
  exists els nodes, read_meta (write_meta m) = Ok (md_name m, els, nodes) /\ tabulates els (md_elements m) /\ tabulates nodes (reread_nodes (md_nodes m)).
Proof.
  intros m [Hn Hw] Hok. destruct (read_body m _ Hok eq_refl) as (els & nodes & T1 & T2 & _ & _ & E). exists els, nodes. split; [|split; assumption].
  unfold read_meta. rewrite write_meta_eq. rewrite (read_word_plain (md_name m) newline _ Hn Hw eq_refl). cbn [keep]. rewrite skip_line_end. apply E.
Qed.
(** A name of several words loses all but the first (if the rest is short enough). *)
Lemma meta_name_cut : forall m first c rest, word first -> is_space c = true -> c <> newline -> Forall (fun c => c <> newline) rest -> (length rest < 999)%nat ->
  md_name m = first ++ c :: rest -> writable m ->
  exists els nodes, read_meta (write_meta m) = Ok (first, els, nodes) /\ tabulates els (md_elements m) /\ tabulates nodes (reread_nodes (md_nodes m)).
Proof.
  intros m first c rest [Hn Hw] Hc Hcn Hr Hl Hname Hok. destruct (read_body m _ Hok eq_refl) as (els & nodes & T1 & T2 & _ & _ & E). exists els, nodes. split; [|split; assumption].
  unfold read_meta. rewrite write_meta_eq, Hname. rewrite <- app_assoc, <- app_comm_cons. rewrite (read_word_plain first c _ Hn Hw Hc). cbn [keep].
  rewrite app_comm_cons. rewrite (skip_line_ok (c :: rest)); [apply E|constructor; assumption|cbn; lia].
Qed.
Lemma reread_points_15 : forall l, Forall (fun n => coordinates_15 (snd n)) l -> reread_nodes l = l.
Proof.
  intros l H. unfold reread_nodes. induction H as [|[k [[x y] z]] l Hx Hl IH]; [reflexivity|]. cbn [map fst snd]. rewrite IH. do 2 f_equal. destruct Hx as ((n1 & m1 & k1 & H1 & ->) & (n2 & m2 & k2 & H2 & ->) & n3 & m3 & k3 & H3 & ->).
  cbn [reread_point snd]. rewrite !reread_digits by assumption. reflexivity.
Qed.

(** ** How far off a coordinate can be *)
Local Open Scope R_scope.
Lemma double_value_nr : forall d, double_value d = (if d_neg d then -1 else 1) * (nr (d_man d) * pw 2 (d_exp d)).
Proof. reflexivity. Qed.
Lemma reread_close : forall d, normal d -> close (reread d) d.
Proof.
  intros d Hd. unfold close, reread. destruct (d_man d =? 0)%N eqn:Ez.
  - apply N.eqb_eq in Ez. unfold double_value. cbn [d_man d_neg d_exp]. rewrite Ez. cbn [Z.of_N]. rewrite !Rmult_0_l, !Rmult_0_r, Rminus_0_r, Rabs_R0. lra.
  - apply N.eqb_neq in Ez. destruct Hd as [[Hd _]|Hd]; [contradiction|]. destruct (frac_pos 2 (d_man d) (d_exp d) two ltac:(lia)) as [A B].
    pose proof (round_to_canonical 10 15 ten eq_refl _ _ A B) as C1. pose proof (round_to_error 10 15 ten eq_refl _ _ A B) as E1. rewrite frac_value in E1 by exact two.
    destruct (round_to 10 15 (fst (frac (d_man d) 2 (d_exp d))) (snd (frac (d_man d) 2 (d_exp d)))) as [m k]. unfold canonical in C1. unfold real in E1. cbn [fst snd] in C1, E1.
    change (10 ^ (15 - 1))%N with 100000000000000%N in C1. destruct C1 as [C1 _]. assert (M0 : m <> 0%N) by lia.
    destruct (frac_pos 10 m k ten ltac:(lia)) as [A' B']. pose proof (round_to_canonical 2 53 two eq_refl _ _ A' B') as C2. pose proof (round_to_error 2 53 two eq_refl _ _ A' B') as E2. rewrite frac_value in E2 by exact ten.
    unfold to_double. replace (m =? 0)%N with false by (symmetry; apply N.eqb_neq; exact M0). destruct (frac m 10 k) as [a b]. cbn [fst snd] in *. destruct (round_to 2 53 a b) as [n e]. unfold canonical in C2. unfold real in E2. cbn [fst snd] in C2, E2.
    change (2 ^ (53 - 1))%N with 4503599627370496%N in C2. destruct C2 as [C2 _]. rewrite !double_value_nr. cbn [d_neg d_man d_exp].
    set (x := nr (d_man d) * pw 2 (d_exp d)) in *. set (y := nr m * pw 10 k) in *. set (w := nr n * pw 2 e) in *.
    pose proof (pw_pos 2 two (d_exp d)) as P1. pose proof (pw_pos 10 ten k) as P2. pose proof (pw_pos 2 two e) as P3. pose proof (nr_pos (d_man d) ltac:(lia)) as Q1.
    assert (X0 : 0 < x) by (unfold x; apply Rmult_lt_0_compat; assumption).
    apply nr_le in C1, C2. change (nr 100000000000000) with 100000000000000 in C1. change (nr 4503599627370496) with 4503599627370496 in C2.
    assert (Y1 : 100000000000000 * pw 10 k <= y) by (unfold y; apply Rmult_le_compat_r; lra). assert (W1 : 4503599627370496 * pw 2 e <= w) by (unfold w; apply Rmult_le_compat_r; lra).
    assert (F : Rabs (w - x) <= / 100000000000000 * x).
    { apply Rabs_le. assert (G1 : - (/ 2 * pw 10 k) <= x - y <= / 2 * pw 10 k) by (split; [pose proof (Rle_abs (- (x - y))) as Z; rewrite Rabs_Ropp in Z; lra|pose proof (Rle_abs (x - y)); lra]).
      assert (G2 : - (/ 2 * pw 2 e) <= y - w <= / 2 * pw 2 e) by (split; [pose proof (Rle_abs (- (y - w))) as Z; rewrite Rabs_Ropp in Z; lra|pose proof (Rle_abs (y - w)); lra]). lra. }
    assert (S1 : Rabs (if d_neg d then -1 else 1) = 1) by (destruct (d_neg d); [rewrite Rabs_left; lra|apply Rabs_R1]).
    rewrite <- Rmult_minus_distr_l, !Rabs_mult, S1, !Rmult_1_l, (Rabs_pos_eq x) by lra. exact F.
Qed.
Lemma reread_points_close : forall l, Forall (fun n => let '(x, y, z) := snd n in normal x /\ normal y /\ normal z) l ->
  forall k p, In (k, p) l -> In (k, reread_point p) (reread_nodes l) /\ close_points (reread_point p) p.
Proof.
  intros l H k p Hin. split; [unfold reread_nodes; apply (in_map (fun n => (fst n, reread_point (snd n))) l (k, p)); exact Hin|].
  rewrite Forall_forall in H. specialize (H _ Hin). cbn [snd] in H. destruct p as [[x y] z]. destruct H as (A & B & D). cbn [reread_point close_points]. auto using reread_close.
Qed.

Local Open Scope N_scope.
Lemma meta_round_trip_close : forall m, word (md_name m) -> writable m ->
  Forall (fun n => let '(x, y, z) := snd n in normal x /\ normal y /\ normal z) (md_nodes m) ->
  exists els nodes, read_meta (write_meta m) = Ok (md_name m, els, nodes) /\ tabulates els (md_elements m) /\
    (forall k p, In (k, p) (md_nodes m) -> exists q, nodes k = Some q /\ close_points q p) /\
    (forall k, ~ In k (map fst (md_nodes m)) -> nodes k = None).
Proof.
  intros m Hw Hok Hn. destruct (meta_round_trip m Hw Hok) as (els & nodes & E & T1 & T2 & T3). exists els, nodes. split; [exact E|]. split; [exact T1|]. split.
  - intros k p Hin. destruct (reread_points_close _ Hn k p Hin) as [A B]. exists (reread_point p). split; [apply T2; exact A|exact B].
  - intros k Hk. apply T3. unfold reread_nodes. rewrite map_map. exact Hk.
Qed.
Lemma meta_round_trip_exact : forall m, word (md_name m) -> writable m -> Forall (fun n => coordinates_15 (snd n)) (md_nodes m) ->
  exists els nodes, read_meta (write_meta m) = Ok (md_name m, els, nodes) /\ tabulates els (md_elements m) /\ tabulates nodes (md_nodes m).
Proof. intros m Hw Hok Hn. destruct (meta_round_trip m Hw Hok) as (els & nodes & E & T1 & T2). exists els, nodes. rewrite reread_points_15 in T2 by exact Hn. auto. Qed.
Lemma reread_fifteen : forall d, fifteen_digits (reread d).
Proof.
  intros d. unfold reread, fifteen_digits. destruct (d_man d =? 0) eqn:Ez; [exists (d_neg d), 0, 0%Z; split; reflexivity|]. apply N.eqb_neq in Ez.
  destruct (frac_pos 2 (d_man d) (d_exp d) two ltac:(lia)) as [A B]. pose proof (round_to_canonical 10 15 ten eq_refl _ _ A B) as C1.
  destruct (round_to 10 15 _ _) as [m k]. exists (d_neg d), m, k. split; [apply C1|reflexivity].
Qed.
Lemma read_meta_fill : forall m, word (md_name m) -> writable m ->
  read_meta (write_meta m) = Ok (md_name m, fill (fun _ => None) (md_elements m), fill (fun _ => None) (reread_nodes (md_nodes m))).
Proof.
  intros m [Hn Hw] Hok. destruct (read_body m _ Hok eq_refl) as (els & nodes & _ & _ & -> & -> & E).
  unfold read_meta. rewrite write_meta_eq. rewrite (read_word_plain (md_name m) newline _ Hn Hw eq_refl). cbn [keep]. rewrite skip_line_end. apply E.
Qed.
Lemma reread_nodes_fst : forall l, map fst (reread_nodes l) = map fst l.
Proof. intros l. unfold reread_nodes. rewrite map_map. reflexivity. Qed.
Lemma meta_stable : forall m els nodes, word (md_name m) -> writable m -> read_meta (write_meta m) = Ok (md_name m, els, nodes) ->
  exists again, read_meta (write_meta (Metadata (md_name m) (md_elements m) again)) = Ok (md_name m, els, nodes) /\ tabulates nodes again.
Proof.
  intros m els nodes Hw Hok E. rewrite read_meta_fill in E by assumption. injection E as <- <-. assert (Hok' := Hok). destruct Hok' as (W1 & (D2 & U2 & L2) & W3).
  exists (reread_nodes (md_nodes m)). split; [|apply fill_tabulates; rewrite reread_nodes_fst; exact D2].
  rewrite read_meta_fill; [|exact Hw|]; cbn [md_name md_elements md_nodes].
  - rewrite (reread_points_15 (reread_nodes (md_nodes m))); [reflexivity|]. unfold reread_nodes. apply Forall_map, Forall_forall. intros [k [[x y] z]] _. cbn. auto using reread_fifteen.
  - split; [exact W1|]. split; [|exact W3]. cbn [md_nodes]. unfold entries. rewrite reread_nodes_fst. unfold reread_nodes. rewrite map_length. auto.
Qed.

(** A first line without a number: the stream fails and stays failed. *)
Lemma meta_bad_count : forall name c r, word name -> is_space c = false -> is_digit c = false -> c <> 43 -> c <> 45 -> read_meta (name ++ newline :: c :: r) = UB.
Proof.
  intros name c r [Nn Nw] Hs Hd H1 H2. unfold read_meta. rewrite read_word_plain by (try assumption; reflexivity). rewrite skip_line_end.
  assert (E : read_uint (open (c :: r)) = (Stream (c :: r) false true, Some 0)).
  { unfold read_uint. change (c :: r) with ([] ++ c :: r) at 1. rewrite (sentry_ok [] c r blanks_nil Hs). cbn [open s_rest]. unfold sign. rewrite (proj2 (N.eqb_neq c 45) H2), (proj2 (N.eqb_neq c 43) H1). cbn [span]. rewrite Hd. reflexivity. }
  rewrite E. reflexivity.
Qed.

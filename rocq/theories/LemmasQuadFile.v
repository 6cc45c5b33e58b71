(** The generator's file as the solver reads it. *)
From Coq Require Import String Reals ZArith NArith List Bool Lia Lra.
From Verif Require Import Outcome ModelStream ModelMeta ModelMesh ModelQuad ModelFort ModelQuadFile SpecMeta SpecFort LemmasRound LemmasStream LemmasMeta LemmasDbmd LemmasFort LemmasFort2 LemmasQuad.
Import ListNotations.
Local Open Scope N_scope.

(** ** Twelve decimals *)
Definition scaled12 (d : double) : N := nearest (fst (frac (d_man d) 2 (d_exp d)) * 10 ^ 12) (snd (frac (d_man d) 2 (d_exp d))).
Definition refixed (d : double) : double := to_double (d_neg d) (scaled12 d) (-12).
Lemma print_fixed_eq : forall d, print_fixed d =
  numeral (d_neg d) (dec (scaled12 d / 10 ^ 12)) (repeat 48 (12 - List.length (dec (scaled12 d mod 10 ^ 12))) ++ dec (scaled12 d mod 10 ^ 12)).
Proof.
  intros d. unfold print_fixed, scaled12, numeral. destruct (frac (d_man d) 2 (d_exp d)) as [a b]. cbn [fst snd]. set (n := nearest _ _). do 2 f_equal.
  destruct (dec_cons (n mod 10 ^ 12)) as (c & t & ->). destruct (repeat 48 _); reflexivity.
Qed.
Lemma pad_digits : forall n, n < 10 ^ 12 -> all_digits (repeat 48 (12 - List.length (dec n)) ++ dec n) /\
  List.length (repeat 48 (12 - List.length (dec n)) ++ dec n) = 12%nat /\ value (repeat 48 (12 - List.length (dec n)) ++ dec n) = n.
Proof.
  intros n H. assert (L : (List.length (dec n) <= 12)%nat) by (apply digits_short; exact H). split; [apply Forall_app; split; [apply zeros_digits|apply dec_digits]|]. split.
  - rewrite app_length, repeat_length. lia.
  - rewrite value_app, dec_value. set (z := (12 - _)%nat). assert (E : value (repeat 48 z) = 0); [|rewrite E; lia]. clear. rewrite <- (app_nil_l (repeat 48 z)), value_zeros. reflexivity.
Qed.
Lemma read_fixed : forall w d c r, blanks w -> stops (c :: r) -> read_double (open (w ++ print_fixed d ++ c :: r)) = (open (c :: r), Some (refixed d)).
Proof.
  intros w d c r Hw Hr. rewrite print_fixed_eq. pose proof (N.mod_lt (scaled12 d) (10 ^ 12) ltac:(discriminate)) as M. destruct (pad_digits _ M) as (P1 & P2 & P3).
  set (f := repeat 48 _ ++ dec (scaled12 d mod 10 ^ 12)) in *. destruct (dec_cons (scaled12 d / 10 ^ 12)) as (c0 & t & E). pose proof (dec_digits (scaled12 d / 10 ^ 12)) as D.
  assert (S1 : exists c1 t1, numeral (d_neg d) (dec (scaled12 d / 10 ^ 12)) f ++ c :: r = c1 :: t1 /\ is_space c1 = false).
  { unfold numeral. rewrite E in *. destruct (d_neg d); cbn [app]; [exists 45; eexists; split; reflexivity|]. exists c0; eexists. split; [reflexivity|]. apply digit_not_space. apply Forall_inv in D. exact D. }
  destruct S1 as (c1 & t1 & E1 & Sp). unfold read_double. rewrite E1, sentry_ok by assumption. cbn [open s_rest]. rewrite <- E1.
  rewrite scan_plain; [|exact D|exact P1|rewrite E; discriminate|exact Hr]. rewrite value_app, dec_value, P2, P3. change (N.of_nat 12) with 12. change (- Z.of_nat 12)%Z with (-12)%Z.
  replace (scaled12 d / 10 ^ 12 * 10 ^ 12 + scaled12 d mod 10 ^ 12) with (scaled12 d); [reflexivity|]. rewrite N.mul_comm. apply N.div_mod'.
Qed.

(** ** Nodes and elements *)
Definition refixed_nodes (l : list (N * point3)) : list (N * point3) := map (fun n => (fst n, let '(x, y, z) := snd n in (refixed x, refixed y, refixed z))) l.
Lemma stops_blank : forall r, stops (blank :: r). Proof. intros. repeat split; discriminate. Qed.
Lemma skip_blank : forall r, skip_line (open (blank :: newline :: r)) = open r.
Proof. intros r. apply (skip_line_ok [blank]); [repeat constructor; discriminate|cbn; lia]. Qed.
Lemma read_fixed_next : forall d r, read_double (open ([blank] ++ print_fixed d ++ [blank] ++ r)) = (open ([blank] ++ r), Some (refixed d)).
Proof. intros. apply (read_fixed [blank] d blank r); [exact blank_one|apply stops_blank]. Qed.
Lemma read_fixed_last : forall d r, read_double (open ([blank] ++ print_fixed d ++ [blank; newline] ++ r)) = (open (blank :: newline :: r), Some (refixed d)).
Proof. intros. apply (read_fixed [blank] d blank (newline :: r)); [exact blank_one|apply stops_blank]. Qed.
Lemma read_quad_nodes : forall l steps r vars done, List.length steps = List.length l -> NoDup (map fst done ++ map fst l) -> uints (map fst l) ->
  exists vars', ofold read_node steps (open (flat_map quad_node l ++ r), vars, done) = Ok (open r, vars', done ++ refixed_nodes l).
Proof.
  induction l as [|[k [[x y] z]] l IH]; intros [|st steps] r vars done HL Hd Hu; try discriminate; [exists vars; cbn; rewrite app_nil_r; reflexivity|].
  cbn [map fst] in Hu, Hd. apply uints_cons in Hu. destruct Hu as [Hk Hu].
  cbn [flat_map ofold]. unfold quad_node at 1. rewrite <- !app_assoc. unfold read_node at 1. destruct vars as [id [[vx vy] vz]].
  rewrite read_uint_first by (assumption || discriminate || reflexivity). 
  do 2 (rewrite read_fixed_next). rewrite read_fixed_last.
  cbn [store of_index bind]. rewrite skip_blank. assert (Hn : ~ In k (map fst done)). { intros Hin. apply NoDup_remove_2 in Hd. apply Hd, in_or_app. left. exact Hin. }
  rewrite insert_new by exact Hn. destruct (IH steps r (Some k, (Some (refixed x), Some (refixed y), Some (refixed z))) (done ++ [(k, (refixed x, refixed y, refixed z))])) as [v' E].
  - cbn in HL. lia.
  - rewrite map_app, <- app_assoc. exact Hd.
  - exact Hu.
  - exists v'. refine (eq_trans E _). rewrite <- app_assoc. reflexivity.
Qed.
Definition typed (e : element) : N * (N * N * N * N) := let '(id, (a, b, c)) := e in (id, (3, a, b, c)).
Lemma typed_fst : forall l, map fst (map typed l) = map fst l.
Proof. intros l. rewrite map_map. apply map_ext. intros [id [[a b] c]]. reflexivity. Qed.
Lemma read_quad_elements : forall l steps r vars done, List.length steps = List.length l -> NoDup (map fst done ++ map fst l) -> uints (map fst l) ->
  Forall (fun e : element => let '(a, b, c) := snd e in uints [a; b; c]) l ->
  exists vars', ofold read_element steps (open (flat_map quad_element l ++ r), vars, done) = Ok (open r, vars', done ++ map typed l).
Proof.
  induction l as [|[k [[a b] c]] l IH]; intros [|st steps] r vars done HL Hd Hu Hp; try discriminate; [exists vars; cbn; rewrite app_nil_r; reflexivity|].
  cbn [map fst] in Hu, Hd. apply uints_cons in Hu. destruct Hu as [Hk Hu]. pose proof (Forall_inv Hp) as Hv. cbn [snd] in Hv. do 3 (apply uints_cons in Hv; destruct Hv as [? Hv]). apply Forall_inv_tail in Hp.
  cbn [flat_map ofold]. unfold quad_element at 1. rewrite <- !app_assoc. unfold read_element at 1. destruct vars as [id [[[va vb] vc] vd]].
  rewrite read_uint_first by (assumption || discriminate || reflexivity). do 4 (rewrite read_uint_next by (assumption || discriminate || reflexivity)).
  cbn [store of_index bind]. change ([blank; newline] ++ ?t) with (blank :: newline :: t). rewrite skip_blank. assert (Hn : ~ In k (map fst done)). { intros Hin. apply NoDup_remove_2 in Hd. apply Hd, in_or_app. left. exact Hin. }
  rewrite insert_new by exact Hn. destruct (IH steps r (Some k, (Some 3, Some a, Some b, Some c)) (done ++ [(k, (3, a, b, c))])) as [v' E].
  - cbn in HL. lia.
  - rewrite map_app, <- app_assoc. exact Hd.
  - exact Hu.
  - exact Hp.
  - exists v'. refine (eq_trans E _). rewrite <- app_assoc. reflexivity.
Qed.
Lemma read_quad_lists : forall l r base old, (base + List.length l < 100)%nat -> Forall ids_list l ->
  read_lists (List.length l) old (open (flat_map quad_list (combine (seq base (List.length l)) l) ++ r)) = Ok (open r, l).
Proof.
  intros l r base old Hb H. revert base old Hb. induction H as [|ns l [Hu Hs] Hl IH]; intros base old Hb; [reflexivity|]. cbn [List.length] in Hb.
  cbn [List.length seq combine flat_map read_lists]. unfold quad_list at 1. cbn [fst snd]. rewrite <- !app_assoc. assert (M : N.of_nat (S base) < 4294967296) by lia. set (num := N.of_nat (S base)) in *. clearbody num.
  destruct label_open as (H1 & H2 & H3). change ([newline] ++ ?t) with (newline :: t). rewrite (app_assoc (lit _) (dec num)). rewrite read_count_ok.
  - cbn [store of_index bind]. rewrite Nat2N.id, read_list_ok by exact Hu. rewrite IH by lia. reflexivity.
  - exact Hs.
  - reflexivity.
  - apply Forall_app. split; [exact H2|apply dec_not_newline].
  - rewrite !app_length. pose proof (dec_short num M). lia.
Qed.
Lemma label_6 : label_ok (lit " = Number of land boundaries"). Proof. label. Qed.
Lemma label_7 : label_ok (lit " = Total number of land boundary nodes"). Proof. label. Qed.
Lemma u32_lt : forall x, u32 x < 4294967296. Proof. intros. apply mod_u32. Qed.

(** ** The whole file *)
Lemma lists_ok : forall m n, (m + 1) * (n + 1) < 4294967296 -> Forall ids_list (boundary_nodes m n).
Proof.
  intros m n H. assert (m + 1 < 4294967296) by nia. assert (n + 1 < 4294967296) by nia. unfold boundary_nodes, ids_list, short, uints.
  assert (Lr : forall k (f : N -> N), N.of_nat (List.length (map f (nrange k))) = k). { intros k f. rewrite map_length. unfold nrange. rewrite map_length, seq_length. lia. }
  repeat constructor; rewrite ?Lr; try assumption; apply Forall_forall; intros x Hx; apply in_map_iff in Hx; destruct Hx as (i & <- & Hi); try apply u32_lt.
  unfold nrange in Hi. apply in_map_iff in Hi. destruct Hi as (j & <- & Hj). apply in_seq in Hj. lia.
Qed.
Lemma combine_in : forall (types : list N) (lists : list (list N)) tl, In tl (combine types lists) -> In (snd tl) lists.
Proof. intros types lists [t l] H. apply in_combine_r in H. exact H. Qed.
Lemma opens_ok : forall types m n, (m + 1) * (n + 1) < 4294967296 -> Forall ids_list (open_lists types (boundary_nodes m n)).
Proof.
  intros types m n H. pose proof (lists_ok m n H) as L. rewrite Forall_forall in *. intros l Hl. unfold open_lists in Hl. apply in_flat_map in Hl. destruct Hl as (tl & Hin & Hl). apply L.
  destruct (fst tl =? bt_tide); [|destruct Hl]. destruct Hl as [<-|[]]. apply combine_in in Hin. exact Hin.
Qed.
Lemma land_codes : forall t c, land_code t = Some c -> c = 0 \/ c = 2 \/ c = 77 \/ c = 88.
Proof. intros t c H. unfold land_code in H. repeat (destruct (_ =? _) in H; [injection H as <-; auto|]). discriminate. Qed.
Lemma lands_ok : forall types m n, (m + 1) * (n + 1) < 4294967296 -> Forall land_ok (quad_lands types (boundary_nodes m n)).
Proof.
  intros types m n H. pose proof (lists_ok m n H) as L. rewrite Forall_forall in *. intros l Hl. unfold quad_lands in Hl. apply in_flat_map in Hl. destruct Hl as (tl & Hin & Hl).
  destruct (land_code (fst tl)) as [c|] eqn:E; [|destruct Hl]. destruct Hl as [<-|[]]. apply combine_in in Hin. apply L in Hin. apply land_codes in E. cbn [land_ok].
  destruct E as [->|[->|[->| ->]]]; (split; [auto|split; [reflexivity|exact Hin]]).
Qed.
Lemma flat_map_length : forall (A B : Type) (f : A -> list B) l, (forall x, (List.length (f x) <= 1)%nat) -> (List.length (flat_map f l) <= List.length l)%nat.
Proof. intros A B f l H. induction l as [|x l IH]; [apply le_n|]. cbn [flat_map List.length]. rewrite app_length. pose proof (H x). lia. Qed.
Lemma opens_few : forall types m n, (List.length (open_lists types (boundary_nodes m n)) <= 4)%nat.
Proof.
  intros. unfold open_lists. eapply Nat.le_trans; [apply flat_map_length; intros x; destruct (_ =? _); cbn; lia|]. rewrite combine_length. cbn [boundary_nodes List.length]. lia.
Qed.
Lemma lands_few : forall types m n, (List.length (quad_lands types (boundary_nodes m n)) <= 4)%nat.
Proof.
  intros. unfold quad_lands. eapply Nat.le_trans; [apply flat_map_length; intros x; destruct (land_code _); cbn; lia|]. rewrite combine_length. cbn [boundary_nodes List.length]. lia.
Qed.

Lemma generic_none : read_generic (open (lit "0 = Number of generic boundaries" ++ newline :: lit "0 = Total number of generic boundary nodes" ++ [newline])) = Ok (Some (Generic (Some 0) [])).
Proof. vm_compute. reflexivity. Qed.

Lemma quad_file_read : forall nodes els types m n, 2 * m * n < 4294967296 -> (m + 1) * (n + 1) < 4294967296 ->
  map fst nodes = nrange ((m + 1) * (n + 1)) -> map fst els = nrange (2 * m * n) -> Forall (fun e : element => let '(a, b, c) := snd e in uints [a; b; c]) els ->
  read_fort (write_quad nodes els types m n) =
    Ok (Fort (lit "quadrilateral") (refixed_nodes nodes) (map typed els) (Some (nodes_in (open_lists types (boundary_nodes m n)))) (open_lists types (boundary_nodes m n))
          (Some (nodes_in (land_lists (quad_lands types (boundary_nodes m n))))) (quad_lands types (boundary_nodes m n)) (Some (Generic (Some 0) []))).
Proof.
  intros nodes els types m n H2 H1 Hn He Hv. unfold write_quad. rewrite !u32_small by assumption. unfold print_total. repeat (rewrite <- !app_assoc; cbn [app]).
  assert (Dr : forall k, NoDup (nrange k)). { intros k. unfold nrange. apply FinFun.Injective_map_NoDup; [intros x y; apply Nat2N.inj|apply seq_NoDup]. }
  assert (Ur : forall k, k < 4294967296 -> uints (nrange k)). { intros k Hk. apply Forall_forall. intros x Hx. unfold nrange in Hx. apply in_map_iff in Hx. destruct Hx as (j & <- & Hj). apply in_seq in Hj. lia. }
  assert (Lr : forall k, List.length (nrange k) = N.to_nat k). { intros k. unfold nrange. rewrite map_length, seq_length. reflexivity. }
  assert (Ln : List.length (seq 0 (N.to_nat ((m + 1) * (n + 1)))) = List.length nodes) by (rewrite seq_length, <- Lr, <- Hn, map_length; reflexivity).
  assert (Le : List.length (seq 0 (N.to_nat (2 * m * n))) = List.length els) by (rewrite seq_length, <- Lr, <- He, map_length; reflexivity).
  unfold read_fort. rewrite read_word_plain by first [discriminate | reflexivity | repeat constructor]. rewrite skip_line_end. rewrite read_uint_first by (assumption || discriminate || reflexivity).
  rewrite spaces4 by exact H1. cbn [of_index bind].
  match goal with |- context [flat_map quad_node nodes ++ ?rest] =>
    destruct (read_quad_nodes nodes (seq 0 (N.to_nat ((m + 1) * (n + 1)))) rest (None, (None, None, None)) [] Ln ltac:(rewrite Hn; apply Dr) ltac:(rewrite Hn; apply Ur; exact H1)) as [v1 E1] end.
  match type of E1 with ?a = _ => match goal with |- context [bind ?b _] => change b with a end end. rewrite E1. clear E1. cbn [bind app].
  match goal with |- context [flat_map quad_element els ++ ?rest] =>
    destruct (read_quad_elements els (seq 0 (N.to_nat (2 * m * n))) rest (None, (None, None, None, None)) [] Le ltac:(rewrite He; apply Dr) ltac:(rewrite He; apply Ur; exact H2) Hv) as [v2 E2] end.
  match type of E2 with ?a = _ => match goal with |- context [bind ?b _] => change b with a end end. rewrite E2. clear E2. cbn [bind app].
  pose proof (opens_few types m n) as So. pose proof (lands_few types m n) as Sl. pose proof (opens_ok types m n H1) as Ho. pose proof (lands_ok types m n H1) as Hl.
  rewrite count_label by (exact label_1 || lia). rewrite count_label by (exact label_2 || apply u32_lt). cbn [of_index bind]. rewrite Nat2N.id.
  unfold numbered at 1. rewrite read_quad_lists by (exact Ho || lia). cbn [bind].
  rewrite count_label by (exact label_6 || lia). rewrite count_label by (exact label_7 || apply u32_lt). cbn [of_index bind]. rewrite Nat2N.id.
  unfold numbered at 1. rewrite read_lands_ok by exact Hl. cbn [bind].
  rewrite generic_none. cbn [bind keep]. do 3 f_equal.
  clear. unfold quad_lands. induction (combine types (boundary_nodes m n)) as [|x l IH]; [reflexivity|]. cbn [flat_map]. rewrite map_app, IH. f_equal. destruct (land_code _); reflexivity.
Qed.

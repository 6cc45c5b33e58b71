(** Distributed boundary files: the round trip. *)
From Coq Require Import ZArith NArith List Bool Lia.
From Verif Require Import Outcome ModelStream ModelDist ModelDbmd LemmasStream SpecMeta SpecDbmd LemmasMeta.
Import ListNotations.
Local Open Scope N_scope.

Lemma read_uint_first : forall n t, n < 4294967296 -> t <> [] -> ends_number t -> read_uint (open (dec n ++ t)) = (open t, Some n).
Proof. intros n t Hn Ht He. exact (read_uint_dec' [] n t blanks_nil Hn Ht He). Qed.
Lemma read_uint_next : forall n t, n < 4294967296 -> t <> [] -> ends_number t -> read_uint (open ([blank] ++ dec n ++ t)) = (open t, Some n).
Proof. intros n t Hn Ht He. exact (read_uint_dec' [blank] n t blank_one Hn Ht He). Qed.
Lemma read_uint_last : forall n, n < 4294967296 -> exists s, read_uint (open ([blank] ++ dec n)) = (s, Some n).
Proof.
  intros n Hn. destruct (dec_cons n) as (d & t & E). assert (D := dec_digits n). rewrite E in D. assert (Hd := Forall_inv D). cbn beta in Hd.
  unfold read_uint. rewrite E. rewrite (sentry_ok [blank] d t blank_one) by (apply digit_not_space; exact Hd). unfold open. cbn [s_rest]. rewrite sign_digit by exact Hd.
  pose proof (span_app is_digit (d :: t) [] D I) as Sp. rewrite app_nil_r in Sp. rewrite Sp. rewrite <- E, dec_value.
  replace (isnil (dec n)) with false by (rewrite E; reflexivity). assert (n <=? uint_max = true) as -> by (apply N.leb_le, uint_ok; exact Hn). eexists. reflexivity.
Qed.
Lemma uints_cons : forall x l, uints (x :: l) -> x < 4294967296 /\ uints l.
Proof. intros x l H. inversion H; subst. split; assumption. Qed.

Lemma read_pair_ok : forall d r, pair_ok d -> read_pair (open (print_pair d ++ newline :: r)) = (open (newline :: r), Ok d).
Proof.
  intros d r H. unfold pair_ok in H. do 5 (apply uints_cons in H; destruct H as [? H]). unfold read_pair, print_pair. rewrite <- !app_assoc.
  rewrite read_uint_first by (assumption || discriminate || reflexivity). do 4 (rewrite read_uint_next by (assumption || discriminate || reflexivity)). destruct d; reflexivity.
Qed.
Lemma read_pairs_ok : forall l r, Forall pair_ok l -> read_pairs (length l) (open (flat_map (fun d => print_pair d ++ [newline]) l ++ r)) = Ok (open r, l).
Proof.
  intros l r H. induction H as [|d l Hd Hl IH]; [reflexivity|]. cbn [length read_pairs flat_map]. rewrite <- !app_assoc. change ([newline] ++ ?x) with (newline :: x).
  rewrite read_pair_ok by exact Hd. cbn [bind]. rewrite skip_line_end, IH. reflexivity.
Qed.

Definition header_text (g : dbgroup) : text :=
  dec (g_locA g) ++ [blank] ++ dec (g_subA g) ++ [blank] ++ dec (g_locB g) ++ [blank] ++ dec (g_subB g) ++ [blank] ++ dec (N.of_nat (length (g_faces g))).
Lemma read_header_ok : forall g h, group_ok g ->
  read_header (header_text g) h = Header (Some (g_locA g)) (Some (g_subA g)) (Some (g_locB g)) (Some (g_subB g)) (Some (N.of_nat (length (g_faces g)))).
Proof.
  intros g h (H & Hn & _). do 4 (apply uints_cons in H; destruct H as [? H]). unfold read_header, header_text.
  rewrite read_uint_first by (assumption || discriminate || reflexivity). do 3 (rewrite read_uint_next by (assumption || discriminate || reflexivity)).
  destruct (read_uint_last _ Hn) as [s E]. rewrite E. reflexivity.
Qed.
Lemma dec_no_newline : forall n, Forall (fun c => negb (c =? newline) = true) (dec n).
Proof. intros n. eapply Forall_impl; [|apply dec_digits]. intros c H. apply digit_range in H. apply negb_true_iff, N.eqb_neq. unfold newline. lia. Qed.
Lemma header_no_newline : forall g, Forall (fun c => negb (c =? newline) = true) (header_text g).
Proof. intros g. unfold header_text. repeat first [apply dec_no_newline | apply Forall_app; split | (apply Forall_cons; [reflexivity|apply Forall_nil])]. Qed.
Lemma getline_ok : forall a r, Forall (fun c => negb (c =? newline) = true) a -> getline (open (a ++ newline :: r)) = (open r, Some a).
Proof. intros a r H. unfold getline. cbn [good open s_eof s_fail negb andb s_rest]. rewrite (span_app _ a (newline :: r)) by (exact H || reflexivity). reflexivity. Qed.
Lemma print_group_eq : forall g r, print_group g ++ r = header_text g ++ newline :: flat_map (fun d => print_pair d ++ [newline]) (g_faces g) ++ r.
Proof. intros g r. unfold print_group, header_text. repeat (cbn [app]; rewrite <- ?app_assoc). reflexivity. Qed.

Lemma group_check : forall loc sub a b c d fs, match read_group loc sub (DBGroup a b c d fs) with Ok _ => exists g, read_group loc sub (DBGroup a b c d []) = Ok g | Throw => read_group loc sub (DBGroup a b c d []) = Throw | UB => False end.
Proof. intros. unfold read_group. cbn [g_locA g_subA g_locB g_subB g_faces]. destruct (_ && _); [eexists; reflexivity|]. destruct (_ && _); [eexists; reflexivity|reflexivity]. Qed.

Lemma read_lines_ok : forall gs fuel loc sub h acc, Forall group_ok gs -> (length gs < fuel)%nat ->
  read_lines fuel loc sub (open (write_dbmd gs)) h acc = ofold (fun acc g => do k <- read_group loc sub g ; Ok (acc ++ [k])) gs acc.
Proof.
  induction gs as [|g gs IH]; intros fuel loc sub h acc H Hf; (destruct fuel as [|fuel]; [cbn in Hf; lia|]).
  - reflexivity.
  - inversion H as [|? ? Hg Hgs]; subst. cbn [read_lines]. change (write_dbmd (g :: gs)) with (print_group g ++ write_dbmd gs). rewrite print_group_eq, getline_ok by apply header_no_newline.
    cbn [open s_fail]. rewrite read_header_ok by exact Hg. cbn [h_locA h_subA h_locB h_subB h_count of_index bind ofold].
    pose proof (group_check loc sub (g_locA g) (g_subA g) (g_locB g) (g_subB g) (g_faces g)) as Ck.
    assert (Eg : DBGroup (g_locA g) (g_subA g) (g_locB g) (g_subB g) (g_faces g) = g) by (destruct g; reflexivity). rewrite Eg in Ck.
    destruct (read_group loc sub g) as [k| |] eqn:E; [|rewrite Ck; reflexivity|contradiction].
    destruct Ck as [k0 ->]. cbn [bind]. rewrite Nat2N.id. fold (open (flat_map (fun d => print_pair d ++ [newline]) (g_faces g) ++ write_dbmd gs)). rewrite read_pairs_ok by apply Hg. cbn [bind fst snd]. rewrite Eg, E. cbn [bind]. apply IH; [exact Hgs|cbn in Hf; lia].
Qed.
Lemma dbmd_length : forall gs, (length gs <= length (write_dbmd gs))%nat.
Proof.
  induction gs as [|g gs IH]; [apply le_n|]. change (write_dbmd (g :: gs)) with (print_group g ++ write_dbmd gs). rewrite print_group_eq, app_length. cbn [length]. rewrite app_length. lia.
Qed.
Lemma dbmd_round_trip : forall loc sub gs, Forall group_ok gs -> read_dbmd_text loc sub (write_dbmd gs) = read_dbmd loc sub gs.
Proof. intros loc sub gs H. unfold read_dbmd_text, read_dbmd. apply read_lines_ok; [exact H|]. pose proof (dbmd_length gs). lia. Qed.

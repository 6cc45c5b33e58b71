(** Lemmas about the boundary data file and the signals made from it. *)
From Coq Require Import Reals NArith ZArith List Bool Arith Lia Lra Permutation.
From Verif Require Import Num ModelPi Outcome ModelSWE ModelShape ModelMesh ModelStepper ModelBcis SpecBcis.
Import ListNotations.
Open Scope R_scope.

Definition coef (c : con) : R * R * R := (c_freq c, c_ff c, c_eq c).
Definition put (c : R * R * R) (t : htable) (r : N * (R * R)) : htable := add_row c (fst r) (fst (snd r)) (snd (snd r)) t.
Definition known (t : htable) (n : N) : hnode := match t n with Some o => o | None => no_hnode end.
Definition extend (o : hnode) (c : R * R * R) (v : R * R) : hnode :=
  HNode (hn_freq o ++ [fst (fst c)]) (hn_ff o ++ [snd (fst c)]) (hn_eq o ++ [snd c]) (hn_amp o ++ [fst v]) (hn_ph o ++ [snd v]).
Definition found (rows : list (N * (R * R))) (n : N) := find (fun r => N.eqb (fst r) n) rows.

Lemma read_rows_print : forall rows c rest t,
  read_rows (length rows) c (map print_row rows ++ rest) t = Some (rest, fold_left (put c) rows t).
Proof. induction rows as [|[id [a p]] rows IH]; intros; [reflexivity|]. cbn. apply IH. Qed.

Lemma put_same : forall c t r n, fst r = n -> put c t r n = Some (extend (known t n) c (snd r)).
Proof.
  intros [[f ff] eq] t [id [a p]] n E. cbn in E. subst. unfold put, add_row, known, extend. cbn.
  rewrite N.eqb_refl. reflexivity.
Qed.
Lemma put_other : forall c t r n, fst r <> n -> put c t r n = t n.
Proof.
  intros [[f ff] eq] t [id [a p]] n E. cbn in E. unfold put, add_row. cbn.
  destruct (N.eqb_spec n id); congruence.
Qed.
Lemma found_none : forall rows n, found rows n = None <-> ~ In n (map fst rows).
Proof.
  induction rows as [|r rows IH]; intros n; cbn; [tauto|].
  destruct (N.eqb_spec (fst r) n); [split; [discriminate|tauto]|]. fold (found rows n). rewrite IH. tauto.
Qed.
Lemma rows_other : forall rows c t n, ~ In n (map fst rows) -> fold_left (put c) rows t n = t n.
Proof.
  induction rows as [|r rows IH]; intros c t n H; [reflexivity|]. cbn in *.
  rewrite IH by tauto. apply put_other. tauto.
Qed.
Lemma rows_found : forall rows c t n r, NoDup (map fst rows) -> found rows n = Some r ->
  fold_left (put c) rows t n = Some (extend (known t n) c (snd r)).
Proof.
  induction rows as [|r0 rows IH]; intros c t n r D F; [discriminate|]. cbn in *. inversion D; subst.
  destruct (N.eqb_spec (fst r0) n) as [E|E].
  - inversion F; subst r0. rewrite rows_other by congruence. apply put_same. assumption.
  - rewrite (IH c _ n r) by assumption. unfold known. rewrite put_other by assumption. reflexivity.
Qed.

Definition gather (o : hnode) (cs : list con) (n : N) : hnode :=
  HNode (hn_freq o ++ map c_freq cs) (hn_ff o ++ map c_ff cs) (hn_eq o ++ map c_eq cs)
        (hn_amp o ++ map (fun c => fst (row_of c n)) cs) (hn_ph o ++ map (fun c => snd (row_of c n)) cs).
Lemma gather_cons : forall o c cs n, gather (extend o (coef c) (row_of c n)) cs n = gather o (c :: cs) n.
Proof. intros. unfold gather, extend. cbn. rewrite <- !app_assoc. reflexivity. Qed.

Lemma con_table : forall c t nodes, NoDup nodes -> Permutation (map fst (c_rows c)) nodes ->
  let t' := fold_left (put (coef c)) (c_rows c) t in
  (forall n, ~ In n nodes -> t' n = t n) /\
  (forall n, In n nodes -> t' n = Some (extend (known t n) (coef c) (row_of c n))).
Proof.
  intros c t nodes D P t'. split; intros n H.
  - apply rows_other. intro. apply H. eapply Permutation_in; eauto.
  - assert (I : In n (map fst (c_rows c))) by (eapply Permutation_in; [apply Permutation_sym; exact P|exact H]).
    destruct (found (c_rows c) n) as [r|] eqn:F; [|apply found_none in F; contradiction].
    unfold t'. rewrite (rows_found _ _ _ _ r); [|eapply Permutation_NoDup; [apply Permutation_sym; exact P|exact D]|exact F].
    unfold row_of. unfold found in F. rewrite F. reflexivity.
Qed.

Definition complete (nodes : list N) (cs : list con) := forall c, In c cs -> Permutation (map fst (c_rows c)) nodes.
Lemma read_cons_print : forall cs nodes rest t, NoDup nodes -> complete nodes cs ->
  exists t', read_cons (length cs) (length nodes) (flat_map print_con cs ++ rest) t = Some (rest, t') /\
    (forall n, ~ In n nodes -> t' n = t n) /\
    (forall n, In n nodes -> t' n = match cs with [] => t n | _ => Some (gather (known t n) cs n) end).
Proof.
  induction cs as [|c cs IH]; intros nodes rest t D P.
  - exists t. cbn. auto.
  - assert (Pc := P c (or_introl eq_refl)).
    assert (L : length nodes = length (c_rows c)) by (rewrite <- (Permutation_length Pc), map_length; reflexivity).
    destruct (con_table c t nodes D Pc) as [H1 H2]. cbv zeta in *.
    destruct (IH nodes rest (fold_left (put (coef c)) (c_rows c) t) D (fun x Hx => P x (or_intror Hx))) as (t' & E & N1 & N2).
    exists t'. split.
    + cbn [length flat_map print_con read_cons app as_real]. rewrite <- !app_assoc, L, read_rows_print.
      cbn [as_real]. fold (coef c). rewrite <- L. exact E.
    + split; intros n Hn.
      * rewrite N1, H1 by assumption. reflexivity.
      * rewrite N2 by assumption. destruct cs as [|c' cs].
        -- rewrite H2 by assumption. reflexivity.
        -- unfold known at 1. rewrite H2 by assumption. rewrite gather_cons. reflexivity.
Qed.

(** The table of a section. *)
Definition table_of (x : list N * list con) (t : htable) : Prop :=
  (forall n, ~ In n (fst x) -> t n = None) /\
  (forall n, In n (fst x) -> t n = Some (gather no_hnode (snd x) n)).
Definition same_kind (k k' : kind) : bool := match k, k' with TideKind, TideKind | FlowKind, FlowKind => true | _, _ => false end.
Definition harmonic_of (k : kind) (s : section) : list (list N * list con) :=
  match s with Harmonic k' nodes cs => if same_kind k k' then [(nodes, cs)] else [] | LeveeSection _ => [] end.
Definition put_levee (m : rmap levee) (r : (N * N) * levee) : rmap levee := rm_put m (fst r) (snd r).

Lemma read_harmonic_print : forall nodes cs rest, NoDup nodes -> cs <> [] -> complete nodes cs ->
  exists t, read_harmonic (length nodes) (([count (length cs)] : line) :: flat_map print_con cs ++ rest) = Some (rest, t) /\ table_of (nodes, cs) t.
Proof.
  intros nodes cs rest D NE P.
  destruct (read_cons_print cs nodes rest (fun _ => None) D P) as (t & E & N1 & N2).
  exists t. split; [cbn; rewrite Nnat.Nat2N.id; exact E|]. split; [exact N1|].
  intros n H. rewrite (N2 n H). destruct cs; [congruence|reflexivity].
Qed.
Lemma read_levees_print : forall rows rest m,
  read_levees (length rows) (map print_levee rows ++ rest) m = Some (rest, fold_left put_levee rows m).
Proof. induction rows as [|[[a b] [[H cs] cp]] rows IH]; intros; [reflexivity|]. cbn. apply IH. Qed.

Lemma read_section_print : forall s rest d, section_ok s ->
  exists T F, read_section (print_section s ++ rest) d =
      Some (rest, Bcis (bc_tide d ++ T) (bc_flow d ++ F) (fold_left put_levee (levees_of s) (bc_levee d))) /\
    Forall2 table_of (harmonic_of TideKind s) T /\ Forall2 table_of (harmonic_of FlowKind s) F.
Proof.
  intros [k nodes cs|rows] rest d H.
  - destruct H as (D & NE & P). destruct (read_harmonic_print nodes cs rest D NE P) as (t & E & Ht).
    destruct k; [exists [t], []|exists [], [t]]; (split; [|cbn; split; auto]);
      cbn [print_section app read_section count]; rewrite Nnat.Nat2N.id;
      unfold bt_tide, bt_flow; cbn [N.eqb Pos.eqb app] in *; rewrite E; cbn; rewrite ?app_nil_r; reflexivity.
  - exists [], []. split; [|cbn; auto]. cbn [print_section app read_section count].
    rewrite Nnat.Nat2N.id. unfold bt_tide, bt_flow, bt_levee, INTERNAL. cbn [N.eqb Pos.eqb N.add Pos.add Pos.succ].
    rewrite read_levees_print. cbn. rewrite !app_nil_r. reflexivity.
Qed.

Lemma read_bcis_print : forall secs fuel d, Forall section_ok secs -> (length secs <= fuel)%nat ->
  exists T F, read_bcis fuel (print secs) d =
      Some (Bcis (bc_tide d ++ T) (bc_flow d ++ F) (fold_left put_levee (flat_map levees_of secs) (bc_levee d))) /\
    Forall2 table_of (flat_map (harmonic_of TideKind) secs) T /\ Forall2 table_of (flat_map (harmonic_of FlowKind) secs) F.
Proof.
  induction secs as [|s secs IH]; intros fuel d Ok L.
  - exists [], []. cbn. rewrite !app_nil_r. split; [|auto]. destruct fuel, d; reflexivity.
  - inversion Ok; subst. destruct fuel as [|fuel]; [cbn in L; lia|].
    destruct (read_section_print s (print secs) d H1) as (T1 & F1 & E1 & A1 & B1).
    destruct (IH fuel (Bcis (bc_tide d ++ T1) (bc_flow d ++ F1) (fold_left put_levee (levees_of s) (bc_levee d))) H2 ltac:(cbn in L; lia))
      as (T2 & F2 & E2 & A2 & B2).
    exists (T1 ++ T2), (F1 ++ F2). cbn [flat_map]. split; [|split; apply Forall2_app; assumption].
    unfold print in *. cbn [flat_map].
    destruct (print_section s ++ flat_map print_section secs) as [|l ls] eqn:EP.
    { destruct s; cbn in EP; discriminate. }
    cbn [read_bcis]. rewrite E1, E2. cbn [bc_tide bc_flow bc_levee]. rewrite <- !app_assoc, fold_left_app. reflexivity.
Qed.
Lemma print_length : forall secs, (length secs <= length (print secs))%nat.
Proof.
  induction secs as [|s secs IH]; [auto|]. unfold print in *. cbn. rewrite app_length. destruct s; cbn; lia.
Qed.

Lemma read_file : forall secs, Forall section_ok secs -> exists d,
  read_bcis (length (print secs)) (print secs) no_bcis = Some d /\
  (forall k, Forall2 table_of (flat_map (harmonic_of k) secs) (tables k d)) /\
  bc_levee d = fold_left put_levee (flat_map levees_of secs) [].
Proof.
  intros secs H. destruct (read_bcis_print secs (length (print secs)) no_bcis H (print_length secs)) as (T & F & E & A & B).
  exists (Bcis T F (fold_left put_levee (flat_map levees_of secs) [])). split; [exact E|]. split; [|reflexivity]. intros []; assumption.
Qed.

(** Lookup. *)
Lemma get_data_in : forall x t a b, table_of x t -> In a (fst x) -> In b (fst x) ->
  get_data t [a; b] = Some [gather no_hnode (snd x) a; gather no_hnode (snd x) b].
Proof. intros x t a b [_ H] A B. unfold get_data. cbn. rewrite (H a A), (H b B). reflexivity. Qed.
Lemma get_data_out : forall x t a b, table_of x t -> ~ (In a (fst x) /\ In b (fst x)) -> get_data t [a; b] = None.
Proof.
  intros x t a b [H1 H2] A. unfold get_data. cbn.
  destruct (in_dec N.eq_dec a (fst x)) as [I|I]; [destruct (in_dec N.eq_dec b (fst x)) as [J|J]; [tauto|]|].
  - rewrite (H2 a I), (H1 b J). reflexivity.
  - rewrite (H1 a I). reflexivity.
Qed.
Lemma find_data_skip : forall pre ts a b rest, Forall2 table_of pre ts ->
  (forall x, In x pre -> ~ (In a (fst x) /\ In b (fst x))) -> find_data (ts ++ rest) [a; b] = find_data rest [a; b].
Proof.
  intros pre ts a b rest F. induction F as [|x t pre ts Hx F IH]; intros H; [reflexivity|].
  cbn [app find_data]. rewrite (get_data_out x t) by (auto; apply H; left; reflexivity). apply IH. intros; apply H; right; assumption.
Qed.

Lemma harmonic_of_face : forall k s x a b, In x (harmonic_of k s) -> In a (fst x) -> In b (fst x) -> has_face k a b s.
Proof.
  intros k [k' nodes cs|rows] x a b H A B; [|destruct H]. cbn in H.
  destruct k, k'; cbn in H; try contradiction; destruct H as [<-|[]]; cbn in *; auto.
Qed.
Lemma find_missing : forall k secs ts a b, Forall2 table_of (flat_map (harmonic_of k) secs) ts ->
  (forall s, In s secs -> ~ has_face k a b s) -> find_data ts [a; b] = Throw.
Proof.
  intros k secs ts a b F H. rewrite <- (app_nil_r ts), (find_data_skip _ _ _ _ _ F); [reflexivity|].
  intros x Hx [A B]. apply in_flat_map in Hx. destruct Hx as (s & Hs & Hx). apply (H s Hs). eapply harmonic_of_face; eauto.
Qed.
Lemma find_first : forall k pre nodes cs post ts a b,
  Forall2 table_of (flat_map (harmonic_of k) (pre ++ Harmonic k nodes cs :: post)) ts ->
  In a nodes -> In b nodes -> (forall s, In s pre -> ~ has_face k a b s) ->
  find_data ts [a; b] = Ok [gather no_hnode cs a; gather no_hnode cs b].
Proof.
  intros k pre nodes cs post ts a b F A B H. rewrite flat_map_app in F.
  apply Forall2_app_inv_l in F. destruct F as (t1 & t2 & F1 & F2 & ->).
  rewrite (find_data_skip _ _ _ _ _ F1).
  - cbn in F2. destruct k; cbn in F2; inversion F2; subst; cbn [find_data]; rewrite (get_data_in _ _ _ _ H2 A B); reflexivity.
  - intros x Hx [A' B']. apply in_flat_map in Hx. destruct Hx as (s & Hs & Hx). apply (H s Hs). eapply harmonic_of_face; eauto.
Qed.

(** The constructor. *)
Lemma ocollect_map : forall (A : Type) (f : nat -> outcome A) (g : nat -> A) n start,
  (forall i, (start <= i < start + n)%nat -> f i = Ok (g i)) -> ocollect f start n = Ok (map g (seq start n)).
Proof.
  induction n as [|n IH]; intros start H; [reflexivity|]. cbn. rewrite H by lia. cbn.
  rewrite IH by (intros; apply H; lia). reflexivity.
Qed.
Lemma make_two : forall cs a b, exists h, make_harmonics [gather no_hnode cs a; gather no_hnode cs b] = Ok h /\
  h_freq h = map c_freq cs /\ h_ff h = map c_ff cs /\ h_eq h = map c_eq cs /\
  h_amp h = map (fun c => [fst (row_of c a); fst (row_of c b)]) cs /\
  h_ph h = map (fun c => [snd (row_of c a); snd (row_of c b)]) cs.
Proof.
  intros cs a b.
  assert (G : forall (f : con -> N -> R) (field : hnode -> list R), (forall n, field (gather no_hnode cs n) = map (fun c => f c n) cs) ->
    ocollect (fun con => ocollect (fun node =>
      do o <- of_index (nth_error [gather no_hnode cs a; gather no_hnode cs b] node) ; of_index (nth_error (field o) con)) 0 2)
      0 (length cs) = Ok (map (fun c => [f c a; f c b]) cs)).
  { intros f field Hf. destruct cs as [|c0 cs']; [reflexivity|].
    erewrite (ocollect_map _ _ (fun i => let c := nth i (c0 :: cs') c0 in [f c a; f c b])).
    - f_equal. transitivity (map (fun c => [f c a; f c b]) (map (fun i => nth i (c0 :: cs') c0) (seq 0 (length (c0 :: cs'))))).
      + rewrite map_map. reflexivity.
      + f_equal. clear. generalize (c0 :: cs') as l. induction l as [|x l IH]; [reflexivity|].
        cbn [length seq map nth]. f_equal. rewrite <- seq_shift, map_map. exact IH.
    - intros i Hi. cbn [ocollect nth_error of_index bind]. rewrite !Hf.
      assert (N : forall n, nth_error (map (fun c => f c n) (c0 :: cs')) i = Some (f (nth i (c0 :: cs') c0) n)).
      { intros n. apply (map_nth_error (fun c => f c n)), nth_error_nth'. lia. }
      rewrite !N. reflexivity. }
  unfold make_harmonics. cbn [nth_error of_index bind length].
  replace (length (hn_freq (gather no_hnode cs a))) with (length cs) by (cbn; rewrite map_length; reflexivity).
  rewrite (G (fun c n => fst (row_of c n)) hn_amp) by reflexivity. cbn [bind].
  rewrite (G (fun c n => snd (row_of c n)) hn_ph) by reflexivity. cbn [bind].
  eexists. split; [reflexivity|]. cbn. auto 6.
Qed.

Lemma total_fold : forall (f : con -> R) (F : nat -> R) ramp cs acc,
  (forall i c, nth_error cs i = Some c -> F i = ramp * f c) ->
  fold_left (fun s i => s + F i) (seq 0 (length cs)) acc = acc + ramp * total (map f cs).
Proof.
  intros f F ramp cs. revert F. induction cs as [|c cs IH]; intros F acc H; [cbn; ring|].
  cbn [length seq fold_left]. rewrite <- seq_shift.
  assert (S : forall l acc, fold_left (fun s i => s + F i) (map S l) acc = fold_left (fun s i => s + F (S i)) l acc).
  { induction l as [|x l IHl]; intros; [reflexivity|]. cbn. apply IHl. }
  rewrite S, (IH (fun i => F (Datatypes.S i))) by (intros; apply H; assumption).
  rewrite (H 0%nat c eq_refl). cbn. ring.
Qed.
Lemma nodal_between : forall x y z, nodal_value [x; y] z = between x y z.
Proof. intros. unfold nodal_value, between, GetBoundaryPsi. cbn. ring. Qed.

Lemma nth_map_some : forall (A B : Type) (f : A -> B) l i x d, nth_error l i = Some x -> nth i (map f l) d = f x.
Proof. intros A B f l i x d H. apply (map_nth_error f) in H. apply nth_error_nth. exact H. Qed.
Definition has_table (h : harmonics) (cs : list con) (a b : N) : Prop :=
  h_freq h = map c_freq cs /\ h_ff h = map c_ff cs /\ h_eq h = map c_eq cs /\
  h_amp h = map (fun c => [fst (row_of c a); fst (row_of c b)]) cs /\
  h_ph h = map (fun c => [snd (row_of c a); snd (row_of c b)]) cs.
Lemma signal_table : forall h cs a b, has_table h cs a b -> forall ramp t z, signal h ramp t z = ramp * tide_table cs a b t z.
Proof.
  intros h cs a b (E1 & E2 & E3 & E4 & E5) ramp t z. unfold signal. rewrite E1, E2, E3, E4, E5, map_length.
  rewrite (total_fold (wave degrees a b t z) _ ramp); [unfold tide_table; ring|].
  intros i c H. rewrite !(nth_map_some _ _ _ _ _ _ _ H), !nodal_between. unfold wave, degrees.
  replace ((c_eq c - between (snd (row_of c a)) (snd (row_of c b)) z) * code_pi / 180)
    with ((c_eq c - between (snd (row_of c a)) (snd (row_of c b)) z) * (code_pi / 180)) by field. unfold code_pi. ring.
Qed.
Lemma signal_implicit_table : forall h cs a b, has_table h cs a b -> forall ramp t z,
  signal_implicit h ramp t z = ramp * total (map (wave (fun x => x) a b t z) cs).
Proof.
  intros h cs a b (E1 & E2 & E3 & E4 & E5) ramp t z. unfold signal_implicit. rewrite E1, E2, E3, E4, E5, map_length.
  rewrite (total_fold (wave (fun x => x) a b t z) _ ramp); [ring|].
  intros i c H. rewrite !(nth_map_some _ _ _ _ _ _ _ H), !nodal_between. unfold wave.
  replace (c_freq c * t + c_eq c - between (snd (row_of c a)) (snd (row_of c b)) z)
    with (c_freq c * t + (c_eq c - between (snd (row_of c a)) (snd (row_of c b)) z)) by ring. ring.
Qed.

Lemma file_signal : forall k pre nodes cs post a b, Forall section_ok (pre ++ Harmonic k nodes cs :: post) ->
  In a nodes -> In b nodes -> (forall s, In s pre -> ~ has_face k a b s) ->
  let f := print (pre ++ Harmonic k nodes cs :: post) in
  exists d h, read_bcis (length f) f no_bcis = Some d /\ create_harmonics (tables k d) [a; b] = Ok h /\ has_table h cs a b.
Proof.
  intros k pre nodes cs post a b H A B Hp f. destruct (read_file _ H) as (d & E & T & _).
  destruct (make_two cs a b) as (h & Eh & Ht). exists d, h. split; [exact E|]. split; [|exact Ht].
  unfold create_harmonics. rewrite (find_first k pre nodes cs post _ a b (T k) A B Hp). exact Eh.
Qed.
Lemma file_missing : forall k secs a b, Forall section_ok secs -> (forall s, In s secs -> ~ has_face k a b s) ->
  exists d, read_bcis (length (print secs)) (print secs) no_bcis = Some d /\ create_harmonics (tables k d) [a; b] = Throw.
Proof.
  intros k secs a b H Hn. destruct (read_file _ H) as (d & E & T & _). exists d. split; [exact E|].
  unfold create_harmonics. rewrite (find_missing k secs _ a b (T k) Hn). reflexivity.
Qed.

From Coq Require Import ZArith NArith List Bool Arith String Ascii Decimal DecimalString DecimalN Lia.
From Verif Require Import Num Outcome ModelRun SpecRun.
Import ListNotations.
Open Scope string_scope.

(** ** Strings *)
Lemma last_dot_none : forall s, no_char "." s -> last_dot s = None.
Proof.
  induction s as [|c s IH]; intros H; [reflexivity|]. cbn. rewrite IH.
  - destruct (Ascii.eqb_spec c "."); [|reflexivity]. exfalso. apply H. left. assumption.
  - intros K. apply H. right. exact K.
Qed.
Lemma last_dot_app : forall a b, no_char "." b -> last_dot (a ++ String "." b) = Some (String.length a).
Proof.
  induction a as [|c a IH]; intros b H.
  - cbn. rewrite last_dot_none by assumption. reflexivity.
  - cbn. rewrite IH by assumption. reflexivity.
Qed.
Lemma last_dot_split : forall s i, last_dot s = Some i ->
  exists a b, s = a ++ String "." b /\ no_char "." b /\ String.length a = i.
Proof.
  induction s as [|c s IH]; intros i H; [discriminate|]. cbn in H.
  destruct (last_dot s) as [j|] eqn:E.
  - injection H as <-. destruct (IH j eq_refl) as (a & b & -> & Hb & L).
    exists (String c a), b. cbn. rewrite L. auto.
  - destruct (Ascii.eqb_spec c "."); [|discriminate]. injection H as <-. subst c.
    exists "", s. split; [reflexivity|]. split; [|reflexivity].
    clear IH. revert E. induction s as [|d s IH]; intros E K; [exact K|].
    cbn in E. destruct (last_dot s) eqn:E2; [discriminate|]. destruct (Ascii.eqb_spec d "."); [discriminate|].
    destruct K as [K|K]; [contradiction|]. apply IH; assumption.
Qed.
Lemma last_dot_None : forall s, last_dot s = None -> no_char "." s.
Proof.
  induction s as [|d s IH]; intros E K; [exact K|].
  cbn in E. destruct (last_dot s) eqn:E2; [discriminate|]. destruct (Ascii.eqb_spec d "."); [discriminate|].
  destruct K as [K|K]; [contradiction|]. apply IH; [reflexivity|assumption].
Qed.
Lemma stake_app : forall a b, stake (String.length a) (a ++ b) = a.
Proof. induction a as [|c a IH]; intros b; cbn; [destruct b; reflexivity | rewrite IH; reflexivity]. Qed.
Lemma sdrop_app : forall a b, sdrop (String.length a) (a ++ b) = b.
Proof. induction a as [|c a IH]; intros b; cbn; [destruct b; reflexivity | apply IH]. Qed.
Lemma sapp_assoc : forall a b c : string, a ++ (b ++ c) = (a ++ b) ++ c.
Proof. induction a as [|x a IH]; intros; cbn; [reflexivity | rewrite IH; reflexivity]. Qed.
Lemma sapp_inj : forall a b c : string, a ++ b = a ++ c -> b = c.
Proof. induction a as [|x a IH]; intros b c H; [exact H|]. injection H as H. apply IH, H. Qed.

Lemma stem_dot : forall a b, no_char "." b -> stem (a ++ String "." b) = a.
Proof. intros a b H. unfold stem. rewrite last_dot_app by assumption. apply stake_app. Qed.
Lemma insert_dot : forall a b t, no_char "." b -> insert_at_dot (a ++ String "." b) t = Ok (a ++ t ++ String "." b).
Proof. intros a b t H. unfold insert_at_dot. rewrite last_dot_app by assumption. rewrite stake_app, sdrop_app. reflexivity. Qed.

Ltac nodot := let H := fresh in intros H; cbn in H; repeat destruct H as [H|H]; discriminate || contradiction.

Lemma names_agree : forall mesh l m,
  run_mesh_file (updated_mesh_name mesh) l m = Ok (partitioner_mesh_file mesh l m) /\
  run_dbmd_file (updated_mesh_name mesh) l m = Ok (partitioner_dbmd_file mesh l m) /\
  probe_file (updated_mesh_name mesh) l m = Ok (partitioner_mesh_file mesh l m) /\
  bcis_file (updated_mesh_name mesh) = bcis_file mesh.
Proof.
  intros mesh l m.
  assert (D1 : no_char "." "meta") by nodot. assert (D2 : no_char "." "dbmd") by nodot.
  unfold run_mesh_file, run_dbmd_file, probe_file, updated_mesh_name, partitioner_mesh_file, partitioner_dbmd_file, bcis_file.
  change ".meta" with (String "." "meta"). change ".dbmd" with (String "." "dbmd").
  rewrite stem_dot, !insert_dot by assumption. rewrite last_dot_app, stake_app, sdrop_app by assumption.
  split; [reflexivity|]. split; [reflexivity|]. split; [|reflexivity].
  unfold pair_suffix. rewrite <- !sapp_assoc. reflexivity.
Qed.

(** ** Decimal printing *)
Lemma to_string_inj : forall a b, to_string a = to_string b -> a = b.
Proof.
  intros a b H. unfold to_string in H.
  assert (E : NilEmpty.uint_of_string (NilEmpty.string_of_uint (N.to_uint a)) = NilEmpty.uint_of_string (NilEmpty.string_of_uint (N.to_uint b))) by (rewrite H; reflexivity).
  rewrite !NilEmpty.usu in E. injection E as E.
  rewrite <- (DecimalN.Unsigned.of_to a), <- (DecimalN.Unsigned.of_to b), E. reflexivity.
Qed.
Definition is_digit (c : ascii) : Prop := In c (list_ascii_of_string "0123456789").
Lemma to_string_digits : forall n c, In c (list_ascii_of_string (to_string n)) -> is_digit c.
Proof.
  intros n c. unfold to_string. generalize (N.to_uint n). intros u.
  induction u; cbn [NilEmpty.string_of_uint list_ascii_of_string In]; intros H; try contradiction;
  (destruct H as [<-|H]; [unfold is_digit; cbn; tauto | apply IHu, H]).
Qed.

(** Two digit strings followed by the same non-digit agree. *)
Lemma digits_split : forall a b x y (c : ascii),
  (forall d, In d (list_ascii_of_string a) -> is_digit d) -> (forall d, In d (list_ascii_of_string b) -> is_digit d) ->
  ~ is_digit c -> a ++ String c x = b ++ String c y -> a = b /\ x = y.
Proof.
  induction a as [|d a IH]; intros b x y c Ha Hb Hc E.
  - destruct b as [|e b].
    + injection E as ->. auto.
    + injection E as E1 E2. exfalso. apply Hc. apply Hb. left. symmetry. exact E1.
  - destruct b as [|e b].
    + injection E as E1 E2. exfalso. apply Hc. apply Ha. left. exact E1.
    + injection E as E1 E2. subst e.
      destruct (IH b x y c) as [-> ->]; auto.
      * intros z Hz. apply Ha. right. exact Hz.
      * intros z Hz. apply Hb. right. exact Hz.
Qed.
Ltac nodigit := let H := fresh in intros H; unfold is_digit in H; cbn in H; repeat destruct H as [H|H]; discriminate || contradiction.

Lemma suffix_inj : forall l m l' m' t t', no_char "." t -> no_char "." t' ->
  pair_suffix l m ++ String "." t = pair_suffix l' m' ++ String "." t' -> l = l' /\ m = m' /\ t = t'.
Proof.
  intros l m l' m' t t' Ht Ht' E. unfold pair_suffix in E. rewrite <- !sapp_assoc in E. cbn [append] in E.
  injection E as E.
  apply digits_split in E; [|apply to_string_digits|apply to_string_digits|nodigit].
  destruct E as [E1 E2]. apply digits_split in E2; [|apply to_string_digits|apply to_string_digits|nodigit].
  destruct E2 as [E2 E3]. split; [apply to_string_inj, E1|]. split; [apply to_string_inj, E2 | exact E3].
Qed.

Lemma names_distinct : forall mesh l m l' m',
  (partitioner_mesh_file mesh l m = partitioner_mesh_file mesh l' m' -> l = l' /\ m = m') /\
  (partitioner_dbmd_file mesh l m = partitioner_dbmd_file mesh l' m' -> l = l' /\ m = m') /\
  partitioner_mesh_file mesh l m <> partitioner_dbmd_file mesh l' m'.
Proof.
  intros mesh l m l' m'. unfold partitioner_mesh_file, partitioner_dbmd_file.
  assert (D1 : no_char "." "meta") by nodot. assert (D2 : no_char "." "dbmd") by nodot.
  repeat split.
  - apply sapp_inj in H. apply suffix_inj in H; tauto.
  - apply sapp_inj in H. apply suffix_inj in H; tauto.
  - apply sapp_inj in H. apply suffix_inj in H; tauto.
  - apply sapp_inj in H. apply suffix_inj in H; tauto.
  - intros H. apply sapp_inj in H. apply suffix_inj in H; try assumption. destruct H as (_ & _ & H). discriminate.
Qed.

Lemma output_names_distinct : forall path name ext k k', (forall c r, ext = String c r -> ~ is_digit c) ->
  output_file path name ext k = output_file path name ext k' -> k = k'.
Proof.
  intros path name ext k k' He H. unfold output_file in H. do 2 apply sapp_inj in H. apply sapp_inj in H.
  apply to_string_inj. destruct ext as [|c r].
  - assert (N : forall s, s ++ "" = s) by (induction s as [|d s IH]; cbn; [reflexivity|rewrite IH; reflexivity]).
    rewrite !N in H. exact H.
  - apply digits_split in H; [apply H | apply to_string_digits | apply to_string_digits | apply (He c r eq_refl)].
Qed.

(** ** Probing *)
Lemma find_units_exact : forall (fe : string -> bool) mesh l count fuel,
  (forall m, (m < count)%N -> fe (partitioner_mesh_file mesh l m) = true) ->
  fe (partitioner_mesh_file mesh l count) = false -> (N.to_nat count < fuel)%nat ->
  find_units fuel fe (updated_mesh_name mesh) l 0 = Ok (map N.of_nat (seq 0 (N.to_nat count))).
Proof.
  intros fe mesh l count fuel Hin Hout Hf.
  assert (A : forall d fuel m, (m + N.of_nat d = count)%N -> (d < fuel)%nat ->
    find_units fuel fe (updated_mesh_name mesh) l m = Ok (map N.of_nat (seq (N.to_nat m) d))).
  { clear fuel Hf. induction d as [|d IH]; intros fuel m E F; destruct fuel as [|fuel]; try lia; cbn [find_units];
    rewrite (proj1 (proj2 (proj2 (names_agree mesh l m)))); cbn [bind].
    - replace m with count by lia. rewrite Hout. reflexivity.
    - rewrite Hin by lia. rewrite IH by lia. cbn [bind seq map]. rewrite N2Nat.id.
      replace (N.to_nat (m + 1)) with (S (N.to_nat m)) by lia. reflexivity. }
  rewrite A with (d := N.to_nat count) by lia. reflexivity.
Qed.

(** The files of one partition, [counts l] submeshes on locality l. *)
Definition written (mesh : string) (localities : nat) (counts : nat -> nat) : list string :=
  flat_map (fun l => map (fun m => partitioner_mesh_file mesh (N.of_nat l) (N.of_nat m)) (seq 0 (counts l))) (seq 0 localities).

Lemma written_spec : forall mesh L counts l m,
  In (partitioner_mesh_file mesh l m) (written mesh L counts) <-> (N.to_nat l < L)%nat /\ (N.to_nat m < counts (N.to_nat l))%nat.
Proof.
  intros mesh L counts l m. unfold written. rewrite in_flat_map. split.
  - intros (l' & Hl & H). apply in_map_iff in H. destruct H as (m' & E & Hm). apply in_seq in Hl, Hm.
    destruct (names_distinct mesh (N.of_nat l') (N.of_nat m') l m) as (D & _ & _). destruct (D E) as [<- <-].
    rewrite !Nat2N.id. lia.
  - intros [Hl Hm]. exists (N.to_nat l). split; [apply in_seq; lia|]. apply in_map_iff. exists (N.to_nat m).
    rewrite !N2Nat.id. split; [reflexivity | apply in_seq; lia].
Qed.
Definition mem (l : list string) (s : string) : bool := if in_dec string_dec s l then true else false.

Lemma run_finds_partition : forall mesh L counts l, (l < L)%nat ->
  find_units (S (counts l)) (mem (written mesh L counts)) (updated_mesh_name mesh) (N.of_nat l) 0 = Ok (map N.of_nat (seq 0 (counts l))).
Proof.
  intros mesh L counts l Hl.
  rewrite (find_units_exact (mem (written mesh L counts)) mesh (N.of_nat l) (N.of_nat (counts l))).
  - rewrite Nat2N.id. reflexivity.
  - intros m Hm. unfold mem. destruct (in_dec _ _ _) as [|n]; [reflexivity|]. exfalso. apply n.
    apply written_spec. rewrite !Nat2N.id. lia.
  - unfold mem. destruct (in_dec _ _ _) as [i|]; [|reflexivity]. apply written_spec in i. rewrite !Nat2N.id in i. lia.
  - rewrite Nat2N.id. lia.
Qed.

From Coq Require Import String ZArith Reals List Bool Arith Lia Lra.
From Verif Require Import Num Outcome ModelSWE ModelShape ModelBasis ModelVtk SpecShape SpecVtk LemmasVtk1 LemmasVtk2.
Import ListNotations.
Open Scope R_scope.

Lemma expect_word : forall s r, expect s (Word s :: r) = Some r.
Proof. intros. unfold expect. rewrite String.eqb_refl. reflexivity. Qed.
Lemma many_enc : forall (A B : Type) (rd : list tok -> option (A * list tok)) (enc : B -> list tok) (dec : B -> A) l r,
  (forall b r, In b l -> rd (enc b ++ r) = Some (dec b, r)) ->
  many rd (length l) (flat_map enc l ++ r) = Some (map dec l, r).
Proof.
  intros A B rd enc dec l r. induction l as [| b l IH]; intros H; [reflexivity |]. cbn [length many flat_map map].
  rewrite <- app_assoc, (H b _ (or_introl eq_refl)). cbn [obind]. rewrite IH by (intros b' r' Hb; apply H; right; exact Hb). reflexivity.
Qed.
Lemma flat_map_single : forall (A B : Type) (f : A -> B) l, flat_map (fun a => [f a]) l = map f l.
Proof. intros. induction l; cbn; congruence. Qed.
Lemma many_values : forall l r, (forall t, In t l -> is_value t = true) -> many read_value (length l) (l ++ r) = Some (l, r).
Proof.
  intros l r H. replace (l ++ r) with (flat_map (fun t => [t]) l ++ r) by (rewrite flat_map_single, map_id; reflexivity).
  rewrite (many_enc _ _ read_value (fun t => [t]) (fun t => t)); [rewrite map_id; reflexivity |].
  intros t r' Ht. cbn. rewrite (H t Ht). reflexivity.
Qed.
Lemma many_ints : forall (A : Type) (f : A -> nat) l r, many read_int (length l) (map (fun a => Int (f a)) l ++ r) = Some (map f l, r).
Proof.
  intros A f l r. rewrite <- flat_map_single. apply (many_enc _ _ read_int (fun a => [Int (f a)]) f). reflexivity.
Qed.

(** ** Legacy *)
Definition entry3 := (string * string * list tok)%type.
Definition enc_scalars (x : entry3) : list tok := scalars (fst (fst x)) (snd (fst x)) (snd x).
Definition named (x : entry3) : string * list tok := (fst (fst x), snd x).
Definition well (k : nat) (x : entry3) : Prop := length (snd x) = k /\ forall t, In t (snd x) -> is_value t = true.
Lemma read_scalars_enc : forall k x r, well k x -> read_scalars k (enc_scalars x ++ r) = Some (named x, r).
Proof.
  intros k [[name kd] l] r [H1 H2]. cbn [fst snd] in *. subst k. unfold enc_scalars, scalars, named. cbn [fst snd app].
  unfold read_scalars. rewrite expect_word. cbn [obind read_word read_int Nat.eqb]. rewrite expect_word. cbn [obind read_word].
  rewrite (many_values l r H2). reflexivity.
Qed.
Lemma enc_expect : forall x r, exists r', expect "SCALARS" (enc_scalars x ++ r) = Some r'.
Proof. intros. unfold enc_scalars, scalars. cbn [app]. rewrite expect_word. eauto. Qed.
Lemma read_all_enc : forall k l fuel r, (forall x, In x l -> well k x) -> expect "SCALARS" r = None -> (length l < fuel)%nat ->
  read_all_scalars fuel k (flat_map enc_scalars l ++ r) = Some (map named l, r).
Proof.
  intros k l. induction l as [| x l IH]; intros fuel r H E F; (destruct fuel as [| f]; [cbn in F; lia |]).
  - cbn [flat_map app map read_all_scalars]. rewrite E. reflexivity.
  - cbn [flat_map map read_all_scalars]. rewrite <- app_assoc. destruct (enc_expect x (flat_map enc_scalars l ++ r)) as [r' ->].
    rewrite read_scalars_enc by (apply H; left; reflexivity). cbn [obind]. rewrite IH; [reflexivity | | exact E | cbn in F; lia].
    intros y Hy. apply H. right. exact Hy.
Qed.
Lemma enc_len : forall l, (6 * length l <= length (flat_map enc_scalars l))%nat.
Proof. induction l as [| x l IH]; [cbn; lia |]. cbn [flat_map length]. rewrite app_length. unfold enc_scalars at 1, scalars. rewrite app_length. cbn [length]. lia. Qed.

Lemma vals_map : forall (A : Type) (f : A -> tok) l, (forall a, is_value (f a) = true) -> forall t, In t (map f l) -> is_value t = true.
Proof. intros A f l H t Ht. apply in_map_iff in Ht as [a [<- _]]. apply H. Qed.

Definition cell_arrays (prf : R -> R) (d : data) : list entry3 :=
  [("ze_cell", "double", map (fun q => pf prf (ze q)) (d_qc d)); ("qx_cell", "double", map (fun q => pf prf (qx q)) (d_qc d));
   ("qy_cell", "double", map (fun q => pf prf (qy q)) (d_qc d)); ("bath_cell", "double", map (pf prf) (d_ac d));
   ("ID", "unsigned_int", map Int (d_id d)); ("wet_dry", "bit", map pb (d_wet d)); ("went_completely_dry", "bit", map pb (d_gone d))]%string.
Definition point_arrays (prf : R -> R) (d : data) : list entry3 :=
  [("ze_point", "double", map (fun q => pf prf (ze q)) (d_qp d)); ("qx_point", "double", map (fun q => pf prf (qx q)) (d_qp d));
   ("qy_point", "double", map (fun q => pf prf (qy q)) (d_qp d)); ("bath_point", "double", map (pf prf) (d_ap d))]%string.
Definition consistent (np nc : nat) (d : data) : Prop :=
  length (d_qp d) = np /\ length (d_ap d) = np /\ length (d_qc d) = nc /\ length (d_ac d) = nc /\
  length (d_id d) = nc /\ length (d_wet d) = nc /\ length (d_gone d) = nc.
Lemma raw_enc : forall prf d, raw_vtk prf d =
  [Word "CELL_DATA"; Int (length (d_qc d))] ++ flat_map enc_scalars (cell_arrays prf d) ++
  [Word "POINT_DATA"; Int (length (d_qp d))] ++ flat_map enc_scalars (point_arrays prf d).
Proof.
  intros. unfold raw_vtk, cell_arrays, point_arrays. cbn [flat_map]. unfold enc_scalars. cbn [fst snd].
  rewrite <- !app_assoc, ?app_nil_r. reflexivity.
Qed.
Lemma cell_arrays_well : forall prf d np nc, consistent np nc d -> forall x, In x (cell_arrays prf d) -> well nc x.
Proof.
  intros prf d np nc (H1 & H2 & H3 & H4 & H5 & H6 & H7) x Hx. unfold cell_arrays in Hx. cbn [In] in Hx.
  repeat (destruct Hx as [<- | Hx]; [split; cbn [fst snd]; [rewrite map_length; assumption | apply vals_map; reflexivity] |]). contradiction.
Qed.
Lemma point_arrays_well : forall prf d np nc, consistent np nc d -> forall x, In x (point_arrays prf d) -> well np x.
Proof.
  intros prf d np nc (H1 & H2 & H3 & H4 & H5 & H6 & H7) x Hx. unfold point_arrays in Hx. cbn [In] in Hx.
  repeat (destruct Hx as [<- | Hx]; [split; cbn [fst snd]; [rewrite map_length; assumption | apply vals_map; reflexivity] |]). contradiction.
Qed.

(** Cells: type and three numbers. *)
Definition tri_cell (c : list nat) : Prop := exists a b d, c = [5; a; b; d]%nat.
Definition print3 (prd : R -> R) (x : R * R * R) : R * R * R := (prd (fst (fst x)), prd (snd (fst x)), prd (snd x)).
Lemma cell_entries_ok : forall cells s, (forall c, In c cells -> tri_cell c) ->
  ofold (fun s c => if (hd 0 c =? straight_triangle)%nat then Ok (s + 4)%nat else Throw) cells s = Ok (s + 4 * length cells)%nat.
Proof.
  induction cells as [| c cells IH]; intros s H; cbn [ofold length]; [f_equal; lia |].
  destruct (H c (or_introl eq_refl)) as [a [b [d ->]]]. cbn [hd]. change (5 =? straight_triangle)%nat with true. cbn [bind].
  rewrite IH by (intros; apply H; right; assumption). f_equal. lia.
Qed.
Definition cell_toks (c : list nat) : list tok := Int 3 :: map Int (tl c).
Lemma cell_lines_ok : forall (line : list nat -> outcome (list tok)) (g : list nat -> list tok) cells acc, (forall c, tri_cell c -> line c = Ok (g c)) -> (forall c, In c cells -> tri_cell c) ->
  ofold (fun l c => do x <- line c ; Ok (l ++ x)) cells acc = Ok (acc ++ flat_map g cells).
Proof.
  intros line g. induction cells as [| c cells IH]; intros acc L H; cbn [ofold flat_map]; [rewrite app_nil_r; reflexivity |].
  rewrite (L c (H c (or_introl eq_refl))). cbn [bind]. rewrite IH by (try exact L; intros; apply H; right; assumption). rewrite app_assoc. reflexivity.
Qed.
Lemma read_cell_ok : forall c r, tri_cell c -> read_cell (cell_toks c ++ r) = Some (tl c, r).
Proof. intros c r [a [b [d ->]]]. reflexivity. Qed.
Lemma total_tri : forall cells, (forall c, In c cells -> tri_cell c) -> total (map (@tl nat) cells) = (4 * length cells)%nat.
Proof.
  induction cells as [| c cells IH]; intros H; [reflexivity |]. cbn [map]. unfold total. cbn [fold_right]. fold (total (map (@tl nat) cells)).
  rewrite IH by (intros; apply H; right; assumption). destruct (H c (or_introl eq_refl)) as [a [b [d ->]]]. cbn [tl length]. lia.
Qed.
Lemma types_tri : forall cells, (forall c, In c cells -> tri_cell c) -> map (hd 0%nat) cells = repeat 5%nat (length cells).
Proof.
  induction cells as [| c cells IH]; intros H; [reflexivity |]. cbn [map length repeat]. rewrite IH by (intros; apply H; right; assumption).
  destruct (H c (or_introl eq_refl)) as [a [b [d ->]]]. reflexivity.
Qed.
Lemma read_points_ok : forall prd l r, many read_point (length l) (flat_map (triple prd) l ++ r) = Some (map (print3 prd) l, r).
Proof. intros. apply many_enc. reflexivity. Qed.

Section File.
  Context (n p : nat) (Hn : (1 <= n)%nat) (prd prf : R -> R).
  Lemma geometry_tri : forall els c, In c (snd (geometry n els)) -> tri_cell c.
  Proof.
    intros els c H. rewrite (geometry_lists n Hn) in H. cbn [snd] in H. apply in_flat_map in H as [e [_ H]].
    unfold cells_at in H. apply in_app_iff in H as [H | H]; apply in_map_iff in H as [ij [<- _]]; unfold tri_cell; eauto.
    - exists (pt_ID n (e * tri (n + 1)) ij), (pt_ID n (e * tri (n + 1)) ij + 1)%nat, (pt_ID n (e * tri (n + 1)) ij + (n + 1 - fst ij))%nat. reflexivity.
    - exists (pt_ID n (e * tri (n + 1)) ij), (pt_ID n (e * tri (n + 1)) ij + 1)%nat, (pt_ID n (e * tri (n + 1)) ij - (n + 2 - fst ij) + 1)%nat. reflexivity.
  Qed.
  Lemma legacy_read : forall els0 els d, collect n p els = Ok d ->
    consistent (length (fst (geometry n els0))) (length (snd (geometry n els0))) d ->
    exists f, file_vtk n p prd prf els0 els = Ok f /\
      read_vtk f = Some (GF (map (print3 prd) (fst (geometry n els0))) (map (@tl nat) (snd (geometry n els0)))
                            (repeat 5%nat (length (snd (geometry n els0)))) (map named (cell_arrays prf d)) (map named (point_arrays prf d))).
  Proof.
    intros els0 els d Hd Hc. pose proof (geometry_tri els0) as T. unfold file_vtk, geometry_vtk.
    set (P := fst (geometry n els0)) in *. set (C := snd (geometry n els0)) in *.
    unfold cell_entries. rewrite cell_entries_ok by exact T. cbn [bind].
    unfold cell_lines. rewrite (cell_lines_ok cell_line cell_toks) by (try exact T; intros c [a [b [e ->]]]; reflexivity). cbn [bind].
    rewrite Hd. cbn [bind]. eexists. split; [reflexivity |]. rewrite raw_enc.
    destruct Hc as (H1 & H2 & H3 & H4 & H5 & H6 & H7).
    assert (Hc : consistent (length P) (length C) d) by (repeat apply conj; assumption).
    rewrite <- !app_assoc. cbn [app]. unfold read_vtk. cbn [read_word obind]. rewrite !expect_word. cbn [obind].
    rewrite !expect_word. cbn [obind]. rewrite !expect_word. cbn [obind]. rewrite !expect_word. cbn [obind read_int read_word].
    rewrite read_points_ok. cbn [obind]. rewrite expect_word. cbn [obind read_int].
    rewrite (many_enc _ _ read_cell cell_toks (@tl nat)) by (intros c r Hin; apply read_cell_ok, T, Hin). cbn [obind].
    rewrite total_tri by exact T. cbn [Nat.add]. rewrite Nat.eqb_refl, expect_word. cbn [obind read_int]. rewrite Nat.eqb_refl.
    rewrite (many_ints _ (hd 0%nat)). cbn [obind]. rewrite expect_word. cbn [obind read_int]. rewrite H3, Nat.eqb_refl.
    rewrite (read_all_enc (length C) (cell_arrays prf d)).
    2: exact (cell_arrays_well prf d _ _ Hc).
    2: reflexivity.
    2: { rewrite app_length. pose proof (enc_len (cell_arrays prf d)) as K. cbn [length cell_arrays] in *. lia. }
    cbn [obind]. rewrite expect_word. cbn [obind read_int]. rewrite H1, Nat.eqb_refl.
    rewrite <- (app_nil_r (flat_map enc_scalars (point_arrays prf d))).
    rewrite (read_all_enc (length P) (point_arrays prf d)).
    2: exact (point_arrays_well prf d _ _ Hc).
    2: reflexivity.
    2: { rewrite app_length. pose proof (enc_len (point_arrays prf d)) as K. cbn [length point_arrays] in *. lia. }
    cbn [obind]. rewrite types_tri by exact T. reflexivity.
  Qed.
End File.

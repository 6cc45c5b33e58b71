From Coq Require Import String ZArith Reals List Bool Arith Lia Lra.
From Verif Require Import Num Outcome ModelSWE ModelShape ModelBasis ModelVtk SpecShape SpecVtk LemmasVtk1 LemmasVtk2 LemmasVtk4.
Import ListNotations.
Open Scope R_scope.

Definition plain (l : list tok) : Prop := forall t, In t l -> is_tag t = false.
Lemma content_ok : forall l t r, plain l -> is_tag t = true -> content (l ++ t :: r) = (l, t :: r).
Proof.
  induction l as [| a l IH]; intros t r H E; cbn [app content]; [rewrite E; reflexivity |].
  rewrite (H a (or_introl eq_refl)), IH; [reflexivity | intros b Hb; apply H; right; exact Hb | exact E].
Qed.
Lemma expect_open_ok : forall s nm r, expect_open s (Open s nm :: r) = Some (nm, r).
Proof. intros. unfold expect_open. rewrite String.eqb_refl. reflexivity. Qed.
Lemma expect_close_ok : forall s r, expect_close s (Close s :: r) = Some r.
Proof. intros. unfold expect_close. rewrite String.eqb_refl. reflexivity. Qed.
Definition enc_array (x : string * list tok) : list tok := array (fst x) (snd x).
Lemma read_array_ok : forall x r, plain (snd x) -> read_array (enc_array x ++ r) = Some (x, r).
Proof.
  intros [nm l] r H. unfold enc_array, array, read_array. cbn [fst snd] in *. rewrite <- !app_assoc. cbn [app].
  rewrite expect_open_ok. cbn [obind]. rewrite content_ok by (try exact H; reflexivity). rewrite expect_close_ok. reflexivity.
Qed.
Lemma read_arrays_ok : forall l fuel r, (forall x, In x l -> plain (snd x)) -> expect_open "DataArray" r = None -> (length l < fuel)%nat ->
  read_arrays fuel (flat_map enc_array l ++ r) = Some (l, r).
Proof.
  intros l. induction l as [| x l IH]; intros fuel r H E F; (destruct fuel as [| f]; [cbn in F; lia |]).
  - cbn [flat_map app read_arrays]. rewrite E. reflexivity.
  - cbn [flat_map read_arrays]. rewrite <- app_assoc.
    assert (O : exists q, expect_open "DataArray" (enc_array x ++ flat_map enc_array l ++ r) = Some q).
    { unfold enc_array at 1, array. rewrite <- !app_assoc. cbn [app]. rewrite expect_open_ok. eauto. }
    destruct O as [q ->]. rewrite read_array_ok by (apply H; left; reflexivity). cbn [obind].
    rewrite IH; [reflexivity | intros y Hy; apply H; right; exact Hy | exact E | cbn in F; lia].
Qed.
Lemma arrays_len : forall l, (2 * length l <= length (flat_map enc_array l))%nat.
Proof. induction l as [| x l IH]; [cbn; lia |]. cbn [flat_map length]. rewrite app_length. unfold enc_array at 1, array. rewrite !app_length. cbn [length]. lia. Qed.
Lemma read_section_ok : forall tag l r, (forall x, In x l -> plain (snd x)) ->
  read_section tag (Open tag "" :: flat_map enc_array l ++ Close tag :: r) = Some (l, r).
Proof.
  intros tag l r H. unfold read_section. rewrite expect_open_ok. cbn [obind]. rewrite read_arrays_ok; [| exact H | reflexivity |].
  - cbn [obind]. rewrite expect_close_ok. reflexivity.
  - rewrite app_length. cbn [length]. pose proof (arrays_len l). lia.
Qed.
Lemma plain_map : forall (A : Type) (f : A -> tok) l, (forall a, is_tag (f a) = false) -> plain (map f l).
Proof. intros A f l H t Ht. apply in_map_iff in Ht as [a [<- _]]. apply H. Qed.

Lemma offsets_ok : forall cells s l, (forall c, In c cells -> tri_cell c) ->
  ofold (fun s c => if (hd 0 c =? straight_triangle)%nat then Ok ((fst s + 3)%nat, snd s ++ [Int (fst s + 3)]) else Throw) cells (s, l) =
    Ok ((s + 3 * length cells)%nat, l ++ map (fun k => Int (s + 3 * (k + 1))) (seq 0 (length cells))).
Proof.
  induction cells as [| c cells IH]; intros s l H; cbn [ofold length seq map]; [rewrite app_nil_r; repeat f_equal; lia |].
  destruct (H c (or_introl eq_refl)) as [a [b [d ->]]]. cbn [hd]. change (5 =? straight_triangle)%nat with true. cbn [bind fst snd].
  rewrite IH by (intros; apply H; right; assumption). f_equal. f_equal; [lia |]. rewrite <- app_assoc. cbn [app]. f_equal. f_equal.
  rewrite <- seq_shift, map_map. apply map_ext. intros k. f_equal. lia.
Qed.
Definition conn_toks (c : list nat) : list tok := map Int (tl c).
Lemma conn_flat : forall cells, flat_map conn_toks cells = map Int (flat_map (@tl nat) cells).
Proof. induction cells; cbn [flat_map]; [reflexivity |]. rewrite map_app, IHcells. reflexivity. Qed.
Lemma conn_len : forall cells, (forall c, In c cells -> tri_cell c) -> length (flat_map (@tl nat) cells) = (3 * length cells)%nat.
Proof.
  induction cells as [| c cells IH]; intros H; [reflexivity |]. cbn [flat_map length]. rewrite app_length, IH by (intros; apply H; right; assumption).
  destruct (H c (or_introl eq_refl)) as [a [b [d ->]]]. cbn [tl length]. lia.
Qed.
Lemma cut_ok : forall cells s, (forall c, In c cells -> tri_cell c) ->
  cut s (map (fun k => s + 3 * (k + 1))%nat (seq 0 (length cells))) (flat_map (@tl nat) cells) = map (@tl nat) cells.
Proof.
  induction cells as [| c cells IH]; intros s H; [reflexivity |]. cbn [length seq map cut flat_map].
  replace (s + 3 * (0 + 1) - s)%nat with 3%nat by lia. destruct (H c (or_introl eq_refl)) as [a [b [d ->]]]. cbn [tl app firstn skipn].
  f_equal. rewrite <- (IH (s + 3 * (0 + 1))%nat) by (intros; apply H; right; assumption). f_equal. rewrite <- seq_shift, map_map. apply map_ext. intros k. lia.
Qed.
Lemma last_offset : forall m, last (map (fun k => 0 + 3 * (k + 1))%nat (seq 0 m)) 0%nat = (3 * m)%nat.
Proof. intros m. destruct m; [reflexivity |]. rewrite seq_S, map_app. cbn [map]. rewrite last_last. lia. Qed.
Lemma whole_ok : forall (A : Type) (rd : list tok -> option (list A * list tok)) l a, rd (l ++ []) = Some (a, []) -> whole rd l = Some a.
Proof. intros A rd l a H. unfold whole. rewrite app_nil_r in H. rewrite H. reflexivity. Qed.

(** The arrays of the XML file. *)
Definition vtu_points (prf : R -> R) (d : data) : list (string * list tok) :=
  map named (point_arrays prf d) ++
  [("velocity_point"%string, map (fun k => velocity prf (nth k (d_qp d) (V3 0 0 0)) (nth k (d_ap d) 0)) (seq 0 (length (d_qp d))))].
Lemma velocity_plain : forall prf q b, is_tag (velocity prf q b) = false.
Proof. intros. unfold velocity. destruct (Req_EM_T _ _); [destruct (Req_EM_T _ _) |]; reflexivity. Qed.
Lemma raw_vtu_enc : forall prf d, raw_vtu prf d =
  Open "PointData" "" :: flat_map enc_array (vtu_points prf d) ++ Close "PointData" ::
  Open "CellData" "" :: flat_map enc_array (map named (cell_arrays prf d)) ++ [Close "CellData"].
Proof.
  intros. unfold raw_vtu, vtu_points, cell_arrays, point_arrays, named. cbn [flat_map map app]. unfold enc_array. cbn [fst snd].
  rewrite <- !app_assoc. cbn [app]. rewrite ?app_nil_r. reflexivity.
Qed.

Section File.
  Context (n p : nat) (Hn : (1 <= n)%nat) (prd prf : R -> R).
  Lemma xml_read : forall els0 els d, collect n p els = Ok d ->
    consistent (length (fst (geometry n els0))) (length (snd (geometry n els0))) d ->
    exists f, file_vtu n p prd prf els0 els = Ok f /\
      read_vtu f = Some (GF (map (print3 prd) (fst (geometry n els0))) (map (@tl nat) (snd (geometry n els0)))
                            (repeat 5%nat (length (snd (geometry n els0)))) (map named (cell_arrays prf d)) (vtu_points prf d)).
  Proof.
    intros els0 els d Hd Hc. pose proof (geometry_tri n Hn els0) as T. unfold file_vtu, foot_vtu, head_vtu.
    set (P := fst (geometry n els0)) in *. set (C := snd (geometry n els0)) in *.
    unfold cell_lines. rewrite (cell_lines_ok connectivity conn_toks) by (try exact T; intros c [a [b [e ->]]]; reflexivity). cbn [bind app].
    unfold offsets. rewrite offsets_ok by exact T. cbn [bind snd app]. rewrite Hd. cbn [bind]. eexists. split; [reflexivity |]. rewrite raw_vtu_enc, conn_flat.
    set (PT := [(""%string, flat_map (triple prd) P)]).
    set (CT := [("connectivity"%string, map Int (flat_map (@tl nat) C)); ("offsets"%string, map (fun k => Int (0 + 3 * (k + 1))) (seq 0 (length C)));
                ("types"%string, map (fun c => Int (hd 0%nat c)) C)]).
    match goal with |- read_vtu ?f = _ => replace f with
      (Open "VTKFile" "" :: Open "UnstructuredGrid" "" :: Piece (length P) (length C) ::
       Open "PointData" "" :: flat_map enc_array (vtu_points prf d) ++ Close "PointData" ::
       Open "CellData" "" :: flat_map enc_array (map named (cell_arrays prf d)) ++ Close "CellData" ::
       Open "Points" "" :: flat_map enc_array PT ++ Close "Points" ::
       Open "Cells" "" :: flat_map enc_array CT ++ Close "Cells" ::
       [Close "Piece"; Close "UnstructuredGrid"; Close "VTKFile"]) end.
    2: { unfold PT, CT. generalize (flat_map enc_array (vtu_points prf d)) as X1. generalize (flat_map enc_array (map named (cell_arrays prf d))) as X2. intros.
         cbn [flat_map]. unfold enc_array, array. cbn [fst snd]. repeat (rewrite <- ?app_assoc; cbn [app]). reflexivity. }
    unfold read_vtu. rewrite !expect_open_ok. cbn [obind]. rewrite !expect_open_ok. cbn [obind read_piece].
    rewrite read_section_ok.
    2: { intros x Hx. unfold vtu_points in Hx. apply in_app_iff in Hx as [Hx | [<- | []]].
         - apply in_map_iff in Hx as [y [<- Hy]]. intros t Ht. pose proof (proj2 (point_arrays_well prf d _ _ Hc y Hy) t Ht). destruct t; try reflexivity; discriminate.
         - apply plain_map. intros. apply velocity_plain. }
    cbn [obind]. rewrite read_section_ok.
    2: { intros x Hx. apply in_map_iff in Hx as [y [<- Hy]]. intros t Ht. pose proof (proj2 (cell_arrays_well prf d _ _ Hc y Hy) t Ht). destruct t; try reflexivity; discriminate. }
    cbn [obind]. rewrite read_section_ok.
    2: { intros x [<- | []] t Ht. cbn [snd] in Ht. apply in_flat_map in Ht as [y [_ Ht]]. destruct Ht as [<- | [<- | [<- | []]]]; reflexivity. }
    cbn [obind]. rewrite read_section_ok.
    2: { intros x Hx. unfold CT in Hx. destruct Hx as [<- | [<- | [<- | []]]]; apply plain_map; reflexivity. }
    cbn [obind]. rewrite !expect_close_ok. cbn [obind]. rewrite !expect_close_ok. cbn [obind]. rewrite !expect_close_ok. cbn [obind].
    unfold PT. rewrite (whole_ok _ _ _ _ (read_points_ok prd P [])). cbn [obind].
    assert (K1 : lookup "connectivity" CT = Some (map Int (flat_map (@tl nat) C))) by reflexivity.
    assert (K2 : lookup "offsets" CT = Some (map (fun k => Int (0 + 3 * (k + 1))) (seq 0 (length C)))) by reflexivity.
    assert (K3 : lookup "types" CT = Some (map (fun c => Int (hd 0%nat c)) C)) by reflexivity.
    rewrite K1, K2, K3. cbn [obind]. rewrite map_length.
    pose proof (many_ints _ (fun x : nat => x) (flat_map (@tl nat) C) []) as M. rewrite map_id in M. change (fun a : nat => Int a) with Int in M. rewrite (whole_ok _ _ _ _ M). cbn [obind].
    pose proof (many_ints _ (fun k => 0 + 3 * (k + 1))%nat (seq 0 (length C)) []) as M2. rewrite seq_length in M2. rewrite (whole_ok _ _ _ _ M2). cbn [obind].
    rewrite (whole_ok _ _ _ _ (many_ints _ (hd 0%nat) C [])). cbn [obind].
    assert (S1 : sized (length P) (vtu_points prf d) = true).
    { unfold sized. apply forallb_forall. intros x Hx. apply Nat.eqb_eq. unfold vtu_points in Hx. apply in_app_iff in Hx as [Hx | [<- | []]].
      - apply in_map_iff in Hx as [y [<- Hy]]. exact (proj1 (point_arrays_well prf d _ _ Hc y Hy)).
      - cbn [snd]. rewrite map_length, seq_length. exact (proj1 Hc). }
    assert (S2 : sized (length C) (map named (cell_arrays prf d)) = true).
    { unfold sized. apply forallb_forall. intros x Hx. apply Nat.eqb_eq. apply in_map_iff in Hx as [y [<- Hy]]. exact (proj1 (cell_arrays_well prf d _ _ Hc y Hy)). }
    rewrite S1, S2, last_offset, conn_len, Nat.eqb_refl by exact T. cbn [andb]. rewrite cut_ok, types_tri by exact T. reflexivity.
  Qed.
End File.

(** The generator's file: how far coordinates move, and the mesh the solver builds. *)
From Coq Require Import String Reals ZArith NArith List Bool Lia Lra.
From Verif Require Import Num Outcome ModelStream ModelMeta ModelMesh ModelQuad ModelFort ModelQuadFile SpecMeta SpecMesh SpecFort SpecQuadFile LemmasRound LemmasStream LemmasMeta LemmasFort LemmasQuadFile LemmasQuad LemmasQuad2 LemmasQuad3 LemmasQuad4.
Import ListNotations.
Local Open Scope R_scope.

Lemma abs_bounds : forall x e, Rabs x <= e -> - e <= x <= e.
Proof. intros x e H. split; [pose proof (Rle_abs (- x)) as Z; rewrite Rabs_Ropp in Z; lra|pose proof (Rle_abs x); lra]. Qed.
Lemma refixed_near : forall d, near (refixed d) d.
Proof.
  intros d. unfold near, refixed. assert (Bp : (0 < snd (frac (d_man d) 2 (d_exp d)))%N) by (unfold frac; cbn [snd]; apply (radix_pow_pos 2 two)).
  pose proof (frac_value 2 (d_man d) (d_exp d) two) as Fv. unfold scaled12. set (a := fst (frac (d_man d) 2 (d_exp d))) in *. set (b := snd (frac (d_man d) 2 (d_exp d))) in *.
  pose proof (nearest_error (a * 10 ^ 12) b Bp) as E1. set (n := nearest (a * 10 ^ 12) b) in *. clearbody n.
  pose proof (pw_pos 2 two (d_exp d)) as P1. pose proof (nr_nonneg (d_man d)) as Q1. rewrite !double_value_nr. set (x := nr (d_man d) * pw 2 (d_exp d)) in *. assert (X0 : 0 <= x) by (unfold x; apply Rmult_le_pos; lra).
  rewrite nr_mult in E1. replace (nr a * nr (10 ^ 12) / nr b) with (1000000000000 * x) in E1. 2: { rewrite <- Fv. change (nr (10 ^ 12)) with 1000000000000. pose proof (nr_pos b Bp). field. lra. }
  apply abs_bounds in E1. clearbody x. clear - E1 X0.
  assert (F : Rabs (nr (d_man (to_double (d_neg d) n (-12))) * pw 2 (d_exp (to_double (d_neg d) n (-12))) - x) <= / 1000000000000 + / 4503599627370496 * x).
  { unfold to_double. destruct (n =? 0)%N eqn:Ez.
    - apply N.eqb_eq in Ez. subst n. cbn [d_man d_exp]. change (nr 0) with 0 in *. rewrite Rmult_0_l. apply Rabs_le. lra.
    - apply N.eqb_neq in Ez. destruct (frac_pos 10 n (-12) ten ltac:(lia)) as [A' B']. pose proof (round_to_canonical 2 53 two eq_refl _ _ A' B') as C2. pose proof (round_to_error 2 53 two eq_refl _ _ A' B') as E2. rewrite frac_value in E2 by exact ten.
      destruct (frac n 10 (-12)) as [a b]. cbn [fst snd] in *. destruct (round_to 2 53 a b) as [m e]. unfold canonical in C2. unfold real in E2. cbn [fst snd d_man d_exp] in *. destruct C2 as [C2 _].
      change (2 ^ (53 - 1))%N with 4503599627370496%N in C2. apply nr_le in C2. change (nr 4503599627370496) with 4503599627370496 in C2.
      replace (pw 10 (-12)) with (/ 1000000000000) in E2. 2: { change (-12)%Z with (- (Z.of_N 12))%Z. rewrite pw_opp, <- pw_N by exact ten. reflexivity. }
      pose proof (pw_pos 2 two e) as P3. set (w := nr m * pw 2 e) in *. assert (W1 : 4503599627370496 * pw 2 e <= w) by (unfold w; apply Rmult_le_compat_r; lra). clearbody w.
      set (p := pw 2 e) in *. clearbody p. apply abs_bounds in E2. apply Rabs_le. lra. }
  assert (Sg : d_neg (to_double (d_neg d) n (-12)) = d_neg d). { unfold to_double. destruct (_ =? _)%N; [reflexivity|]. destruct (frac _ _ _). destruct (round_to _ _ _ _). reflexivity. }
  assert (S1 : Rabs (if d_neg d then -1 else 1) = 1) by (destruct (d_neg d); [rewrite Rabs_left; lra|apply Rabs_R1]).
  rewrite Sg, <- Rmult_minus_distr_l, !Rabs_mult, S1, !Rmult_1_l, (Rabs_pos_eq x) by lra. exact F.
Qed.
Local Open Scope N_scope.

Lemma lands_segments : forall types lists,
  map (fun l => match l with Plain t ns => Segment t ns None | Barrier t bs => Segment t (map b_front bs) (Some (map b_back bs)) end) (quad_lands types lists) = land_segments types lists.
Proof.
  intros types lists. unfold quad_lands, land_segments. induction (combine types lists) as [|x l IH]; [reflexivity|]. cbn [flat_map]. rewrite map_app, IH. f_equal. destruct (land_code _); reflexivity.
Qed.
Theorem quad_file : forall nodes pat types m n, fits m n -> map fst nodes = nrange ((m + 1) * (n + 1)) ->
  exists els f, make_elements pat m n = Ok els /\ read_fort (write_quad nodes els types m n) = Ok f /\
    adcirc_of f = quad_adcirc types m n els /\
    Forall2 (fun a b => fst a = fst b /\ near_points (snd a) (snd b)) (ft_nodes f) nodes.
Proof.
  intros nodes pat types m n F Hn. assert (F' := F). destruct F' as (Hm & Hn0 & H1 & H2). exists (quad_elements pat m n). eexists. split; [apply make_elements_ok; exact F|]. split.
  - apply quad_file_read; [exact H1|exact H2|exact Hn|apply quad_ids|]. apply Forall_forall. intros [e t] Hin.
    assert (V : forall k, vertex t k < 4294967296). { intros k. apply N.lt_trans with ((m + 1) * (n + 1)); [eapply vertex_range; eassumption|exact H2]. }
    destruct t as [[a b] c]. cbn [snd]. pose proof (V 0%nat). pose proof (V 1%nat). pose proof (V 2%nat). repeat constructor; assumption.
  - split.
    + unfold adcirc_of, quad_adcirc. cbn [ft_elements ft_open ft_land ft_generic gn_lists]. rewrite lands_segments. f_equal. rewrite map_map. rewrite <- (map_id (quad_elements pat m n)) at 2. apply map_ext. intros [e [[a b] c]]. reflexivity.
    + cbn [ft_nodes]. clear. unfold refixed_nodes. induction nodes as [|[k [[x y] z]] l IH]; constructor; [|exact IH]. cbn [fst snd near_points]. auto using refixed_near.
Qed.

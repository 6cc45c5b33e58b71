(** More lemmas about boundary signals, the generator's file and levee data. *)
From Coq Require Import Reals NArith ZArith List Bool Arith Lia Lra Permutation.
From Verif Require Import Num ModelPi LemmasPi Outcome ModelSWE ModelShape SpecShape LemmasShape ModelMesh SpecMesh LemmasMesh4 ModelStepper LemmasStepper LemmasRK2
  ModelQuad LemmasQuad LemmasQuad4 ModelBcis SpecBcis LemmasBcis.
Import ListNotations.
Open Scope R_scope.

(** ** Size and symmetry of the signal *)
Lemma between_abs : forall x y z, -1 <= z <= 1 -> Rabs (between x y z) <= Rmax (Rabs x) (Rabs y).
Proof.
  intros x y z H. unfold between. eapply Rle_trans; [apply Rabs_triang|].
  rewrite !Rabs_mult, (Rabs_right ((1 - z) / 2)), (Rabs_right ((1 + z) / 2)) by lra.
  pose proof (Rmax_l (Rabs x) (Rabs y)). pose proof (Rmax_r (Rabs x) (Rabs y)).
  apply Rle_trans with ((1 - z) / 2 * Rmax (Rabs x) (Rabs y) + (1 + z) / 2 * Rmax (Rabs x) (Rabs y)); [|lra].
  apply Rplus_le_compat; apply Rmult_le_compat_l; lra.
Qed.
Lemma wave_abs : forall angle a b t z c, -1 <= z <= 1 ->
  Rabs (wave angle a b t z c) <= Rabs (c_ff c) * Rmax (Rabs (fst (row_of c a))) (Rabs (fst (row_of c b))).
Proof.
  intros angle a b t z c H. unfold wave. rewrite !Rabs_mult. rewrite <- (Rmult_1_r (Rabs (c_ff c) * Rmax _ _)).
  apply Rmult_le_compat; [apply Rmult_le_pos; apply Rabs_pos|apply Rabs_pos| |].
  - apply Rmult_le_compat_l; [apply Rabs_pos|]. apply between_abs. assumption.
  - apply Rabs_le. split; [apply COS_bound|apply COS_bound].
Qed.
Lemma total_abs : forall (f g : con -> R) cs, (forall c, In c cs -> Rabs (f c) <= g c) -> Rabs (total (map f cs)) <= total (map g cs).
Proof.
  induction cs as [|c cs IH]; intros H; cbn; [rewrite Rabs_R0; lra|]. eapply Rle_trans; [apply Rabs_triang|].
  apply Rplus_le_compat; [apply H; left; reflexivity|apply IH; intros; apply H; right; assumption].
Qed.
Lemma table_abs : forall cs a b t z, -1 <= z <= 1 -> Rabs (tide_table cs a b t z) <=
  total (map (fun c => Rabs (c_ff c) * Rmax (Rabs (fst (row_of c a))) (Rabs (fst (row_of c b)))) cs).
Proof. intros. unfold tide_table. apply total_abs. intros. apply wave_abs. assumption. Qed.
Lemma between_swap : forall x y z, between y x (- z) = between x y z.
Proof. intros. unfold between. field. Qed.
Lemma table_swap : forall cs a b t z, tide_table cs b a t (- z) = tide_table cs a b t z.
Proof.
  intros. unfold tide_table. f_equal. apply map_ext. intros c. unfold wave. rewrite !between_swap. reflexivity.
Qed.

Lemma total_minus : forall (f g : con -> R) l, total (map f l) - total (map g l) = total (map (fun c => f c - g c) l).
Proof. intros f g l. induction l as [|c l IH]; cbn; [ring|]. rewrite <- IH. ring. Qed.
Lemma table_digits : forall cs a b t z, -1 <= z <= 1 -> Rabs (tide_table cs a b t z - true_table cs a b t z) <=
  total (map (fun c => Rabs (c_ff c) * Rmax (Rabs (fst (row_of c a))) (Rabs (fst (row_of c b))) *
    (Rabs (c_eq c - between (snd (row_of c a)) (snd (row_of c b)) z) * (2 / 1000000000000000))) cs).
Proof.
  intros cs a b t z Hz. unfold tide_table, true_table. rewrite total_minus. apply total_abs. intros c _. unfold wave.
  rewrite <- Rmult_minus_distr_l, Rabs_mult. apply Rmult_le_compat; try apply Rabs_pos.
  - rewrite Rabs_mult. apply Rmult_le_compat_l; [apply Rabs_pos|]. apply between_abs. exact Hz.
  - eapply Rle_trans; [apply cos_lip|]. set (x := c_eq c - _). pose proof (deg_close x) as D. unfold degrees, true_degrees. fold code_pi.
    replace (c_freq c * t + x * (code_pi / 180) - (c_freq c * t + x * (PI / 180))) with (x * code_pi / 180 - x * (PI / 180)) by field. exact D.
Qed.

(** ** The fluxes *)
Lemma flow_mass : forall g h s z q a n, nx n * nx n + ny n * ny n = 1 ->
  ze (flow_flux g h s z q a n) = (sp a * qx q * nx n + qy q * ny n + imposed h s z) / 2.
Proof.
  intros g h s z q a n U. unfold flow_flux, LLF_flux, flow_ex. num_R. cbn [ze qx qy vscale vadd ModelSWE.vsub]. num_R.
  set (e := imposed h s z) in *. replace (ze q - ze q) with 0 by ring.
  replace (e * nx n * nx n + e * ny n * ny n) with (e * (nx n * nx n + ny n * ny n)) by ring. rewrite U. field.
Qed.
Lemma tide_mass : forall g h s z q a n, exists lambda, 0 <= lambda /\ 
  ze (tide_flux g h s z q a n) = ((sp a + 1) * qx q * nx n + 2 * (qy q * ny n)) / 2 + lambda / 2 * (ze q - imposed h s z).
Proof.
  intros g h s z q a n. eexists. split; [|unfold tide_flux, LLF_flux, tide_ex; num_R; cbn [ze qx qy vscale vadd ModelSWE.vsub]; num_R].
  2: match goal with |- context[Rmax ?x ?y] => instantiate (1 := Rmax x y); set (m := Rmax x y) end; field.
  cbv beta. eapply Rle_trans; [|apply Rmax_l]. apply Rplus_le_le_0_compat; [apply Rabs_pos|apply sqrt_pos].
Qed.

(** ** Position of the Gauss points *)
Lemma face_position : forall (where_is : N -> point) (ids : nat -> N) k z, (k < 3)%nat ->
  0 <= orient (where_is (ids 0%nat)) (where_is (ids 1%nat)) (where_is (ids 2%nat)) ->
  boundary_point (StraightTriangle (fun i => where_is (ids i))) k z =
  on_segment (where_is (fst (GetBoundaryNodeID k ids))) (where_is (snd (GetBoundaryNodeID k ids))) z.
Proof.
  intros where_is ids k z Hk O. set (n := fun i => where_is (ids i)). destruct (jacobian_area n) as [J A].
  assert (E : StraightTriangle n = n).
  { unfold StraightTriangle. destruct (Rltb_spec (GetJdet n) 0) as [L|L]; [|reflexivity]. exfalso.
    rewrite J, A in L. unfold n in L. lra. }
  rewrite E. destruct (master_map n) as (_ & _ & B & _). rewrite B by exact Hk. reflexivity.
Qed.

(** ** The start of a run *)
Lemma start_zero : forall h nstages order dt rd z, imposed h (stepper_init nstages order dt true rd) z = 0.
Proof.
  intros. unfold imposed, signal. cbn [st_ramp stepper_init].
  assert (G : forall l acc (f g : nat -> R), acc = 0 -> fold_left (fun s con => s + 0 * f con * g con * cos (nth con (h_freq h) 0 * time_at_stage (stepper_init nstages order dt true rd) +
     (nth con (h_eq h) 0 - nodal_value (nth con (h_ph h) []) z) * code_pi / 180)) l acc = 0).
  { induction l as [|x l IH]; intros acc f g E; [exact E|]. cbn [fold_left]. apply IH. rewrite E. ring. }
  apply (G _ 0 (fun con => nth con (h_ff h) 0) (fun con => nodal_value (nth con (h_amp h) []) z)). reflexivity.
Qed.

(** ** The implicit solver *)
Lemma implicit_at_end : forall h dt rd k z, 0 < rd ->
  let s := Nat.iter k istepper_incr (istepper_init 1 dt true rd) in
  let s' := istepper_incr s in
  imposed_implicit h s z = signal_implicit h (is_ramp s') (itime_now s') z.
Proof.
  intros h dt rd k z H s s'. unfold imposed_implicit.
  destruct (iramp_levels dt rd k H) as [_ R1]. destruct (iramp_levels dt rd (S k) H) as [R2 _].
  destruct (incr_n_ifields 1 dt true rd k ltac:(discriminate)) as (_ & _ & _ & _ & T1).
  destruct (incr_n_ifields 1 dt true rd (S k) ltac:(discriminate)) as (_ & _ & _ & T2 & _).
  cbn zeta in *. change (Nat.iter (S k) istepper_incr (istepper_init 1 dt true rd)) with s' in *.
  fold s in R1, T1. rewrite Nat.div_1_r in T1, T2.
  assert (E : itime_next s = itime_now s') by (rewrite T1, T2; f_equal; f_equal; lia).
  rewrite R1, R2, E. reflexivity.
Qed.

(** ** The generator's file *)
Definition gen_section (x : (N * (R * R * R)) * list N) : list section :=
  let '((t, (f, ff, eq)), nodes) := x in
  let s k := [Harmonic k nodes [Con f ff eq (map (fun id => (id, (1, 0))) nodes)]] in
  if N.eqb t bt_tide then s TideKind else if N.eqb t bt_flow then s FlowKind else [].
Definition gen_sections (types : list N) (params : list (R * R * R)) (m n : N) : list section :=
  flat_map gen_section (combine (combine types params) (boundary_nodes m n)).
Lemma generated_print : forall types params m n, generated_bcis types params m n = print (gen_sections types params m n).
Proof.
  intros. unfold generated_bcis, print, gen_sections. induction (combine (combine types params) (boundary_nodes m n)) as [|x l IH]; [reflexivity|].
  cbn [flat_map]. rewrite flat_map_app, <- IH. f_equal. destruct x as [[t [[f ff] eq]] nodes].
  unfold gen_section. destruct (N.eqb_spec t bt_tide); [subst|destruct (N.eqb_spec t bt_flow); [subst|reflexivity]];
    cbn; rewrite !app_nil_r, map_map; reflexivity.
Qed.
Lemma gen_rows : forall (nodes : list N), map fst (map (fun id => (id, (1, 0))) nodes) = nodes.
Proof. intros. rewrite map_map. apply map_id. Qed.

(** Grid coordinates of the four lists. *)
Local Open Scope N_scope.
Definition on_side (m n : N) (k : nat) (i j : N) : Prop :=
  match k with 0%nat => j = 0 | 1%nat => i = m | 2%nat => j = n | _ => i = 0 end.
Lemma side_at : forall m n k t v, fits m n -> (k < 4)%nat -> nth_error (nth k (boundary_nodes m n) []) t = Some v ->
  exists i j, v = i + j * (m + 1) /\ i <= m /\ j <= n /\ on_side m n k i j /\
    (k = 0%nat \/ k = 2%nat -> i = N.of_nat t) /\ (k = 1%nat \/ k = 3%nat -> j = N.of_nat t).
Proof.
  intros m n k t v (Hm & Hn & H1 & H2) Hk E.
  destruct k as [|[|[|[|k]]]]; [| | | |lia]; cbn [boundary_nodes nth] in E; apply nth_range in E; destruct E as [L ->].
  - exists (N.of_nat t), 0. cbn. repeat apply conj; try lia; try (intros [?|?]; lia).
  - exists m, (N.of_nat t). rewrite u32_small by nia. cbn. repeat apply conj; try lia; try (intros [?|?]; lia).
  - exists (N.of_nat t), n. rewrite u32_small by nia. cbn. repeat apply conj; try lia; try (intros [?|?]; lia).
  - exists 0, (N.of_nat t). rewrite u32_small by nia. cbn. repeat apply conj; try lia; try (intros [?|?]; lia).
Qed.
Lemma grid_inj : forall m i j i' j', i <= m -> i' <= m -> i + j * (m + 1) = i' + j' * (m + 1) -> i = i' /\ j = j'.
Proof.
  intros m i j i' j' A B E.
  assert (j = j') by (destruct (N.lt_trichotomy j j') as [L|[L|L]]; [nia|exact L|nia]). subst. lia.
Qed.
Lemma side_nodup : forall m n k, fits m n -> (k < 4)%nat -> NoDup (nth k (boundary_nodes m n) []).
Proof.
  intros m n k F Hk. apply NoDup_nth_error. intros t u Ht E.
  destruct (nth_error (nth k (boundary_nodes m n) []) t) as [v|] eqn:E1; [|apply nth_error_None in E1; lia].
  destruct (side_at m n k t v F Hk E1) as (i & j & V & I & J & S & A & B).
  destruct (side_at m n k u v F Hk (eq_sym E)) as (i' & j' & V' & I' & J' & S' & A' & B').
  rewrite V in V'. apply grid_inj in V'; [|assumption|assumption]. destruct V'; subst.
  destruct k as [|[|[|[|k]]]]; [| | | |lia].
  - specialize (A (or_introl eq_refl)). specialize (A' (or_introl eq_refl)). lia.
  - specialize (B (or_introl eq_refl)). specialize (B' (or_introl eq_refl)). lia.
  - specialize (A (or_intror eq_refl)). specialize (A' (or_intror eq_refl)). lia.
  - specialize (B (or_intror eq_refl)). specialize (B' (or_intror eq_refl)). lia.
Qed.
Lemma followed_at : forall l (a b : N), followed l a b -> exists t, nth_error l t = Some a /\ nth_error l (S t) = Some b.
Proof.
  intros l a b (pre & post & ->). exists (length pre). split.
  - rewrite nth_error_app2, Nat.sub_diag by lia. reflexivity.
  - rewrite nth_error_app2 by lia. replace (S (length pre) - length pre)%nat with 1%nat by lia. reflexivity.
Qed.
Lemma side_alone : forall m n k k' a b, fits m n -> (k < 4)%nat -> (k' < 4)%nat -> k <> k' ->
  followed (nth k (boundary_nodes m n) []) a b -> ~ (In a (nth k' (boundary_nodes m n) []) /\ In b (nth k' (boundary_nodes m n) [])).
Proof.
  intros m n k k' a b F Hk Hk' D Fo [Ia Ib]. apply followed_at in Fo. destruct Fo as (t & Ea & Eb).
  apply In_nth_error in Ia. destruct Ia as [ta Ia]. apply In_nth_error in Ib. destruct Ib as [tb Ib].
  destruct (side_at m n k t a F Hk Ea) as (i1 & j1 & V1 & I1 & J1 & S1 & A1 & B1).
  destruct (side_at m n k (S t) b F Hk Eb) as (i2 & j2 & V2 & I2 & J2 & S2 & A2 & B2).
  destruct (side_at m n k' ta a F Hk' Ia) as (i3 & j3 & V3 & I3 & J3 & S3 & _).
  destruct (side_at m n k' tb b F Hk' Ib) as (i4 & j4 & V4 & I4 & J4 & S4 & _).
  rewrite V1 in V3. apply grid_inj in V3; [|assumption|assumption]. destruct V3; subst i3 j3.
  rewrite V2 in V4. apply grid_inj in V4; [|assumption|assumption]. destruct V4; subst i4 j4.
  destruct F as (Hm & Hn & _).
  destruct k as [|[|[|[|k]]]]; [| | | |lia]; 
    (destruct k' as [|[|[|[|k']]]]; [| | | |lia]); try congruence; cbn in S1, S2, S3, S4; 
    try specialize (A1 (or_introl eq_refl)); try specialize (A2 (or_introl eq_refl));
    try specialize (A1 (or_intror eq_refl)); try specialize (A2 (or_intror eq_refl));
    try specialize (B1 (or_introl eq_refl)); try specialize (B2 (or_introl eq_refl));
    try specialize (B1 (or_intror eq_refl)); try specialize (B2 (or_intror eq_refl)); lia.
Qed.
Lemma neighbours_alone : forall m n k k' a b, fits m n -> (k < 4)%nat -> (k' < 4)%nat -> k <> k' ->
  neighbours (nth k (boundary_nodes m n) []) a b -> ~ (In a (nth k' (boundary_nodes m n) []) /\ In b (nth k' (boundary_nodes m n) [])).
Proof.
  intros m n k k' a b F H1 H2 D [H|H]; [apply (side_alone m n k k' a b F H1 H2 D H)|].
  intros [A B]. apply (side_alone m n k k' b a F H1 H2 D H). split; assumption.
Qed.
Lemma neighbours_in : forall l a b, neighbours l a b -> In a l /\ In b l.
Proof. intros l a b [H|H]; apply followed_at in H; destruct H as (t & A & B); split; eapply nth_error_In; eauto. Qed.
Local Close Scope N_scope.

Lemma generated_signal : forall types params m n i k f ff eq a b, fits m n -> length types = 4%nat -> length params = 4%nat ->
  (i < 4)%nat -> nth i types 0%N = code k -> nth i params (0, 0, 0) = (f, ff, eq) ->
  neighbours (nth i (boundary_nodes m n) []) a b ->
  let file := generated_bcis types params m n in
  exists d h, read_bcis (length file) file no_bcis = Some d /\ create_harmonics (tables k d) [a; b] = Ok h /\
    forall ramp t z, signal h ramp t z = ramp * (ff * cos (f * t + degrees eq)).
Proof.
  intros types params m n i k f ff eq a b F L1 L2 Hi Et Ep Nb file.
  destruct (neighbours_in _ _ _ Nb) as [Ia Ib].
  set (L := combine (combine types params) (boundary_nodes m n)) in *.
  assert (LL : length L = 4%nat) by (unfold L; rewrite !combine_length, L1, L2; reflexivity).
  set (dflt := ((0%N, (0, 0, 0)), @nil N)).
  assert (NthL : forall j, (j < 4)%nat -> nth j L dflt = ((nth j types 0%N, nth j params (0, 0, 0)), nth j (boundary_nodes m n) [])).
  { intros j Hj. unfold L, dflt. rewrite combine_nth by (rewrite combine_length, L1, L2; reflexivity).
    rewrite combine_nth by congruence. reflexivity. }
  assert (Split : L = firstn i L ++ nth i L dflt :: skipn (S i) L).
  { rewrite <- (firstn_skipn i L) at 1. f_equal. clear -LL Hi. revert i Hi. rewrite <- LL. clear LL. induction L as [|x l IH]; intros i Hi; [cbn in Hi; lia|].
    destruct i; [reflexivity|]. cbn in *. apply IH. lia. }
  pose proof (NthL i Hi) as Ni. rewrite Et, Ep in Ni.
  set (nodes := nth i (boundary_nodes m n) []) in *.
  set (c := Con f ff eq (map (fun id => (id, (1, 0))) nodes)).
  assert (G : gen_sections types params m n = flat_map gen_section (firstn i L) ++ Harmonic k nodes [c] :: flat_map gen_section (skipn (S i) L)).
  { unfold gen_sections. fold L. rewrite Split at 1. rewrite flat_map_app. cbn [flat_map]. rewrite Ni. destruct k; reflexivity. }
  assert (OkAll : Forall section_ok (gen_sections types params m n)).
  { apply Forall_forall. intros s Hs. unfold gen_sections in Hs. fold L in Hs. apply in_flat_map in Hs. destruct Hs as (x & Hx & Hs).
    apply (In_nth _ _ dflt) in Hx. destruct Hx as (j & Hj & Ej). rewrite LL in Hj. rewrite (NthL j Hj) in Ej. subst x.
    unfold gen_section in Hs. destruct (nth j params (0, 0, 0)) as [[f' ff'] eq'].
    assert (Okj : forall kk, section_ok (Harmonic kk (nth j (boundary_nodes m n) []) [Con f' ff' eq' (map (fun id => (id, (1, 0))) (nth j (boundary_nodes m n) []))])).
    { intros kk. split; [apply side_nodup; assumption|]. split; [discriminate|]. intros c' [<-|[]]. cbn [c_rows]. rewrite gen_rows. apply Permutation_refl. }
    destruct (N.eqb _ bt_tide); [|destruct (N.eqb _ bt_flow)]; cbn in Hs; try contradiction; destruct Hs as [<-|[]]; apply Okj. }
  assert (NoEarlier : forall s, In s (flat_map gen_section (firstn i L)) -> ~ has_face k a b s).
  { intros s Hs. apply in_flat_map in Hs. destruct Hs as (x & Hx & Hs). apply (In_nth _ _ dflt) in Hx. destruct Hx as (j & Hj & Ej).
    rewrite firstn_length, LL in Hj. assert (j < i)%nat by lia.
    assert (Ej' : nth j L dflt = x).
    { rewrite <- Ej. rewrite <- (firstn_skipn i L) at 1. apply app_nth1. rewrite firstn_length. lia. }
    rewrite (NthL j ltac:(lia)) in Ej'. subst x.
    pose proof (neighbours_alone m n i j a b F Hi ltac:(lia) ltac:(lia) Nb) as Al.
    unfold gen_section in Hs. rewrite <- Ej' in Hs. destruct (nth j params (0, 0, 0)) as [[f' ff'] eq'].
    destruct (N.eqb _ bt_tide); [|destruct (N.eqb _ bt_flow)]; cbn in Hs; try contradiction; destruct Hs as [<-|[]]; cbn; intros (_ & A & B); apply Al; split; assumption. }
  rewrite G in OkAll. destruct (file_signal k _ nodes [c] _ a b OkAll Ia Ib NoEarlier) as (d & h & E1 & E2 & E3).
  exists d, h. unfold file. rewrite generated_print, G. split; [exact E1|]. split; [exact E2|].
  intros ramp t z. rewrite (signal_table _ _ _ _ E3). unfold tide_table. cbn [map total]. unfold wave. cbn [c_ff c_freq c_eq].
  assert (Row : forall v, In v nodes -> row_of c v = (1, 0)).
  { intros v Hv. unfold row_of. cbn [c_rows c]. clear -Hv. induction nodes as [|x l IH]; [destruct Hv|]. cbn.
    destruct (N.eqb_spec x v); [reflexivity|]. apply IH. destruct Hv; [contradiction|assumption]. }
  rewrite (Row a Ia), (Row b Ib). cbn [fst snd c_ff c_freq c_eq c].
  replace (between 1 1 z) with 1 by (unfold between; field). replace (between 0 0 z) with 0 by (unfold between; field).
  rewrite Rminus_0_r. ring.
Qed.

(** ** Levees *)
Lemma rm_put_new : forall (V : Type) (m : rmap V) k v, ~ In k (map fst m) -> Permutation (rm_put m k v) ((k, v) :: m).
Proof.
  induction m as [|[k' v'] m IH]; intros k v H; [apply Permutation_refl|]. cbn in *.
  destruct (key_ltb k k'); [apply Permutation_refl|]. destruct (key_eqb k k') eqn:E.
  - exfalso. apply H. left. unfold key_eqb in E. apply andb_true_iff in E. destruct E as [E1 E2].
    apply N.eqb_eq in E1, E2. destruct k, k'; cbn in *; congruence.
  - eapply Permutation_trans; [apply perm_skip, IH; tauto|]. apply perm_swap.
Qed.
Lemma put_levees_perm : forall rows m, NoDup (map fst rows ++ map fst m) -> Permutation (fold_left put_levee rows m) (rows ++ m).
Proof.
  induction rows as [|[k v] rows IH]; intros m D; [apply Permutation_refl|]. cbn in *. inversion D; subst.
  assert (Nm : ~ In k (map fst m)) by (intro; apply H1; apply in_or_app; right; assumption).
  assert (P : Permutation (put_levee m (k, v)) ((k, v) :: m)) by (apply rm_put_new; assumption).
  eapply Permutation_trans; [apply IH|].
  - apply (Permutation_NoDup (l := k :: map fst rows ++ map fst m)); [|constructor; assumption].
    eapply Permutation_trans; [apply Permutation_middle|]. apply Permutation_app_head.
    change (k :: map fst m) with (map fst ((k, v) :: m)). apply Permutation_map, Permutation_sym, P.
  - eapply Permutation_trans; [apply Permutation_app_head, P|]. apply Permutation_sym, Permutation_middle.
Qed.
Lemma paired_keys : forall rows, paired rows -> NoDup (map fst rows).
Proof.
  induction rows as [|[[a b] v] rows IH]; intros H; [constructor|]. unfold paired in H. cbn in *. inversion H; subst. inversion H3; subst.
  constructor; [|apply IH; assumption]. intros I. apply H2. right. apply in_flat_map.
  apply in_map_iff in I. destruct I as ([k w] & E & I). cbn in E. subst k. exists ((a, b), w). split; [assumption|cbn; auto].
Qed.
Lemma filter_perm : forall (A : Type) (f : A -> bool) l l', Permutation l l' -> Permutation (filter f l) (filter f l').
Proof.
  intros A f l l' P. induction P; cbn.
  - constructor.
  - destruct (f x); [apply perm_skip|]; assumption.
  - destruct (f x), (f y); try apply Permutation_refl. apply perm_swap.
  - eapply Permutation_trans; eassumption.
Qed.
Definition touches (n : N) (x : (N * N) * (R * R * R)) : bool := N.eqb (fst (fst x)) n || N.eqb (snd (fst x)) n.
Lemma touches_in : forall n x, touches n x = true <-> In n [fst (fst x); snd (fst x)].
Proof. intros n x. unfold touches. rewrite orb_true_iff, !N.eqb_eq. cbn. tauto. Qed.
Lemma paired_filter : forall rows n x, paired rows -> In x rows -> touches n x = true -> filter (touches n) rows = [x].
Proof.
  induction rows as [|y rows IH]; intros n x P I T; [destruct I|].
  unfold paired in P. cbn [flat_map] in P.
  assert (P' : paired rows) by (unfold paired; cbn in P; inversion P; inversion H2; assumption).
  assert (D : forall k, In k [fst (fst y); snd (fst y)] -> ~ In k (flat_map (fun r => [fst (fst r); snd (fst r)]) rows)).
  { intros k Hk Hr. cbn in P. inversion P; subst. inversion H2; subst. destruct Hk as [<-|[<-|[]]]; [apply H1; right; exact Hr|contradiction]. }
  cbn [filter]. destruct I as [->|I].
  - rewrite T. f_equal. apply touches_in in T. specialize (D n T).
    destruct (filter (touches n) rows) as [|z l] eqn:E; [reflexivity|]. exfalso. apply D.
    assert (Hz : In z (filter (touches n) rows)) by (rewrite E; left; reflexivity). apply filter_In in Hz. destruct Hz as [Hz Tz].
    apply in_flat_map. exists z. split; [exact Hz|]. apply touches_in; exact Tz.
  - destruct (touches n y) eqn:Ty; [|apply IH; assumption]. exfalso. apply touches_in in Ty. apply (D n Ty).
    apply in_flat_map. exists x. split; [exact I|]. apply touches_in; exact T.
Qed.
Lemma levee_row_at : forall rows (m : rmap levee) a b v, paired rows -> Permutation m rows -> levee_row rows a b v ->
  levee_at m a b = Ok v /\ filter (touches a) m = [((a, b), v)] \/ levee_at m a b = Ok v /\ filter (touches a) m = [((b, a), v)].
Proof.
  intros rows m a b v P Pm H.
  assert (D : NoDup (map fst m)) by (eapply Permutation_NoDup; [apply Permutation_map, Permutation_sym, Pm|apply paired_keys; exact P]).
  assert (Flt : forall x, In x rows -> touches a x = true -> filter (touches a) m = [x]).
  { intros x I T. apply Permutation_length_1_inv. rewrite <- (paired_filter rows a x P I T). apply filter_perm, Permutation_sym, Pm. }
  destruct H as [H|H].
  - left. split; [|apply Flt; [exact H|apply touches_in; cbn; auto]].
    unfold levee_at. apply (Permutation_in _ (Permutation_sym Pm)) in H. apply (proj2 (rm_find_in levee m (a, b) v D)) in H. rewrite H. reflexivity.
  - right. split; [|apply Flt; [exact H|apply touches_in; cbn; auto]].
    unfold levee_at. destruct (rm_find m (a, b)) as [w|] eqn:E.
    + apply (rm_find_in levee m (a, b) w D) in E. apply (Permutation_in _ Pm) in E.
      assert (X := paired_filter rows a ((a, b), w) P E ltac:(apply touches_in; cbn; auto)).
      rewrite (paired_filter rows a ((b, a), v) P H ltac:(apply touches_in; cbn; auto)) in X. inversion X; reflexivity.
    + apply (Permutation_in _ (Permutation_sym Pm)) in H. apply (proj2 (rm_find_in levee m (b, a) v D)) in H. rewrite H. reflexivity.
Qed.
Lemma levee_row_swap : forall rows a b v, levee_row rows a b v -> levee_row rows b a v.
Proof. intros rows a b v [H|H]; [right|left]; assumption. Qed.
Lemma levee_rows : forall rows (m : rmap levee) a b v, paired rows -> Permutation m rows -> levee_row rows a b v ->
  levee_at m a b = Ok v /\ map snd (filter (touches a) m) = [v].
Proof. intros rows m a b v P Pm H. destruct (levee_row_at rows m a b v P Pm H) as [[E ->]|[E ->]]; split; auto. Qed.

Lemma levee_interface : forall rows (m : rmap levee) a1 a2 b1 b2 v1 v2, paired rows -> Permutation m rows ->
  levee_row rows a1 b2 v1 -> levee_row rows a2 b1 v2 -> levee_data m [a1; a2] [b1; b2] = Ok [v1; v2].
Proof.
  intros rows m a1 a2 b1 b2 v1 v2 P Pm H1 H2.
  destruct (levee_rows _ _ _ _ _ P Pm H1) as [E1 _]. destruct (levee_rows _ _ _ _ _ P Pm H2) as [E2 _].
  unfold levee_data. cbn. rewrite E1. cbn. rewrite E2. reflexivity.
Qed.
Lemma dist_levee_two : forall (m : rmap levee) a1 a2 v1 v2, map snd (filter (touches a1) m) = [v1] -> map snd (filter (touches a2) m) = [v2] ->
  dist_levee_data m [a1; a2] = Ok [v1; v2].
Proof.
  intros m a1 a2 v1 v2 E1 E2. cbn [dist_levee_data].
  change (filter (fun x => N.eqb (fst (fst x)) a1 || N.eqb (snd (fst x)) a1) m) with (filter (touches a1) m).
  change (filter (fun x => N.eqb (fst (fst x)) a2 || N.eqb (snd (fst x)) a2) m) with (filter (touches a2) m).
  destruct (filter (touches a1) m) as [|x l]; [discriminate E1|].
  destruct (filter (touches a2) m) as [|y l']; [discriminate E2|].
  destruct l; [|discriminate E1]. destruct l'; [|discriminate E2]. injection E1 as <-. injection E2 as <-. reflexivity.
Qed.
Lemma levee_distributed : forall rows (m : rmap levee) a1 a2 b1 b2 v1 v2, paired rows -> Permutation m rows ->
  levee_row rows a1 b2 v1 -> levee_row rows a2 b1 v2 ->
  dist_levee_data m [a1; a2] = Ok [v1; v2] /\ dist_levee_data m [b1; b2] = Ok [v2; v1].
Proof.
  intros rows m a1 a2 b1 b2 v1 v2 P Pm H1 H2.
  destruct (levee_rows _ _ _ _ _ P Pm H1) as [_ E1]. destruct (levee_rows _ _ _ _ _ P Pm H2) as [_ E2].
  destruct (levee_rows _ _ _ _ _ P Pm (levee_row_swap _ _ _ _ H1)) as [_ E3]. destruct (levee_rows _ _ _ _ _ P Pm (levee_row_swap _ _ _ _ H2)) as [_ E4].
  split; apply dist_levee_two; assumption.
Qed.
Lemma levee_gp_two : forall v1 v2 z, levee_gp [v1; v2] z = Ok (between3 v1 v2 z).
Proof. intros. cbn. rewrite !nodal_between. reflexivity. Qed.
Lemma between3_swap : forall v1 v2 z, between3 v2 v1 (- z) = between3 v1 v2 z.
Proof. intros. unfold between3. rewrite !between_swap. reflexivity. Qed.
Lemma file_levees : forall secs, Forall section_ok secs -> paired (flat_map levees_of secs) ->
  exists d, read_bcis (length (print secs)) (print secs) no_bcis = Some d /\ Permutation (bc_levee d) (flat_map levees_of secs).
Proof.
  intros secs H P. destruct (read_file _ H) as (d & E & _ & L). exists d. split; [exact E|]. rewrite L.
  rewrite <- (app_nil_r (flat_map levees_of secs)) at 2. apply put_levees_perm. rewrite app_nil_r. apply paired_keys, P.
Qed.
Lemma file_levee_rows : forall secs a1 a2 b1 b2 v1 v2, Forall section_ok secs -> paired (flat_map levees_of secs) ->
  levee_row (flat_map levees_of secs) a1 b2 v1 -> levee_row (flat_map levees_of secs) a2 b1 v2 ->
  exists d, read_bcis (length (print secs)) (print secs) no_bcis = Some d /\
    levee_data (bc_levee d) [a1; a2] [b1; b2] = Ok [v1; v2] /\ levee_data (bc_levee d) [b1; b2] [a1; a2] = Ok [v2; v1] /\
    dist_levee_data (bc_levee d) [a1; a2] = Ok [v1; v2] /\ dist_levee_data (bc_levee d) [b1; b2] = Ok [v2; v1].
Proof.
  intros secs a1 a2 b1 b2 v1 v2 O P H1 H2. destruct (file_levees secs O P) as (d & E & Pm). exists d. split; [exact E|].
  split; [eapply levee_interface; eassumption|].
  split; [eapply levee_interface; try eassumption; apply levee_row_swap; assumption|]. eapply levee_distributed; eassumption.
Qed.
Lemma crest_both : forall v1 v2 z, levee_gp [v1; v2] z = Ok (between3 v1 v2 z) /\ levee_gp [v2; v1] (- z) = Ok (between3 v1 v2 z).
Proof. intros. rewrite !levee_gp_two, between3_swap. split; reflexivity. Qed.
Lemma file_levee_missing : forall secs a1 a2 b1 b2, Forall section_ok secs -> paired (flat_map levees_of secs) ->
  (forall b v, ~ levee_row (flat_map levees_of secs) a1 b v) ->
  exists d, read_bcis (length (print secs)) (print secs) no_bcis = Some d /\
    levee_data (bc_levee d) [a1; a2] [b1; b2] = Throw /\ dist_levee_data (bc_levee d) [a1; a2] = Throw.
Proof.
  intros secs a1 a2 b1 b2 O P H. destruct (file_levees secs O P) as (d & E & Pm). exists d. split; [exact E|].
  assert (K : forall b, rm_find (bc_levee d) (a1, b) = None /\ rm_find (bc_levee d) (b, a1) = None).
  { intros b. split; apply rm_find_none; intros I; apply in_map_iff in I; destruct I as ([k v] & Ek & I); cbn in Ek; subst k;
      apply (Permutation_in _ Pm) in I; apply (H b v); [left|right]; exact I. }
  split.
  - unfold levee_data. cbn. unfold levee_at. destruct (K b2) as [-> ->]. reflexivity.
  - cbn [dist_levee_data].
    assert (X : filter (fun x : (N * N) * levee => N.eqb (fst (fst x)) a1 || N.eqb (snd (fst x)) a1) (bc_levee d) = []).
    { destruct (filter _ (bc_levee d)) as [|[[x y] v] l] eqn:F; [reflexivity|]. exfalso.
      assert (I : In ((x, y), v) (filter (fun x : (N * N) * levee => N.eqb (fst (fst x)) a1 || N.eqb (snd (fst x)) a1) (bc_levee d))) by (rewrite F; left; reflexivity).
      apply filter_In in I. destruct I as [I T]. cbn in T. apply (Permutation_in _ Pm) in I. apply orb_true_iff in T.
      destruct T as [T|T]; apply N.eqb_eq in T; subst; [apply (H y v); left|apply (H x v); right]; exact I. }
    rewrite X. reflexivity.
Qed.
Lemma zero_angle : forall cs a b t z,
  (forall c, In c cs -> c_eq c = between (snd (row_of c a)) (snd (row_of c b)) z) -> radian_table cs a b t z = tide_table cs a b t z.
Proof.
  intros cs a b t z E. unfold radian_table, tide_table. f_equal. apply map_ext_in. intros c Hc. unfold wave, degrees. rewrite (E c Hc).
  f_equal. f_equal. f_equal. ring.
Qed.
Lemma file_signals : forall k pre nodes cs post a b, Forall section_ok (pre ++ Harmonic k nodes cs :: post) ->
  In a nodes -> In b nodes -> (forall s, In s pre -> ~ has_face k a b s) ->
  let file := print (pre ++ Harmonic k nodes cs :: post) in
  exists d h, read_bcis (length file) file no_bcis = Some d /\ create_harmonics (tables k d) [a; b] = Ok h /\
    (forall ramp t z, signal h ramp t z = ramp * tide_table cs a b t z) /\
    (forall ramp t z, signal_implicit h ramp t z = ramp * radian_table cs a b t z).
Proof.
  intros k pre nodes cs post a b H A B Hp file. destruct (file_signal k pre nodes cs post a b H A B Hp) as (d & h & E1 & E2 & E3).
  exists d, h. split; [exact E1|]. split; [exact E2|]. split; [exact (signal_table _ _ _ _ E3)|exact (signal_implicit_table _ _ _ _ E3)].
Qed.

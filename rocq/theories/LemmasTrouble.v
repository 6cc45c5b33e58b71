From Coq Require Import Reals List Bool Arith Lra Lia.
From Verif Require Import Num ModelSWE Outcome ModelShape SpecShape LemmasShape LemmasSWE ModelBasis SpecStepper LemmasRK LemmasStep ModelStep ModelTrouble SpecTrouble.
Import ListNotations.
Open Scope R_scope.

Lemma total_app : forall A (l l' : list A) f, total (l ++ l') f = total l f + total l' f.
Proof. intros. unfold total. induction l as [|x l IH]; cbn; [ring|rewrite IH; ring]. Qed.
Lemma total_ext : forall A (l : list A) f g, (forall x, In x l -> f x = g x) -> total l f = total l g.
Proof. intros A l f g H. unfold total. induction l as [|x l IH]; cbn; [reflexivity|]. rewrite (H x), IH; [reflexivity|intros; apply H; right; assumption|left; reflexivity]. Qed.
Lemma total_nonneg : forall A (l : list A) f, (forall x, In x l -> 0 <= f x) -> 0 <= total l f.
Proof. intros A l f H. unfold total. induction l as [|x l IH]; cbn; [lra|]. specialize (IH (fun y Hy => H y (or_intror Hy))). specialize (H x (or_introl eq_refl)). lra. Qed.
Lemma dist_nonneg : forall a b, 0 <= dist a b.
Proof. intros. apply sqrt_pos. Qed.

Lemma flat_single : forall A B (g : A -> B) l, flat_map (fun d => [g d]) l = map g l.
Proof. intros A B g l. induction l as [|d l IH]; [reflexivity|cbn; rewrite IH; reflexivity]. Qed.

Definition disc_of (rx ry : nat) (q : vec3 R) : R * R := (vget q rx, vget q ry).

Section Indicator.
  Context (m : mesh) (dbs : list dface) (k : nat) (st : mstate) (rx ry : nat).
  Let D := disc_of rx ry.

  Definition side_part (e : nat) (s : fside) : R * R :=
    (if counts m D e s then Rabs (over_face m s (fun gp => s_h s gp - s_out s gp)) else 0,
     if counts m D e s then dist (m_nodes m e ((s_id s + 1) mod 3)%nat) (m_nodes m e ((s_id s + 2) mod 3)%nat) else 0).
  Definition padd (a b : R * R) : R * R := (fst a + fst b, snd a + snd b).

  Lemma face_int_eq : forall s e b u, s_J s = GetSurfaceJ (m_nodes m e) b -> face_integration m e b u = over_face m s u.
  Proof.
    intros s e b u E. unfold face_integration, over_face. rewrite vmsum_rsum, E, <- rsum_scal. apply rsum_ext. intros gp _. unfold w1. ring.
  Qed.
  Lemma length_eq : forall e b, nth b (GetLengths (m_nodes m e)) 0 = if (b <? 3)%nat then dist (m_nodes m e ((b + 1) mod 3)%nat) (m_nodes m e ((b + 2) mod 3)%nat) else 0.
  Proof.
    intros e b. destruct (Nat.ltb_spec b 3) as [H|H].
    - pose proof (lengths (m_nodes m e) b H) as L. apply (nth_error_nth _ _ 0) in L. exact L.
    - apply nth_overflow. cbn. lia.
  Qed.
  (** One test-and-add step. *)
  Lemma add_step : forall (I : indic) s el bl, (s_id s < 3)%nat -> s_J s = GetSurfaceJ (m_nodes m el) bl -> s_live s = true -> forall e,
    (if Rltb (face_integration m el bl (fun gp => qn rx ry (s_n s) (s_q s gp))) 0 then
       add_face m I (s_elt s) (s_id s) (face_integration m el bl (fun gp => s_h s gp - s_out s gp)) else I) e = padd (I e) (side_part e s).
  Proof.
    intros I s el bl Hb EJ Lv e. unfold side_part, counts. rewrite Lv, andb_true_r. rewrite !(face_int_eq s el bl _ EJ). unfold Rltb.
    change (over_face m s (fun gp => qn rx ry (s_n s) (s_q s gp))) with (over_face m s (fun gp => nx (s_n s) * fst (D (s_q s gp)) + ny (s_n s) * snd (D (s_q s gp)))).
    destruct (Rlt_dec _ 0) as [H|H].
    - rewrite andb_true_r. unfold add_face. destruct (Nat.eqb_spec (s_elt s) e) as [E|E].
      + subst e. rewrite upd_same. unfold padd. cbn [fst snd]. rewrite length_eq. apply Nat.ltb_lt in Hb. rewrite Hb. reflexivity.
      + rewrite upd_other by congruence. unfold padd. cbn. destruct (I e). cbn. f_equal; ring.
    - rewrite andb_false_r. unfold padd. cbn. destruct (I e). cbn. f_equal; ring.
  Qed.
  Lemma dead_side : forall s e, s_live s = false -> side_part e s = (0, 0).
  Proof. intros s e H. unfold side_part, counts. rewrite H, andb_false_r. reflexivity. Qed.

  Lemma fold_parts : forall (A : Type) (step : indic -> A -> indic) (parts : A -> list fside),
    forall l, (forall I x e, In x l -> step I x e = padd (I e) (total (parts x) (fun s => fst (side_part e s)), total (parts x) (fun s => snd (side_part e s)))) ->
    forall I e, fold_left step l I e = padd (I e) (total (flat_map parts l) (fun s => fst (side_part e s)), total (flat_map parts l) (fun s => snd (side_part e s))).
  Proof.
    intros A step parts l. induction l as [|x l IH]; intros H I e; cbn [fold_left flat_map].
    - unfold padd, total. cbn. destruct (I e). cbn. f_equal; ring.
    - rewrite IH by (intros; apply H; right; assumption). rewrite H by (left; reflexivity). rewrite !total_app. unfold padd. cbn. f_equal; ring.
  Qed.

  Lemma indicator_eq : (forall f, In f (m_intfaces m) -> (i_bin f < 3)%nat /\ (i_bex f < 3)%nat) -> (forall d, In d dbs -> (d_id d < 3)%nat) ->
    forall e, indicator m dbs k st rx ry e = (jumps m dbs k st D e, inflow_length m dbs k st D e).
  Proof.
    intros Hf Hd e. unfold indicator, jumps, inflow_length.
    rewrite (fold_parts _ _ (fun d => [FSide (d_elt d) (d_id d) (ms_wet st (d_elt d)) (GetSurfaceJ (m_nodes m (d_elt d)) (d_id d)) (normal m (d_elt d) (d_id d))
      (q_face m st k (d_elt d) (d_id d)) (h_face m k st (d_elt d) (d_id d)) (fun gp => d_h d (ngp1 m - gp - 1))])).
    2:{ intros I d e' Id. unfold trouble_dbound. destruct (ms_wet st (d_elt d)) eqn:W.
        - set (s := FSide _ _ _ _ _ _ _ _). pose proof (add_step I s (d_elt d) (d_id d) (Hd d Id) eq_refl eq_refl e') as A. cbn [s_elt s_id s_n s_q s_h s_out s] in A.
          cbv zeta. rewrite A. unfold total, padd. cbn [fold_right fst snd]. f_equal; ring.
        - set (s := FSide _ _ _ _ _ _ _ _). unfold total. cbn [fold_right]. rewrite (dead_side s e' eq_refl). unfold padd. cbn. destruct (I e'); cbn; f_equal; ring. }
    rewrite (fold_parts _ _ (fun f =>
      let live := ms_wet st (i_in f) || ms_wet st (i_ex f) in
      let J := GetSurfaceJ (m_nodes m (i_in f)) (i_bin f) in
      let n := normal m (i_in f) (i_bin f) in
      [FSide (i_in f) (i_bin f) live J n (q_face m st k (i_in f) (i_bin f)) (h_face m k st (i_in f) (i_bin f)) (fun gp => h_face m k st (i_ex f) (i_bex f) (ngp1 m - gp - 1));
       FSide (i_ex f) (i_bex f) live J (opp n) (q_face m st k (i_ex f) (i_bex f)) (h_face m k st (i_ex f) (i_bex f)) (fun gp => h_face m k st (i_in f) (i_bin f) (ngp1 m - gp - 1))])).
    2:{ intros I f e' If. destruct (Hf f If) as [B1 B2]. unfold trouble_intface. cbv zeta. destruct (ms_wet st (i_in f) || ms_wet st (i_ex f)) eqn:W.
        - set (s := FSide (i_in f) _ _ _ _ _ _ _). set (s' := FSide (i_ex f) _ _ _ _ _ _ _).
          pose proof (add_step I s (i_in f) (i_bin f) B1 eq_refl eq_refl) as A. cbn [s_elt s_id s_n s_q s_h s_out s] in A.
          set (I1 := if Rltb _ 0 then add_face m I (i_in f) (i_bin f) _ else I) in *.
          pose proof (add_step I1 s' (i_in f) (i_bin f) B2 eq_refl eq_refl e') as A'. cbn [s_elt s_id s_n s_q s_h s_out s'] in A'.
          rewrite A', A. unfold total, padd. cbn [fold_right fst snd]. f_equal; ring.
        - set (s := FSide (i_in f) _ _ _ _ _ _ _). set (s' := FSide (i_ex f) _ _ _ _ _ _ _). unfold total. cbn [fold_right].
          rewrite (dead_side s e' eq_refl), (dead_side s' e' eq_refl). unfold padd. cbn. destruct (I e'); cbn; f_equal; ring. }
    unfold face_sides. rewrite !total_app. unfold padd. cbn [fst snd]. rewrite flat_single.
    rewrite !Rplus_0_l. reflexivity.
  Qed.
End Indicator.

Lemma hnorm_fold : forall m k st e, h_norm m k st e = Rmax (Rmax (Rmax 0 (ze_vrtx m k st e 0 + m_bath m e 0%nat)) (ze_vrtx m k st e 1 + m_bath m e 1%nat)) (ze_vrtx m k st e 2 + m_bath m e 2%nat).
Proof. reflexivity. Qed.
Lemma hnorm_top : forall m k st e H, top_depth m k st e H -> h_norm m k st e = H.
Proof.
  intros m k st e H (P & U & v & Hv & E). rewrite hnorm_fold. pose proof (U 0%nat ltac:(lia)). pose proof (U 1%nat ltac:(lia)). pose proof (U 2%nat ltac:(lia)).
  assert (h_norm m k st e <= H) by (rewrite hnorm_fold; repeat apply Rmax_lub; lra). rewrite hnorm_fold in H3. apply Rle_antisym; [assumption|].
  destruct v as [|[|[|v]]]; [| | |lia]; rewrite E.
  - eapply Rle_trans; [|apply Rmax_l]. eapply Rle_trans; [|apply Rmax_l]. apply Rmax_r.
  - eapply Rle_trans; [|apply Rmax_l]. apply Rmax_r.
  - apply Rmax_r.
Qed.

Section Flag.
  Context (m : mesh) (dbs : list dface) (k : nat) (st : mstate).
  Context (Hf : forall f, In f (m_intfaces m) -> (i_bin f < 3)%nat /\ (i_bex f < 3)%nat) (Hd : forall d, In d dbs -> (d_id d < 3)%nat).

  Lemma inflow_nonneg : forall D e, 0 <= inflow_length m dbs k st D e.
  Proof. intros. apply total_nonneg. intros s _. destruct (counts m D e s); [apply dist_nonneg|lra]. Qed.
  Lemma jumps_nonneg : forall D e, 0 <= jumps m dbs k st D e.
  Proof. intros. apply total_nonneg. intros s _. destruct (counts m D e s); [apply Rabs_pos|lra]. Qed.

  Lemma flagged_iff : forall rx ry e H, top_depth m k st e H ->
    (flagged m dbs k st rx ry e = true <->
     ms_wet st e = true /\ 0 < inflow_length m dbs k st (disc_of rx ry) e /\
     Rpower (GetRadius (m_nodes m e)) ((INR (m_p m) + 1) / 2) * inflow_length m dbs k st (disc_of rx ry) e * H < jumps m dbs k st (disc_of rx ry) e).
  Proof.
    intros rx ry e H T. unfold flagged. cbv zeta. rewrite (indicator_eq m dbs k st rx ry Hf Hd), (hnorm_top _ _ _ _ _ T). cbn [fst snd].
    pose proof (inflow_nonneg (disc_of rx ry) e) as P. set (L := inflow_length m dbs k st (disc_of rx ry) e) in *. set (J := jumps m dbs k st (disc_of rx ry) e).
    destruct T as (HP & _). set (r := Rpower _ _). assert (0 < r) by (apply exp_pos). unfold exceeds_one.
    destruct (ms_wet st e); cbn [andb]; [|split; [discriminate|intros [? _]; discriminate]].
    destruct (Req_EM_T L 0) as [E|E]; cbn [andb]; [split; [discriminate|intros (_ & ? & _); lra]|].
    assert (0 < r * L * H) by (apply Rmult_lt_0_compat; [apply Rmult_lt_0_compat|]; lra).
    set (d := r * L * H) in *. assert (JD : J / d * d = J) by (field; lra).
    destruct (Req_EM_T d 0) as [E'|E']; [lra|]. destruct (Rltb_spec 1 (J / d)) as [G|G]; split; intros A; try discriminate; try reflexivity.
    - split; [reflexivity|]. split; [lra|]. apply (Rmult_lt_compat_r d) in G; [|assumption]. lra.
    - exfalso. apply G. destruct A as (_ & _ & A). apply (Rmult_lt_reg_r d); [assumption|]. lra.
  Qed.

  (** No vertex under water: any jump over an inflow face flags. *)
  Lemma flagged_no_depth : forall rx ry e, (forall v, (v < 3)%nat -> ze_vrtx m k st e v + m_bath m e v <= 0) ->
    (flagged m dbs k st rx ry e = true <-> ms_wet st e = true /\ 0 < inflow_length m dbs k st (disc_of rx ry) e /\ 0 < jumps m dbs k st (disc_of rx ry) e).
  Proof.
    intros rx ry e T. unfold flagged. cbv zeta. rewrite (indicator_eq m dbs k st rx ry Hf Hd). cbn [fst snd].
    assert (Z : h_norm m k st e = 0).
    { rewrite hnorm_fold. pose proof (T 0%nat ltac:(lia)). pose proof (T 1%nat ltac:(lia)). pose proof (T 2%nat ltac:(lia)). rewrite (Rmax_left 0), (Rmax_left 0), Rmax_left by assumption. reflexivity. }
    rewrite Z, Rmult_0_r. pose proof (inflow_nonneg (disc_of rx ry) e) as P. unfold exceeds_one. destruct (Req_EM_T 0 0) as [_|N]; [|contradiction].
    set (L := inflow_length m dbs k st (disc_of rx ry) e) in *. set (J := jumps m dbs k st (disc_of rx ry) e).
    destruct (ms_wet st e); cbn [andb]; [|split; [discriminate|intros [? _]; discriminate]].
    destruct (Req_EM_T L 0) as [E|E]; cbn [andb]; [split; [discriminate|intros (_ & ? & _); lra]|].
    destruct (Rltb_spec 0 J) as [G|G]; split; intros A; try discriminate; try reflexivity.
    - repeat apply conj; [reflexivity|lra|exact G].
    - exfalso. apply G. apply A.
  Qed.

  (** No jump of the depth, no flag. *)
  Lemma smooth_calm : forall rx ry, (forall s gp, In s (face_sides m dbs k st) -> (gp < length (m_rule1 m))%nat -> s_h s gp = s_out s gp) ->
    forall e, flagged m dbs k st rx ry e = false.
  Proof.
    intros rx ry S e. unfold flagged. cbv zeta. rewrite (indicator_eq m dbs k st rx ry Hf Hd). cbn [fst snd].
    assert (Z : jumps m dbs k st (disc_of rx ry) e = 0).
    { unfold jumps. transitivity (total (face_sides m dbs k st) (fun _ => 0)).
      - apply total_ext. intros s Is. destruct (counts m (disc_of rx ry) e s); [|reflexivity]. unfold over_face.
        rewrite rsum_const0; [rewrite Rmult_0_r; apply Rabs_R0|]. intros gp Hg. rewrite (S s gp Is Hg). ring.
      - unfold total. induction (face_sides m dbs k st) as [|s l IH]; cbn; [reflexivity|]. rewrite IH by (intros; apply S; [right|]; assumption). ring. }
    rewrite Z. replace (exceeds_one 0 _) with false; [apply andb_false_r|]. unfold exceeds_one.
    destruct (Req_EM_T _ 0); [symmetry; destruct (Rltb_spec 0 0); [lra|reflexivity]|]. unfold Rdiv. rewrite Rmult_0_l. destruct (Rltb_spec 1 0); [lra|reflexivity].
  Qed.
  (** No discharge, no flag, if the discharge is what is tested. *)
  Lemma still_calm : (forall e b gp, (gp < length (m_rule1 m))%nat -> discharge (q_face m st k e b gp) = (0, 0)) -> forall e, flagged m dbs k st 1 2 e = false.
  Proof.
    intros S e. unfold flagged. cbv zeta. rewrite (indicator_eq m dbs k st 1 2 Hf Hd). cbn [fst snd].
    assert (Z : inflow_length m dbs k st (disc_of 1 2) e = 0).
    { unfold inflow_length. assert (Q : forall s gp, In s (face_sides m dbs k st) -> (gp < length (m_rule1 m))%nat -> disc_of 1 2 (s_q s gp) = (0, 0)).
      { intros s gp Is Hg. unfold face_sides in Is. apply in_app_or in Is. destruct Is as [Is|Is].
        - apply in_flat_map in Is. destruct Is as (f & _ & [<-|[<-|[]]]); apply (S _ _ gp Hg).
        - apply in_map_iff in Is. destruct Is as (d & <- & _). apply (S _ _ gp Hg). }
      transitivity (total (face_sides m dbs k st) (fun _ => 0)).
      - apply total_ext. intros s Is. unfold counts. destruct (Rlt_dec _ 0) as [G|G]; [|rewrite andb_false_r; reflexivity]. exfalso. revert G. unfold over_face.
        rewrite rsum_const0; [lra|]. intros gp Hg. rewrite (Q s gp Is Hg). cbn. ring.
      - clear. unfold total. induction (face_sides m dbs k st) as [|s l IH]; cbn; [reflexivity|]. rewrite IH. ring. }
    rewrite Z. destruct (Req_EM_T 0 0); [|lra]. rewrite andb_false_r. reflexivity.
  Qed.
End Flag.

(** Propagation. *)
Section Spread.
  Context (m : mesh) (neigh : nat -> list nat).

  Lemma pass_spec : forall T A, (forall i, fst (pass m neigh (T, A)) i = true <-> T i = true \/ (i < m_n m)%nat /\ A i = true) /\
    (forall i, snd (pass m neigh (T, A)) i = true <-> exists e, (e < m_n m)%nat /\ A e = true /\ In i (neigh e)).
  Proof.
    intros T A. unfold pass.
    assert (G : forall l (t : (nat -> bool) * (nat -> bool)),
      let r := fold_left (fun t e => if A e then (upd (fst t) e true, fun i => existsb (Nat.eqb i) (neigh e) || snd t i) else t) l t in
      (forall i, fst r i = true <-> fst t i = true \/ In i l /\ A i = true) /\
      (forall i, snd r i = true <-> snd t i = true \/ exists e, In e l /\ A e = true /\ In i (neigh e))).
    { intros l. induction l as [|x l IH]; intros t r.
      - split; intros i; split; intros H; [left; exact H|destruct H as [H|[[] _]]; exact H|left; exact H|destruct H as [H|(e & [] & _)]; exact H].
      - unfold r. cbn [fold_left]. destruct (A x) eqn:E.
        + destruct (IH (upd (fst t) x true, fun i => existsb (Nat.eqb i) (neigh x) || snd t i)) as [H1 H2]. cbn [fst snd] in H1, H2. split; intros i.
          * rewrite (H1 i). destruct (Nat.eq_dec i x) as [->|N].
            -- rewrite upd_same. split; [intros _; right; split; [left; reflexivity|exact E]|left; reflexivity].
            -- rewrite upd_other by assumption. split; intros [F|[F F']]; [left; exact F|right; split; [right; exact F|exact F']|left; exact F|].
               destruct F as [F|F]; [congruence|]. right. split; assumption.
          * rewrite (H2 i). rewrite orb_true_iff. split.
            -- intros [[F|F]|(e & F & F' & F'')]; [|left; exact F|right; exists e; split; [right; exact F|split; assumption]].
               right. exists x. split; [left; reflexivity|]. split; [exact E|]. apply existsb_exists in F. destruct F as (y & Iy & Ey). apply Nat.eqb_eq in Ey. subst y. exact Iy.
            -- intros [F|(e & [<-|F] & F' & F'')]; [left; right; exact F| |right; exists e; split; [exact F|split; assumption]].
               left. left. apply existsb_exists. exists i. split; [exact F''|apply Nat.eqb_refl].
        + destruct (IH t) as [H1 H2]. split; intros i.
          * rewrite (H1 i). split; intros [F|[F F']]; [left; exact F|right; split; [right; exact F|exact F']|left; exact F|].
            destruct F as [F|F]; [congruence|right; split; assumption].
          * rewrite (H2 i). split; intros [F|(e & F & F' & F'')]; [left; exact F|right; exists e; split; [right; exact F|split; assumption]|left; exact F|].
            destruct F as [F|F]; [congruence|right; exists e; split; [exact F|split; assumption]]. }
    destruct (G (seq 0 (m_n m)) (T, fun _ => false)) as [H1 H2]. cbn [fst snd] in H1, H2. split; intros i.
    - rewrite (H1 i). rewrite in_seq. split; (intros [F|[F F']]; [left; exact F|right; split; [lia|exact F']]).
    - rewrite (H2 i). split.
      + intros [F|(e & F & F' & F'')]; [discriminate|]. exists e. apply in_seq in F. split; [lia|]. split; assumption.
      + intros (e & F & F' & F''). right. exists e. split; [apply in_seq; lia|]. split; assumption.
  Qed.

  Lemma iter_spec : forall A n, (forall i, A i = true -> (i < m_n m)%nat) -> let r := Nat.iter n (pass m neigh) (fun _ => false, A) in
    (forall i, fst r i = true <-> exists j e, (j < n)%nat /\ A e = true /\ path m neigh j e i) /\
    (forall i, (i < m_n m)%nat -> snd r i = true <-> exists e, A e = true /\ path m neigh n e i).
  Proof.
    intros A n HA. induction n as [|n IH]; intros r.
    - split; intros i; [split; [discriminate|intros (j & e & H & _); lia]|]. intros Hi. cbn. split.
      + intros H. exists i. split; [exact H|]. constructor. exact Hi.
      + intros (e & He & P). inversion P; subst. exact He.
    - destruct IH as [H1 H2]. unfold r. cbn [Nat.iter nat_rect]. change (nat_rect _ _ _ n) with (Nat.iter n (pass m neigh) (fun _ => false, A)).
      destruct (Nat.iter n (pass m neigh) (fun _ => false, A)) as [T B]. cbn [fst snd] in H1, H2. destruct (pass_spec T B) as [P1 P2]. split; intros i.
      + rewrite (P1 i), (H1 i). split.
        * intros [(j & e & Hj & He & P)|[Hi HB]]; [exists j, e; split; [lia|split; assumption]|].
          apply (H2 i Hi) in HB. destruct HB as (e & He & P). exists n, e. split; [lia|]. split; assumption.
        * intros (j & e & Hj & He & P). assert (Hi : (i < m_n m)%nat) by (inversion P; subst; assumption).
          destruct (Nat.eq_dec j n) as [->|N]; [right; split; [exact Hi|apply (H2 i Hi); exists e; split; assumption]|].
          left. exists j, e. split; [lia|]. split; assumption.
      + intros Hi. rewrite (P2 i). split.
        * intros (e & He & HB & Hn). apply (H2 e He) in HB. destruct HB as (e0 & A0 & P). exists e0. split; [exact A0|]. econstructor; eassumption.
        * intros (e0 & A0 & P). inversion P; subst. assert (Hf' : (f < m_n m)%nat) by (match goal with H : path _ _ n _ f |- _ => inversion H; subst; assumption end).
          exists f. split; [exact Hf'|]. split; [|assumption]. apply (H2 f Hf'). exists e0. split; assumption.
  Qed.

  Lemma troubled_iff : forall dbs k st rx ry i, check_trouble_rows m neigh dbs k st rx ry i = true <->
    exists j e, (j <= 5)%nat /\ flagged m dbs k st rx ry e = true /\ path m neigh j e i.
  Proof.
    intros dbs k st rx ry i. unfold check_trouble_rows.
    destruct (iter_spec (fun e => Nat.ltb e (m_n m) && flagged m dbs k st rx ry e)%bool 6) as [H _].
    { intros e He. apply andb_true_iff in He. apply Nat.ltb_lt. apply He. }
    rewrite (H i). split; intros (j & e & Hj & He & P); exists j, e.
    - apply andb_true_iff in He. split; [lia|]. split; [apply He|exact P].
    - split; [lia|]. split; [|exact P]. apply andb_true_iff. split; [|exact He]. apply Nat.ltb_lt.
      clear - P. induction P; assumption.
  Qed.
End Spread.

(** Datum. *)
Lemma same_flagged : forall m m' k st st' dbs, same_water m m' k st st' ->
  (forall f, In f (m_intfaces m) -> (i_bin f < 3)%nat /\ (i_bex f < 3)%nat) -> (forall d, In d dbs -> (d_id d < 3)%nat) ->
  forall e, flagged m dbs k st 1 2 e = flagged m' dbs k st' 1 2 e.
Proof.
  intros m m' k st st' dbs (En & Ep & Eno & Er & Ei & Ew & Eh & Ev) Hf Hd e.
  assert (Rev : forall gp, (gp < length (m_rule1 m))%nat -> (length (m_rule1 m) - gp - 1 < length (m_rule1 m))%nat) by (intros; lia).
  unfold flagged. cbv zeta. rewrite (indicator_eq m dbs k st 1 2 Hf Hd), (indicator_eq m' dbs k st' 1 2) by (rewrite <- ?Ei; assumption). cbn [fst snd].
  assert (N : forall e b, normal m e b = normal m' e b) by (intros; unfold normal; rewrite Eno; reflexivity).
  assert (HN : h_norm m k st e = h_norm m' k st' e) by (rewrite !hnorm_fold, !Ev by lia; reflexivity).
  assert (FS : forall (g : mesh -> fside -> R), (forall s s', s_elt s = s_elt s' -> s_id s = s_id s' -> s_live s = s_live s' -> s_J s = s_J s' -> s_n s = s_n s' ->
      (forall gp, (gp < length (m_rule1 m))%nat -> discharge (s_q s gp) = discharge (s_q s' gp) /\ s_h s gp = s_h s' gp /\ s_out s gp = s_out s' gp) -> g m s = g m' s') ->
      total (face_sides m dbs k st) (g m) = total (face_sides m' dbs k st') (g m')).
  { intros g G. unfold face_sides. rewrite <- Ei. rewrite !total_app. f_equal.
    - clear - N Ew Eno Eh Er G Rev. induction (m_intfaces m) as [|f l IH]; [reflexivity|]. cbn [flat_map]. rewrite !total_app, IH. f_equal. unfold total. cbn [fold_right]. f_equal; [|f_equal].
      + apply G; cbn [s_elt s_id s_live s_J s_n s_q s_h s_out]; rewrite ?Ew, ?Eno, ?N; try reflexivity. intros gp Hg.
        destruct (Eh (i_in f) (i_bin f) gp Hg) as [A B]. rewrite <- Er. destruct (Eh (i_ex f) (i_bex f) _ (Rev gp Hg)) as [A' B']. split; [exact B|]. split; assumption.
      + apply G; cbn [s_elt s_id s_live s_J s_n s_q s_h s_out]; rewrite ?Ew, ?Eno, ?N; try reflexivity. intros gp Hg.
        destruct (Eh (i_ex f) (i_bex f) gp Hg) as [A B]. rewrite <- Er. destruct (Eh (i_in f) (i_bin f) _ (Rev gp Hg)) as [A' B']. split; [exact B|]. split; assumption.
    - clear Hd. induction dbs as [|d l IH]; [reflexivity|]. unfold total in *. cbn [map fold_right]. f_equal; [|exact IH].
      apply G; cbn [s_elt s_id s_live s_J s_n s_q s_h s_out]; rewrite ?Ew, ?Eno, ?N; try reflexivity. intros gp Hg.
      destruct (Eh (d_elt d) (d_id d) gp Hg) as [A B]. split; [exact B|]. split; [exact A|]. rewrite Er. reflexivity. }
  assert (CT : forall s s', s_elt s = s_elt s' -> s_id s = s_id s' -> s_live s = s_live s' -> s_J s = s_J s' -> s_n s = s_n s' ->
      (forall gp, (gp < length (m_rule1 m))%nat -> discharge (s_q s gp) = discharge (s_q s' gp) /\ s_h s gp = s_h s' gp /\ s_out s gp = s_out s' gp) ->
      counts m (disc_of 1 2) e s = counts m' (disc_of 1 2) e s').
  { intros s s' E1 E2 E3 E4 E5 Q. unfold counts. rewrite E1, E3. f_equal. unfold over_face. rewrite E4, E5, <- Er.
    rewrite (rsum_ext (length (m_rule1 m)) (fun gp => _ * (nx (s_n s') * fst (disc_of 1 2 (s_q s gp)) + _))
      (fun gp => fst (nth gp (m_rule1 m) (0, 0)) * (nx (s_n s') * fst (disc_of 1 2 (s_q s' gp)) + ny (s_n s') * snd (disc_of 1 2 (s_q s' gp))))); [reflexivity|].
    intros gp Hg. destruct (Q gp Hg) as [B _]. change (disc_of 1 2 (s_q s gp)) with (discharge (s_q s gp)). rewrite B. reflexivity. }
  unfold jumps, inflow_length.
  rewrite (FS (fun mm s => if counts mm (disc_of 1 2) e s then Rabs (over_face mm s (fun gp => s_h s gp - s_out s gp)) else 0)).
  rewrite (FS (fun mm s => if counts mm (disc_of 1 2) e s then dist (m_nodes mm e ((s_id s + 1) mod 3)%nat) (m_nodes mm e ((s_id s + 2) mod 3)%nat) else 0)).
  - rewrite HN, Ew, Eno, Ep. reflexivity.
  - intros s s' E1 E2 E3 E4 E5 Q. rewrite (CT s s' E1 E2 E3 E4 E5 Q), E2, Eno. reflexivity.
  - intros s s' E1 E2 E3 E4 E5 Q. rewrite (CT s s' E1 E2 E3 E4 E5 Q). destruct (counts _ _ _ _); [|reflexivity]. f_equal. unfold over_face. rewrite E4, <- Er. f_equal.
    apply rsum_ext. intros gp Hg. destruct (Q gp Hg) as (_ & B & C). rewrite B, C. reflexivity.
Qed.

Lemma path_start : forall m neigh j e i, path m neigh j e i -> (e < m_n m)%nat.
Proof. intros m neigh j e i P. induction P; assumption. Qed.

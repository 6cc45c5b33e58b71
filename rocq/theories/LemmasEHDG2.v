(** The explicit HDG stage: fluxes, weak form, next state. *)
From Coq Require Import Reals QArith Qreals List Bool Arith Lia Lra FunctionalExtensionality.
From Verif Require Import Num ModelSWE Outcome ModelShape ModelBasis ModelJac ModelStepper ModelWetDry ModelSlope ModelStep ModelIHDG ModelEHDG
  SpecSWE SpecShape SpecBasis SpecJac SpecStepper SpecWetDry SpecSlope SpecStep SpecStage SpecEHDG
  LemmasSWE LemmasRK LemmasHDG LemmasRest1 LemmasStep LemmasStage LemmasStage2 LemmasStage3 LemmasStage4 LemmasStage5 LemmasJac3 LemmasJac LemmasShape LemmasEHDG1.
Import ListNotations.
Open Scope R_scope.

(** ** Fluxes *)
Lemma flux_model : forall c q qh a n, hh a = ze qh + bath a ->
  vadd (get_Fn (c_g c) qh a n) (vscale (tau_LF (c_g c) qh a n) (ModelSWE.vsub q qh)) = hdg_flux c q qh (bath a) n.
Proof.
  intros c q qh a n H. unfold hdg_flux, tau_LF, get_Fn, vadd, vscale, ModelSWE.vsub, flux_x, flux_y, pressure, row. cbv zeta. cbn [ze qx qy]. num_R. rewrite H.
  replace (qx qh / (ze qh + bath a) * nx n + qy qh / (ze qh + bath a) * ny n) with ((qx qh * nx n + qy qh * ny n) / (ze qh + bath a)) by (unfold Rdiv; ring).
  set (tau := sqrt _ + Rabs _). apply vec3_eq; cbn [ze qx qy]; unfold Rdiv; ring.
Qed.
Lemma edge_value_model : forall m qh gp, trace_at m qh gp = edge_value m qh gp.
Proof. intros. unfold trace_at, edge_value, z1. rewrite !vmsum_rsum. reflexivity. Qed.

Section Trace.
  Context (m : mesh) (c : config) (solve : nat -> (nat -> nat -> R) -> (nat -> R) -> nat -> R).
  Lemma edge_lambda_ext : forall e b u u' v i, (forall gp, (gp < ngp1 m)%nat -> u gp = u' gp) -> edge_lambda m e b u v i = edge_lambda m e b u' v i.
  Proof. intros e b u u' v i H. unfold edge_lambda. rewrite !vmsum_rsum. apply rsum_ext. intros gp Hg. rewrite (H gp Hg). reflexivity. Qed.
  Lemma lambda_lambda_ext : forall e b i j u u' x y, (forall gp, (gp < ngp1 m)%nat -> u gp = u' gp) -> lambda_lambda m e b i j u x y = lambda_lambda m e b i j u' x y.
  Proof. intros e b i j u u' x y H. unfold lambda_lambda. rewrite !vmsum_rsum. apply rsum_ext. intros gp Hg. rewrite (H gp Hg). reflexivity. Qed.
  Lemma trace_pass_ext : forall b q q' qi qi' qh, (forall gp, (gp < ngp1 m)%nat -> q gp = q' gp /\ qi gp = qi' gp) ->
    trace_pass m c solve b q qi qh = trace_pass m c solve b q' qi' qh.
  Proof.
    intros b q q' qi qi' qh H. unfold trace_pass, trace_matrix, trace_load. cbv zeta.
    match goal with |- (fun v d => _ + solve ?n ?A ?r _, _) = (fun v d => _ + solve ?n ?A' ?r' _, _) =>
      assert (EA : A = A'); [|assert (Er : r = r'); [|rewrite EA, Er; reflexivity]] end.
    - apply functional_extensionality. intros i. apply functional_extensionality. intros j. apply lambda_lambda_ext.
      intros gp Hg. destruct (H gp Hg) as [-> ->]. reflexivity.
    - apply functional_extensionality. intros i. f_equal. apply edge_lambda_ext. intros gp Hg. destruct (H gp Hg) as [-> ->]. reflexivity.
  Qed.
  Lemma bc_trace_ext : forall b q q' qi qi', (forall gp, (gp < ngp1 m)%nat -> q gp = q' gp /\ qi gp = qi' gp) ->
    forall fuel qh, bc_trace m c solve fuel b q qi qh = bc_trace m c solve fuel b q' qi' qh.
  Proof.
    intros b q q' qi qi' H fuel. induction fuel as [|n IH]; intros qh; [reflexivity|]. cbn [bc_trace].
    rewrite (trace_pass_ext b q q' qi qi' qh H). destruct (trace_pass m c solve b q' qi' qh) as [qh' x]. destruct (Rltb _ _); [reflexivity|apply IH].
  Qed.
End Trace.

Section Stage.
  Context (m : mesh) (c : config) (solve : nat -> (nat -> nat -> R) -> (nat -> R) -> nat -> R).

  Lemma fluxes_model : forall t k s, faces_once m -> fluxes_of m c solve t k s (global_step m c solve t k s).
  Proof.
    intros t k s Fo. destruct (faces_small m Fo) as [F1 F2]. destruct Fo as [ND _]. destruct (sides_parts m ND) as (N1 & N2 & N3).
    destruct (loaded_spec m k s) as ((L1 & L2 & L3) & _).
    split.
    - intros f gp Hf Ki W Hg. change (length (m_rule1 m)) with (ngp1 m) in *. destruct (F1 f Hf) as [[_ B1] [_ B2]].
      rewrite !(global_intF m c k solve t s) by (try exact ND; apply in_flat_map; exists f; (split; [exact Hf|cbn; tauto])).
      replace (ngp1 m - 1 - gp)%nat with (ngp1 m - gp - 1)%nat by lia.
      pose proof (ei_fold_at m c (m_intfaces m) (loaded m k s) f gp N1 Hf Ki ltac:(rewrite L1; exact W) Hg) as E. cbv zeta in E. rewrite E. clear E.
      destruct (loaded_int m k s f gp Hf W Hg) as [-> _]. destruct (loaded_int m k s f (ngp1 m - gp - 1)%nat Hf W ltac:(lia)) as [_ ->].
      rewrite L1. unfold interface_point. change (length (m_rule1 m)) with (ngp1 m). cbv zeta. replace (ngp1 m - 1 - gp)%nat with (ngp1 m - gp - 1)%nat by lia.
      rewrite <- !trace_model by assumption.
      set (p := q_face m (es_m s) k (i_in f) (i_bin f) gp). set (q := q_face m (es_m s) k (i_ex f) (i_bex f) (ngp1 m - gp - 1)%nat).
      change (ehdg_qhat p q) with (mean_state p q).
      assert (EB : ehdg_base (c_g c) p q (edge_bath m f gp) (normal m (i_in f) (i_bin f)) =
        hdg_flux c p (mean_state p q) ((bath (m_faux m (i_in f) (i_bin f) gp) + bath (m_faux m (i_ex f) (i_bex f) (ngp1 m - gp - 1)%nat)) / 2) (normal m (i_in f) (i_bin f))).
      { unfold ehdg_base. cbv zeta. change (ehdg_qhat p q) with (mean_state p q).
        rewrite flux_model by reflexivity. reflexivity. }
      rewrite EB. destruct (ms_wet (es_m s) (i_in f)), (ms_wet (es_m s) (i_ex f)); cbn [andb]; try reflexivity.
      unfold ehdg_wd_point. cbn [negb]. destruct (nltb _ _); [reflexivity|]. destruct (nltb _ _); reflexivity.
    - intros f data gp Hf Ki.
      rewrite !(global_intF m c k solve t s) by (try exact ND; apply in_flat_map; exists f; (split; [exact Hf|cbn; tauto])).
      assert (Ot : forall e b, In (e, b) (isides f) -> forall g, In g (m_intfaces m) -> i_kind g = Internal -> ~ In (e, b) (isides g)).
      { intros e b I g Hg Kg I'. apply in_split in Hf as (l1 & l2 & El). assert (Hg' : In g (l1 ++ l2)).
        { rewrite El in Hg. apply in_app_or in Hg. apply in_or_app. destruct Hg as [Hg|[Hg|Hg]]; [left; exact Hg| |right; exact Hg]. congruence. }
        rewrite El, flat_map_app in N1. cbn [flat_map] in N1. apply NoDup_app_parts in N1 as (_ & N & Nx). apply NoDup_app_parts in N as (_ & _ & Ny).
        apply in_app_or in Hg' as [Hg'|Hg'].
        - apply (Nx (e, b)); [apply in_flat_map; exists g; split; assumption|]. apply in_or_app. left. exact I.
        - apply (Ny (e, b) I). apply in_flat_map. exists g. split; assumption. }
      rewrite !ei_fold_other by (apply Ot; cbn; tauto). rewrite L2. split; reflexivity.
    - intros b gp Hb Kb W Hg q n. change (length (m_rule1 m)) with (ngp1 m) in *. destruct (F2 b Hb) as [_ B1].
      apply In_nth_error in Hb as Hi. destruct Hi as [i Hi].
      destruct (global_bound m c k solve t s i b ND Hi) as [_ E]. rewrite (E gp Hg). unfold bnd_flux. rewrite Kb. cbv zeta.
      rewrite (loaded_wet m k s b gp Hb W Hg), (trace_model m k (es_m s)) by exact B1. fold q n.
      unfold ehdg_land_flux. cbv zeta. rewrite flux_model by reflexivity. reflexivity.
    - intros i b ex Hi Kb n q. change (length (m_rule1 m)) with (ngp1 m) in *.
      assert (Hb : In b (m_bounds m)) by (eapply nth_error_In; exact Hi). destruct (F2 b Hb) as [_ B1].
      destruct (global_bound m c k solve t s i b ND Hi) as [E1 E2].
      assert (Q : forall gp, (gp < ngp1 m)%nat -> es_q (loaded m k s) (b_elt b) (b_id b) gp = q gp).
      { intros gp Hg. unfold q. destruct (ms_wet (es_m s) (b_elt b)) eqn:W.
        - rewrite (loaded_wet m k s b gp Hb W Hg). apply trace_model. exact B1.
        - apply loaded_dry; assumption. }
      assert (T : es_qh (global_step m c solve t k s) i = bc_trace m c solve 100 b q (fun gp => ex t gp n (q gp)) (es_qh s i)).
      { rewrite E1. unfold bnd_trace. rewrite Kb. cbv zeta. rewrite L3. apply bc_trace_ext. intros gp Hg. rewrite (Q gp Hg). split; reflexivity. }
      split; [exact T|]. intros gp Hg. rewrite (E2 gp Hg). unfold bnd_flux. rewrite Kb. cbv zeta. fold n. rewrite <- E1, T, (Q gp Hg).
      rewrite flux_model by reflexivity. rewrite edge_value_model. reflexivity.
  Qed.

  (** ** Right-hand side *)
  Section Rhs.
    Context (t : R) (k : nat) (st0 : mstate) (F : nat -> nat -> nat -> vec3 R).
    Definition hint_con (f : intface) (e : nat) : coeffs := fun v d =>
      if ms_wet st0 (i_in f) || ms_wet st0 (i_ex f) then
        (if Nat.eqb e (i_in f) then - integration_face m (i_in f) (i_bin f) (i_bin f) (F (i_in f) (i_bin f)) v d else 0) +
        (if Nat.eqb e (i_ex f) then - integration_face m (i_in f) (i_bin f) (i_bex f) (F (i_ex f) (i_bex f)) v d else 0)
      else 0.
    Definition hbnd_con (b : bound) (e : nat) : coeffs := fun v d =>
      if Nat.eqb e (b_elt b) then if ms_wet st0 (b_elt b) then - integration_face m (b_elt b) (b_id b) (b_id b) (F (b_elt b) (b_id b)) v d else 0 else 0.
    Definition hvol_at (e : nat) : coeffs := fun v d =>
      if ms_wet st0 e then
        let G gp := get_F (c_g c) (q_gp m st0 k e gp) (aux_gp m st0 k e gp) in
        integration_dphi m e fst (fun gp => fst (G gp)) v d + integration_dphi m e snd (fun gp => snd (G gp)) v d
      else 0.
    Lemma hint_same : forall st f, same_state (local_interface m F k st f) st.
    Proof. intros. unfold local_interface. destruct (_ || _); [|apply same_refl]. eapply same_trans; apply same_set_rhs. Qed.
    Lemma hbnd_same : forall st b, same_state (local_boundary m F k st b) st.
    Proof. intros. unfold local_boundary. destruct (ms_wet _ _); [apply same_set_rhs|apply same_refl]. Qed.
    Lemma hvol_same : forall st e, same_state (local_volume m c k st e) st.
    Proof. intros. unfold local_volume. destruct (ms_wet st e); apply same_set_rhs. Qed.
    Lemma hint_adds : adds k st0 (local_interface m F k) hint_con.
    Proof.
      intros st f S0. split; [apply hint_same|]. intros e s v d. unfold local_interface, hint_con.
      pose proof S0 as (_ & _ & W & _). rewrite W.
      destruct (ms_wet st0 (i_in f) || ms_wet st0 (i_ex f)).
      - cbv zeta. rewrite set_rhs_at. unfold csub. rewrite !set_rhs_at, Nat.eqb_refl.
        destruct (Nat.eqb_spec e (i_ex f)) as [E1|N1]; destruct (Nat.eqb_spec e (i_in f)) as [E2|N2]; destruct (Nat.eqb_spec s k) as [->|]; try ring.
        + rewrite <- E1. rewrite <- E2. rewrite Nat.eqb_refl. ring.
        + rewrite <- E1. destruct (Nat.eqb_spec e (i_in f)); [contradiction|]. ring.
        + subst e. ring.
      - destruct (Nat.eqb s k); ring.
    Qed.
    Lemma hbnd_adds : adds k st0 (local_boundary m F k) hbnd_con.
    Proof.
      intros st b S0. split; [apply hbnd_same|]. intros e s v d. unfold local_boundary, hbnd_con.
      pose proof S0 as (_ & _ & W & _). rewrite W. destruct (ms_wet st0 (b_elt b)).
      - rewrite set_rhs_at. unfold csub. destruct (Nat.eqb_spec e (b_elt b)) as [->|]; destruct (Nat.eqb_spec s k) as [->|]; ring.
      - destruct (Nat.eqb s k), (Nat.eqb e (b_elt b)); ring.
    Qed.
    Lemma hvol_step : forall st x, same_state st st0 -> same_state (local_volume m c k st x) st /\
      forall e s v d, ms_rhs (local_volume m c k st x) e s v d = if Nat.eqb e x && Nat.eqb s k then hvol_at e v d else ms_rhs st e s v d.
    Proof.
      intros st x S0. split; [apply hvol_same|]. intros e s v d. unfold local_volume, hvol_at.
      pose proof S0 as (Q & _ & W & _). rewrite W. unfold q_gp, aux_gp, q_gp. rewrite Q.
      destruct (ms_wet st0 x) eqn:Wx; rewrite set_rhs_at; destruct (Nat.eqb_spec e x) as [->|]; cbn [andb]; rewrite ?Wx; destruct (Nat.eqb s k); reflexivity.
    Qed.
    Lemma hvol_fold : forall l st, same_state st st0 -> same_state (fold_left (local_volume m c k) l st) st0 /\
      (forall e s v d, In e l -> s = k -> ms_rhs (fold_left (local_volume m c k) l st) e s v d = hvol_at e v d) /\
      (forall e s v d, ~ In e l \/ s <> k -> ms_rhs (fold_left (local_volume m c k) l st) e s v d = ms_rhs st e s v d).
    Proof.
      intros l. induction l as [|x l IH]; intros st S0.
      - split; [exact S0|]. split; [intros e s v d []|]. reflexivity.
      - cbn [fold_left]. destruct (hvol_step st x S0) as [S1 E1]. destruct (IH _ (same_trans _ _ _ S1 S0)) as (S2 & A2 & B2).
        split; [exact S2|]. split.
        + intros e s v d He ->. destruct (in_dec Nat.eq_dec e l) as [I|I]; [apply A2; [exact I|reflexivity]|].
          destruct He as [<-|He]; [|contradiction]. rewrite B2 by (left; exact I). rewrite E1, !Nat.eqb_refl. reflexivity.
        + intros e s v d He. rewrite B2 by (destruct He as [He|He]; [left; intro; apply He; right; assumption|right; exact He]).
          rewrite E1. destruct (Nat.eqb_spec e x) as [->|]; [|reflexivity]. destruct (Nat.eqb_spec s k) as [->|]; [|reflexivity].
          destruct He as [He|He]; [exfalso; apply He; left; reflexivity|contradiction].
    Qed.
    Lemma local_at : same_state (local_rhs m c t k F st0) st0 /\
      (forall e v d, (e < m_n m)%nat -> ms_rhs (local_rhs m c t k F st0) e k v d =
         hvol_at e v d + (if ms_wet st0 e then integration_phi m e (source_at m c t k st0 e) v d else 0) +
         lsum (m_intfaces m) (fun f => hint_con f e v d) + lsum (m_bounds m) (fun b => hbnd_con b e v d)) /\
      (forall e s v d, s <> k -> ms_rhs (local_rhs m c t k F st0) e s v d = ms_rhs st0 e s v d).
    Proof.
      unfold local_rhs. cbv zeta.
      destruct (hvol_fold (seq 0 (m_n m)) st0 (same_refl st0)) as (S1 & A1 & B1).
      destruct (adds_fold _ _ _ _ _ (source_adds m c t k st0) (seq 0 (m_n m)) _ S1) as (S2 & E2).
      destruct (adds_fold _ _ _ _ _ hint_adds (m_intfaces m) _ S2) as (S3 & E3).
      destruct (adds_fold _ _ _ _ _ hbnd_adds (m_bounds m) _ S3) as (S4 & E4).
      split; [exact S4|]. split.
      - intros e v d He. assert (I : In e (seq 0 (m_n m))) by (apply in_seq; lia).
        rewrite E4, E3, E2, Nat.eqb_refl, (A1 e k v d I eq_refl), (src_sum m c t k st0 e v d (seq 0 (m_n m)) (seq_NoDup _ _) I). ring.
      - intros e s v d H. rewrite E4, E3, E2. rewrite (B1 e s v d) by (right; exact H). destruct (Nat.eqb_spec s k); [contradiction|]. ring.
    Qed.
    Lemma hint_load : forall f e v i, (i_bin f < 3)%nat -> (i_bex f < 3)%nat -> hint_con f e v i = - hdg_interface_load m st0 F f e v i.
    Proof.
      intros f e v i Hi He. unfold hint_con, hdg_interface_load. destruct (_ || _); [|ring]. cbv zeta. rewrite !face_integral_model by assumption.
      destruct (Nat.eqb e (i_in f)), (Nat.eqb e (i_ex f)); ring.
    Qed.
    Lemma hbnd_load : forall b e v i, (b_id b < 3)%nat -> hbnd_con b e v i = - hdg_boundary_load m st0 F b e v i.
    Proof.
      intros b e v i Hb. unfold hbnd_con, hdg_boundary_load. destruct (Nat.eqb_spec e (b_elt b)) as [->|]; cbn [andb]; [|ring].
      destruct (ms_wet st0 (b_elt b)); [|ring]. rewrite face_integral_model by exact Hb. reflexivity.
    Qed.
    Lemma hinterior_model : forall e v i, orient (m_nodes m e 0%nat) (m_nodes m e 1%nat) (m_nodes m e 2%nat) <> 0 -> ms_wet st0 e = true ->
      hvol_at e v i + integration_phi m e (source_at m c t k st0 e) v i = hdg_interior m c t k st0 e v i.
    Proof.
      intros e v i Ho W. unfold hvol_at. rewrite W. cbv zeta. unfold integration_dphi, integration_phi, hdg_interior.
      rewrite !vmsum_rsum. change (length (m_rule2 m)) with (ngp2 m).
      rewrite <- rsum_scal, <- !rsum_plus. apply rsum_ext. intros gp Hg.
      rewrite area_jdet. unfold w2, z2. rewrite !(grad_model (m_nodes m e) _ Ho).
      unfold source_at. rewrite source_form by exact Hg. unfold aux_gp, q_gp, z2. cbn [hh bath].
      destruct (nth gp (m_rule2 m) (0, (0, 0))) as [w z] eqn:Ew. cbn [fst snd]. rewrite value_model.
      set (q := value m (ms_q st0 e k) z). set (J := Rabs (GetJdet (m_nodes m e))).
      set (gx := grad_x _ _). set (gy := grad_y _ _). set (ph := GetPhi i z).
      set (b := bath (m_aux m e gp)).
      unfold get_F, flux_x, flux_y, source, friction, unfrictioned, pressure, vscale, ModelSWE.vsub, speed_over_depth, row, vget. cbn [bath hh sp ze qx qy fst snd nx ny].
      num_R. unfold Rdiv. set (h := / (ze q + b)).
      destruct (m_fs m) as [fs|]; cbn [option_map]; destruct (s_bottom_friction (m_src m e)); cbn [ze qx qy]; destruct v as [|[|v]]; field.
    Qed.
    Lemma form_model : forall e v i, faces_once m -> (e < m_n m)%nat ->
      orient (m_nodes m e 0%nat) (m_nodes m e 1%nat) (m_nodes m e 2%nat) <> 0 ->
      ms_rhs (local_rhs m c t k F st0) e k v i = hdg_form m c t k st0 F e v i.
    Proof.
      intros e v i Fo He Ho. destruct (faces_small m Fo) as [F1 F2]. destruct local_at as (_ & E & _). rewrite E by exact He. unfold hdg_form.
      rewrite (lsum_ext _ (m_intfaces m) _ (fun f => - hdg_interface_load m st0 F f e v i)) by (intros f Hin; destruct (F1 f Hin) as [[_ ?] [_ ?]]; apply hint_load; assumption).
      rewrite (lsum_ext _ (m_bounds m) _ (fun b => - hdg_boundary_load m st0 F b e v i)) by (intros b Hin; apply hbnd_load, F2, Hin).
      rewrite !lsum_opp. destruct (ms_wet st0 e) eqn:W.
      - rewrite (hinterior_model e v i Ho W). ring.
      - unfold hvol_at. rewrite W. ring.
    Qed.
  End Rhs.
End Stage.

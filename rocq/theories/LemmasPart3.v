From Coq Require Import ZArith NArith List Bool Arith Reals Sorted Permutation Lia.
From Verif Require Import Num Outcome ModelMesh ModelPart SpecPart LemmasPart LemmasCsr LemmasPart2.
Import ListNotations.
Open Scope N_scope.

(** ** Edges *)
Lemma mesh_edges_spec : forall els, NoDup (mesh_edges els) /\
  forall a b, In (a, b) (mesh_edges els) <-> exists e x n, In (e, x) els /\ In n (e_neigh x) /\ n <> DEFAULT_ID /\ (a, b) = edge_of e n.
Proof.
  intros els. unfold mesh_edges. destruct (fold_padd (flat_map elt_edges els) [] (NoDup_nil _)) as [A B]. split; [exact A|].
  intros a b. rewrite B. cbn [In]. rewrite in_flat_map. split.
  - intros [[]|([e x] & Hx & H)]. unfold elt_edges in H. apply in_map_iff in H. destruct H as (n & E & Hn). apply filter_In in Hn. destruct Hn as [Hn Nn].
    exists e, x, n. cbn [fst snd] in *. repeat split; try assumption; [|symmetry; exact E]. intros ->. rewrite N.eqb_refl in Nn. discriminate.
  - intros (e & x & n & Hx & Hn & Nd & E). right. exists (e, x). split; [exact Hx|]. unfold elt_edges. cbn [fst snd]. apply in_map_iff. exists n.
    split; [symmetry; exact E|]. apply filter_In. split; [exact Hn|]. apply negb_true_iff, N.eqb_neq, Nd.
Qed.
Lemma mesh_edges_ok : forall (P : Type) (m : mesh P), mesh_ok m -> forall ed, In ed (mesh_edges (m_elements m)) ->
  fst ed <= snd ed /\ In (fst ed) (map fst (m_elements m)) /\ In (snd ed) (map fst (m_elements m)).
Proof.
  intros P m (Hd & _ & Hm) [a b] H. apply mesh_edges_spec in H. destruct H as (e & x & n & Hx & Hn & Nd & E).
  destruct (Hm e x Hx) as (_ & _ & _ & Hng). specialize (Hng n Hn Nd). apply (in_map fst) in Hx. cbn [fst] in Hx.
  unfold edge_of in E. injection E as -> ->. cbn [fst snd]. split; [lia|].
  destruct (N.min_spec e n) as [[_ ->]|[_ ->]], (N.max_spec e n) as [[_ ->]|[_ ->]]; split; assumption.
Qed.

(** ** Maps to parts *)
Lemma combine_keys : forall (A B : Type) (l : list A) (l' : list B), (length l <= length l')%nat -> map fst (combine l l') = l.
Proof. intros A B. induction l as [|x l IH]; intros l' H; [reflexivity|]. destruct l' as [|y l']; cbn in H; [lia|]. cbn. f_equal. apply IH. lia. Qed.
Lemma combine_snd : forall (A B : Type) (l : list A) (l' : list B), length l = length l' -> map snd (combine l l') = l'.
Proof. intros A B. induction l as [|x l IH]; intros l' H; destruct l' as [|y l']; try discriminate; [reflexivity|]. cbn. f_equal. apply IH. injection H as H. exact H. Qed.

Lemma assign_ok : forall s p, length p = length s -> assign s p = Ok (combine s p).
Proof. intros s p H. unfold assign. rewrite H. rewrite Nat.ltb_irrefl. reflexivity. Qed.

(** ** Weights of submeshes *)
Lemma add_weights_length : forall a b : list R, length a = length b -> exists c, add_weights a b = Ok c /\ length c = length a.
Proof.
  induction a as [|x a IH]; intros b H; destruct b as [|y b]; try discriminate.
  - exists []. auto.
  - injection H as H. destruct (IH b H) as (c & E & L). cbn. rewrite E. cbn. eexists. split; [reflexivity|]. cbn. rewrite L. reflexivity.
Qed.

Lemma submesh_weight_keys : forall e2p (pw : list (N * list R)) L, (forall e w, In (e, w) pw -> length w = L) ->
  (forall e, In e (map fst pw) -> afind e2p e <> None) ->
  exists sw, submesh_weight e2p pw = Ok sw /\ NoDup (map fst sw) /\ (forall p w, In (p, w) sw -> length w = L) /\
    forall p, In p (map fst sw) <-> exists e, In e (map fst pw) /\ afind e2p e = Some p.
Proof.
  intros e2p pw L. induction pw as [|[e w] pw IH] using rev_ind; intros HL HE.
  - exists []. split; [reflexivity|]. split; [constructor|]. split; [intros p w []|]. intros p. split; [intros [] | intros (e & [] & _)].
  - destruct IH as (sw & E & D & Lw & K).
    + intros e' w' H. apply (HL e'), in_app_iff. auto.
    + intros e' H. apply HE. rewrite map_app. apply in_app_iff. auto.
    + unfold submesh_weight in *. rewrite ofold_app, E. cbn [bind ofold fst snd].
      destruct (afind e2p e) as [p|] eqn:Ep; [|exfalso; apply (HE e); [rewrite map_app; apply in_app_iff; right; left; reflexivity | exact Ep]].
      cbn [of_at bind].
      assert (KK : forall q, (exists e', In e' (map fst (pw ++ [(e, w)])) /\ afind e2p e' = Some q) <-> (exists e', In e' (map fst pw) /\ afind e2p e' = Some q) \/ q = p).
      { intros q. rewrite map_app. split.
        - intros (e' & H & Q). apply in_app_iff in H. destruct H as [H|[<-|[]]]; [left; exists e'; auto | right; cbn in Q; congruence].
        - intros [(e' & H & Q)| ->]; [exists e'; split; [apply in_app_iff; auto | exact Q] | exists e; split; [apply in_app_iff; right; left; reflexivity | exact Ep]]. }
      assert (LW : length w = L) by (apply (HL e), in_app_iff; right; left; reflexivity).
      destruct (afind sw p) as [v|] eqn:Es.
      * assert (LV : length v = L) by (apply (Lw p), afind_In, Es).
        destruct (add_weights_length v w) as (c & -> & Lc); [congruence|]. cbn [bind].
        assert (Kp : In p (map fst sw)) by (apply afind_In in Es; apply (in_map fst) in Es; exact Es).
        eexists. split; [reflexivity|]. rewrite aset_keys by exact Kp. split; [exact D|]. split.
        -- intros q u Hq. apply aset_In in Hq; [|exact D]. destruct Hq as [[-> ->]|[_ Hq]]; [congruence | apply (Lw q), Hq].
        -- intros q. rewrite KK, <- K. split; [auto|]. intros [H| ->]; assumption.
      * eexists. split; [reflexivity|]. apply afind_None in Es. rewrite map_app. split; [apply NoDup_snoc; assumption|]. split.
        -- intros q u Hq. apply in_app_iff in Hq. destruct Hq as [Hq|[Q|[]]]; [apply (Lw q), Hq|]. injection Q as <- <-. exact LW.
        -- intros q. rewrite KK, <- K, in_app_iff. cbn. intuition.
Qed.

Lemma csr_make_ok : forall (nw : list (N * list R)) (ew : list ((N * N) * R)) L, (forall e w, In (e, w) nw -> length w = L) ->
  exists c, csr_make nw ew = Ok c /\ c_nodes c = isort (map fst nw).
Proof.
  intros nw ew L H. unfold csr_make.
  assert (F : forallb (fun x : N * list R => Nat.eqb (length (snd x)) match nw with [] => 0%nat | x :: _ => length (snd x) end) nw = true).
  { destruct nw as [|[e0 w0] nw]; [reflexivity|]. apply forallb_forall. intros [e w] Hx. cbn [snd]. apply Nat.eqb_eq.
    rewrite (H e w Hx), (H e0 w0 (or_introl eq_refl)). reflexivity. }
  rewrite F. eexists. split; reflexivity.
Qed.

Lemma submesh_edge_weight_ok : forall e2p edges, (forall a b, In (a, b) edges -> afind e2p a <> None /\ afind e2p b <> None) ->
  exists sew : list ((N * N) * R), submesh_edge_weight e2p edges = Ok sew.
Proof.
  intros e2p edges. induction edges as [|[a b] edges IH] using rev_ind; intros H; [eexists; reflexivity|].
  destruct IH as (sew & E); [intros; apply H, in_app_iff; auto|]. unfold submesh_edge_weight in *. rewrite ofold_app, E. cbn [bind ofold fst snd].
  destruct (H a b) as [Ha Hb]; [apply in_app_iff; right; left; reflexivity|].
  destruct (afind e2p a) as [p|]; [|contradiction]. destruct (afind e2p b) as [q|]; [|contradiction]. cbn. eexists. reflexivity.
Qed.

(** ** The partition *)
Theorem partition_ok : forall (P : Type) (m : mesh P) (weights : list (N * list R)) rb np nn rpl mesh_part sbmsh_part oe op,
  partition_inputs m weights np nn rpl mesh_part sbmsh_part oe op ->
  exists size c, partition_mesh m weights rb np nn rpl mesh_part sbmsh_part oe op = Ok (size, c) /\
    (forall e, In e (map fst (m_elements m)) -> exists r l, holds (nn * rpl) size c e r l /\
       forall r' l', holds (nn * rpl) size c e r' l' -> r' = r /\ l' = l) /\
    (forall e f p q, part_of (isort (map fst (m_elements m))) mesh_part e p -> part_of (isort (map fst (m_elements m))) mesh_part f q ->
       (together (nn * rpl) size c e f <-> p = q)) /\
    (forall e p i n r l, part_of (isort (map fst (m_elements m))) mesh_part e p ->
       nth_error (isort (nodup N.eq_dec mesh_part)) i = Some p -> nth_error sbmsh_part i = Some n ->
       holds (nn * rpl) size c e r l -> r / rpl = n) /\
    (forall r l, r < nn * rpl -> l < size r -> submesh_faithful m (nn * rpl) size c r l).
Proof.
  intros P m weights rb np nn rpl mp sp oe op (Hm & Hne & Hw & (L & HL) & Hr & Lmp & Hmp & Lsp & Hsp & Hoe & Hop).
  pose proof Hm as (Hd & Hdef & Hel). unfold partition_mesh.
  set (ids := map fst (m_elements m)) in *. set (edges := mesh_edges (m_elements m)) in *.
  assert (G : exists g, csr_make (if rb then weights else map (fun x => (fst x, [nofZ 1%Z])) (m_elements m)) (map (fun e => (e, nofZ 1%Z)) edges) = Ok g /\
              c_nodes g = isort ids).
  { destruct rb.
    - destruct (csr_make_ok weights (map (fun e => (e, nofZ 1%Z)) edges) L HL) as (g & E & C). exists g. split; [exact E|]. rewrite C.
      (* sorting forgets the order *)
      assert (U : forall l l', StronglySorted N.lt l -> StronglySorted N.lt l' -> Permutation l l' -> l = l').
      { clear. induction l as [|x l IH]; intros l' S S' Pm.
        - apply Permutation_nil in Pm. congruence.
        - destruct l' as [|y l']; [symmetry in Pm; apply Permutation_nil in Pm; discriminate|].
          inversion S as [|? ? S1 S2]; inversion S' as [|? ? S3 S4]; subst. rewrite Forall_forall in S2, S4.
          assert (x = y).
          { assert (Hx : In x (y :: l')) by (apply (Permutation_in _ Pm); left; reflexivity).
            assert (Hy : In y (x :: l)) by (apply (Permutation_in _ (Permutation_sym Pm)); left; reflexivity).
            destruct Hx as [|Hx]; [congruence|]. destruct Hy as [|Hy]; [congruence|]. specialize (S2 y Hy). specialize (S4 x Hx). lia. }
          subst y. f_equal. apply IH; try assumption. apply Permutation_cons_inv in Pm. exact Pm. }
      apply U; [apply isort_lt; eapply Permutation_NoDup; [symmetry; exact Hw | exact Hd] | apply isort_lt, Hd |].
      rewrite <- !isort_perm. exact Hw.
    - destruct (csr_make_ok (map (fun x : N * elt => (fst x, [nofZ 1%Z])) (m_elements m)) (map (fun e => (e, nofZ 1%Z)) edges) 1) as (g & E & C).
      + intros e w H. apply in_map_iff in H. destruct H as (x & H & _). injection H as _ <-. reflexivity.
      + exists g. split; [exact E|]. rewrite C, map_map. reflexivity. }
  destruct G as (g & -> & Cg). cbn [bind]. rewrite Cg.
  assert (Lids : length (isort ids) = length mp) by (rewrite isort_length; unfold ids; rewrite map_length; lia).
  rewrite assign_ok by (symmetry; exact Lids). cbn [bind]. set (e2p := combine (isort ids) mp).
  assert (Ke : map fst e2p = isort ids) by (apply combine_keys; lia).
  assert (De : NoDup (map fst e2p)) by (rewrite Ke; apply sorted_NoDup, isort_lt, Hd).
  assert (Se : map snd e2p = mp) by (apply combine_snd, Lids).
  assert (Fe : forall e, In e ids -> exists p, afind e2p e = Some p).
  { intros e He. apply afind_keys. rewrite Ke. apply isort_In, He. }
  assert (Po : forall e p, part_of (isort ids) mp e p <-> afind e2p e = Some p).
  { intros e p. split.
    - intros (i & E1 & E2). apply In_afind; [exact De|]. unfold e2p. clear - E1 E2. revert mp i E1 E2. generalize (isort ids).
      induction l as [|x l IH]; intros mp i E1 E2; [destruct i; discriminate|]. destruct mp as [|y mp]; [destruct i; discriminate|].
      destruct i as [|i]; cbn in *; [injection E1 as ->; injection E2 as ->; left; reflexivity | right; apply (IH mp i); assumption].
    - intros H. apply afind_In in H. unfold e2p in H. clear - H. revert mp H. generalize (isort ids).
      induction l as [|x l IH]; intros mp H; [destruct H|]. destruct mp as [|y mp]; [destruct H|]. destruct H as [H|H].
      + injection H as -> ->. exists 0%nat. auto.
      + destruct (IH mp H) as (i & A & B). exists (S i). auto. }
  (* submesh graph *)
  destruct (submesh_weight_keys e2p weights L HL) as (sw & -> & Dsw & Lsw & Ksw).
  { intros e He Q. assert (In e ids) by (apply (Permutation_in _ Hw), He). destruct (Fe e H) as [p E]. congruence. }
  cbn [bind].
  assert (Eo : forall a b, In (a, b) (oe edges) -> afind e2p a <> None /\ afind e2p b <> None).
  { intros a b H. apply (Permutation_in _ (Hoe edges)) in H. destruct (mesh_edges_ok P m Hm (a, b) H) as (_ & A & B). cbn in A, B.
    destruct (Fe a A) as [pa ->]. destruct (Fe b B) as [pb ->]. split; discriminate. }
  destruct (submesh_edge_weight_ok e2p (oe edges) Eo) as (sew & ->). cbn [bind].
  destruct (csr_make_ok sw sew L Lsw) as (sg & -> & Csg). cbn [bind]. rewrite Csg.
  assert (Kp : forall p, In p (map fst sw) <-> In p mp).
  { intros p. rewrite Ksw. split.
    - intros (e & _ & E). apply afind_In in E. apply (in_map snd) in E. rewrite Se in E. exact E.
    - intros H. rewrite <- Se in H. apply in_map_iff in H. destruct H as ([e p'] & <- & H). exists e. split; [|apply In_afind; [exact De | exact H]].
      apply (Permutation_in _ (Permutation_sym Hw)). apply (in_map fst) in H. rewrite Ke in H. apply (proj1 (isort_In _ _)) in H. exact H. }
  assert (Pm : Permutation (map fst sw) (nodup N.eq_dec mp)).
  { apply NoDup_Permutation; [exact Dsw | apply NoDup_nodup|]. intros p. rewrite nodup_In. apply Kp. }
  assert (SS : isort (map fst sw) = isort (nodup N.eq_dec mp)).
  { assert (U : forall l l', StronglySorted N.lt l -> StronglySorted N.lt l' -> (forall x, In x l <-> In x l') -> l = l').
    { clear. induction l as [|x l IH]; intros l' S S' Q; destruct l' as [|y l'].
      - reflexivity.
      - exfalso. apply (Q y). left. reflexivity.
      - exfalso. apply (Q x). left. reflexivity.
      - inversion S as [|? ? S1 S2]; inversion S' as [|? ? S3 S4]; subst. rewrite Forall_forall in S2, S4.
        assert (x = y).
        { destruct (proj1 (Q x) (or_introl eq_refl)) as [|Hx]; [congruence|]. destruct (proj2 (Q y) (or_introl eq_refl)) as [|Hy]; [congruence|].
          specialize (S2 y Hy). specialize (S4 x Hx). lia. }
        subst y. f_equal. apply IH; try assumption. intros z. split; intros Hz.
        + destruct (proj1 (Q z) (or_intror Hz)) as [<-|]; [specialize (S2 x Hz); lia | assumption].
        + destruct (proj2 (Q z) (or_intror Hz)) as [<-|]; [specialize (S4 x Hz); lia | assumption]. }
    apply U; [apply isort_lt, Dsw | apply isort_lt, NoDup_nodup |]. intros x. rewrite !isort_In, nodup_In. apply Kp. }
  rewrite SS. set (ps := isort (nodup N.eq_dec mp)) in *.
  assert (Lps : length ps = length sp) by (unfold ps; rewrite isort_length; lia).
  rewrite assign_ok by (symmetry; exact Lps). cbn [bind]. set (p2n := combine ps sp).
  assert (Kn : map fst p2n = ps) by (apply combine_keys; lia).
  assert (Dn : NoDup (map fst p2n)) by (rewrite Kn; apply sorted_NoDup, isort_lt, NoDup_nodup).
  assert (Sn : map snd p2n = sp) by (apply combine_snd, Lps).
  (* ranks *)
  destruct (assign_ranks_ok nn rpl np (op p2n) Hr) as (rk & -> & (R1 & R2 & R3 & R4)).
  { eapply Permutation_NoDup; [apply Permutation_map; symmetry; apply Hop | exact Dn]. }
  { intros p n H. apply (Permutation_in _ (Hop p2n)) in H. split.
    - apply Hmp. apply (in_map fst) in H. rewrite Kn in H. cbn in H. unfold ps in H. apply (proj1 (isort_In _ _)), nodup_In in H. exact H.
    - apply Hsp. rewrite <- Sn. apply (in_map snd) in H. exact H. }
  cbn [bind].
  assert (OpK : forall p, In p (map fst (op p2n)) <-> In p mp).
  { intros p. rewrite (Permutation_map fst (Hop p2n) : Permutation (map fst (op p2n)) (map fst p2n)). rewrite Kn. unfold ps. rewrite isort_In, nodup_In. reflexivity. }
  assert (Pin : forall e p, afind e2p e = Some p -> In p mp).
  { intros e p E. apply afind_In in E. apply (in_map snd) in E. rewrite Se in E. exact E. }
  assert (RB : forall p, In p mp -> p2r rk p < nn * rpl /\ p2l rk p < lpc rk (p2r rk p)).
  { intros p H. apply OpK in H. apply in_map_iff in H. destruct H as ([p' n] & <- & H). destruct (R2 p' n H) as (A & _ & B). auto. }
  assert (Hloc : forall e, In e ids -> exists p, afind e2p e = Some p /\ locate (nn * rpl) np rk p = Ok (p2r rk p, p2l rk p)).
  { intros e He. destruct (Fe e He) as [p E]. exists p. split; [exact E|]. pose proof (Pin e p E) as Hp. unfold locate.
    rewrite (proj2 (N.ltb_lt _ _) (Hmp p Hp)). destruct (RB p Hp) as [A B]. rewrite (proj2 (N.ltb_lt _ _) A), (proj2 (N.ltb_lt _ _) B). reflexivity. }
  assert (Hinj : forall e f p q, afind e2p e = Some p -> afind e2p f = Some q -> p2r rk p = p2r rk q -> p2l rk p = p2l rk q -> p = q).
  { intros e f p q Ee Ef. apply R3; apply OpK; [apply (Pin e), Ee | apply (Pin f), Ef]. }
  destruct (assemble_prefix m e2p (nn * rpl) np rk Hm Hloc (m_elements m) (fun x H => H) Hd) as (c0 & -> & B0 & NI0). cbn [bind].
  destruct (split_edges_ok m e2p (nn * rpl) np rk Hm Hloc Hinj c0 B0 (oe edges)) as (c & -> & (SE & SN)).
  { eapply Permutation_NoDup; [symmetry; apply Hoe | apply mesh_edges_spec]. }
  { intros ed H. apply (Permutation_in _ (Hoe edges)) in H. apply mesh_edges_ok; assumption. }
  cbn [bind]. exists (lpc rk), c.
  assert (sw <> []) as Nsw.
  { intros ->. destruct mp as [|p mp']; [destruct (m_elements m); [congruence | discriminate]|]. apply (Kp p). left. reflexivity. }
  split; [destruct sw; [contradiction | reflexivity]|]. clear Nsw.
  assert (KH : forall e p r l, afind e2p e = Some p -> In e ids -> (holds (nn * rpl) (lpc rk) c e r l <-> r = p2r rk p /\ l = p2l rk p)).
  { intros e p r l E He. unfold holds. rewrite SE, retype_fst. split.
    - intros (_ & _ & H). apply in_map_iff in H. destruct H as ([e' x] & <- & H). apply filter_In in H. destruct H as [_ H]. cbn [fst] in *.
      apply (at_loc_spec e2p rk r l e' p E) in H. destruct H as [-> ->]. auto.
    - intros [-> ->]. destruct (RB p (Pin e p E)) as [A B]. split; [exact A|]. split; [exact B|].
      apply in_map_iff in He. destruct He as ([e' x] & <- & Hx). apply in_map_iff. exists (e', x). split; [reflexivity|].
      apply filter_In. split; [exact Hx|]. cbn [fst] in *. apply (at_loc_spec e2p rk _ _ e' p E). auto. }
  assert (IDe : forall e p, afind e2p e = Some p -> In e ids).
  { intros e p E. apply afind_In in E. apply (in_map fst) in E. rewrite Ke in E. apply (proj1 (isort_In _ _)) in E. exact E. }
  assert (TG : forall e f p q, afind e2p e = Some p -> afind e2p f = Some q -> (together (nn * rpl) (lpc rk) c e f <-> p = q)).
  { intros e f p q Ee Ef. split.
    - intros (r & l & H1 & H2). apply (KH e p r l Ee (IDe e p Ee)) in H1. apply (KH f q r l Ef (IDe f q Ef)) in H2.
      destruct H1 as [-> ->]. destruct H2 as [H1 H2]. apply (Hinj e f p q Ee Ef H1 H2).
    - intros ->. exists (p2r rk q), (p2l rk q). split; [apply (KH e q); [exact Ee | apply (IDe e q Ee) | auto] | apply (KH f q); [exact Ef | apply (IDe f q Ef) | auto]]. }
  split; [|split; [|split]].
  - intros e He. destruct (Fe e He) as [p E]. exists (p2r rk p), (p2l rk p). split; [apply (KH e p); auto|].
    intros r' l' H. apply (KH e p r' l' E He), H.
  - intros e f p q He Hf. apply TG; apply Po; assumption.
  - intros e p i n r l He Hi Hn Hh. apply Po in He. apply (KH e p r l He (IDe e p He)) in Hh. destruct Hh as [-> _].
    destruct (R2 p n) as (_ & Q & _); [|exact Q]. apply (Permutation_in _ (Permutation_sym (Hop p2n))). unfold p2n.
    clear - Hi Hn. revert sp i Hi Hn. generalize ps. induction ps0 as [|x ps0 IH]; intros sp i E1 E2; [destruct i; discriminate|].
    destruct sp as [|y sp]; [destruct i; discriminate|].
    destruct i as [|i]; cbn in *; [injection E1 as ->; injection E2 as ->; left; reflexivity | right; apply (IH sp i); assumption].
  - intros r l Hrr Hll. unfold submesh_faithful. rewrite SE, retype_fst.
    assert (INR : forall e y, In (e, y) (map (retype e2p (oe edges)) (base e2p rk (m_elements m) r l)) ->
       exists x, In (e, x) (base e2p rk (m_elements m) r l) /\ (e, y) = retype e2p (oe edges) (e, x)).
    { intros e y H. apply in_map_iff in H. destruct H as ([e' x] & E & H). assert (e' = e) by (unfold retype in E; injection E as -> _; reflexivity). subst e'. exists x. auto. }
    split; [apply base_NoDup, Hm|]. split.
    { (* not empty *)
      destruct (R4 r l Hll) as (p & Hp & E1 & E2). apply OpK in Hp. rewrite <- Se in Hp. apply in_map_iff in Hp. destruct Hp as ([e p'] & <- & Hp). cbn [snd] in *.
      assert (E : afind e2p e = Some p') by (apply In_afind; assumption). pose proof (IDe e p' E) as He. apply in_map_iff in He. destruct He as ([e' x] & <- & Hx). cbn [fst] in *.
      intros Q. apply map_eq_nil in Q. assert (In (e', x) (base e2p rk (m_elements m) r l)) as K; [|rewrite Q in K; exact K].
      apply filter_In. split; [exact Hx|]. apply (at_loc_spec e2p rk r l e' p' E). auto. }
    split.
    + intros e y Hy. destruct (INR e y Hy) as (x & Hx & Ey). exists x. apply filter_In in Hx. destruct Hx as [Hx _].
      split; [exact Hx|]. unfold retype in Ey. cbn [fst snd] in Ey. injection Ey as ->. cbn [e_nodes e_neigh e_type].
      destruct (Hel e x Hx) as (L1 & L2 & _ & Hng). split; [reflexivity|]. split; [reflexivity|].
      split; [rewrite map_length, combine_length, L1, L2; reflexivity|]. intros k n t Hk Ht. split.
      * intros H. rewrite nth_error_map.
        assert (NC : nth_error (combine (e_neigh x) (e_type x)) k = Some (n, t)) by (clear - Hk Ht; revert k Hk Ht; generalize (e_type x); induction (e_neigh x) as [|a l IH]; intros [|b ts] [|k] A B; try discriminate; cbn in *; [injection A as ->; injection B as ->; reflexivity | apply IH; assumption]).
        rewrite NC. cbn [option_map fst snd]. f_equal.
        assert (Q : existsb (fun ed => pair_eqb (edge_of e n) ed && cut e2p ed) (oe edges) = false); [|rewrite Q; reflexivity].
        destruct (existsb _ (oe edges)) eqn:X; [|reflexivity]. exfalso. apply existsb_exists in X. destruct X as (ed & Hed & X).
        apply andb_true_iff in X. destruct X as [X1 X2]. destruct (pair_eqb_spec (edge_of e n) ed) as [<-|]; [|discriminate].
        apply (Permutation_in _ (Hoe edges)) in Hed. destruct H as [->|H].
        -- destruct (mesh_edges_ok P m Hm _ Hed) as (_ & A & B). apply Hdef. unfold edge_of in A, B. cbn [fst snd] in A, B.
           destruct (N.max_spec e DEFAULT_ID) as [[_ M]|[_ M]]; rewrite M in B; [exact B|]. destruct (N.min_spec e DEFAULT_ID) as [[Q M2]|[Q M2]]; rewrite M2 in A; [lia | exact A].
        -- assert (In n ids) as Hn. { destruct H as (r1 & l1 & _ & (_ & _ & K)). rewrite SE, retype_fst in K. apply in_map_iff in K. destruct K as (z & <- & K). apply filter_In in K. apply in_map, K. }
           destruct (Fe e (in_map fst _ _ Hx)) as [p Ep]. destruct (Fe n Hn) as [q Eq]. apply (TG e n p q Ep Eq) in H. subst q.
           unfold cut, part in X2. destruct (N.min_spec e n) as [[_ M]|[_ M]], (N.max_spec e n) as [[_ M2]|[_ M2]]; unfold edge_of in X2; cbn [fst snd] in X2; rewrite M, M2 in X2; rewrite ?Ep, ?Eq, N.eqb_refl in X2; discriminate.
      * intros [Nn Nt]. rewrite nth_error_map.
        assert (NC : nth_error (combine (e_neigh x) (e_type x)) k = Some (n, t)) by (clear - Hk Ht; revert k Hk Ht; generalize (e_type x); induction (e_neigh x) as [|a l IH]; intros [|b ts] [|k] A B; try discriminate; cbn in *; [injection A as ->; injection B as ->; reflexivity | apply IH; assumption]).
        rewrite NC. cbn [option_map fst snd]. f_equal.
        assert (Q : existsb (fun ed => pair_eqb (edge_of e n) ed && cut e2p ed) (oe edges) = true); [|rewrite Q; reflexivity].
        apply existsb_exists. exists (edge_of e n). apply nth_error_In in Hk. split.
        -- apply (Permutation_in _ (Permutation_sym (Hoe edges))). destruct (edge_of e n) as [a b] eqn:Eab. apply mesh_edges_spec. exists e, x, n. rewrite Eab. auto.
        -- apply andb_true_iff. split; [destruct (pair_eqb_spec (edge_of e n) (edge_of e n)); [reflexivity | contradiction]|].
           destruct (Fe e (in_map fst _ _ Hx)) as [p Ep]. destruct (Fe n (Hng n Hk Nn)) as [q Eq]. apply negb_true_iff, N.eqb_neq.
           assert (p <> q) by (intros E; apply Nt, (TG e n p q Ep Eq), E). unfold part, edge_of. cbn [fst snd].
           destruct (N.min_spec e n) as [[M3 M]|[M3 M]], (N.max_spec e n) as [[M4 M2]|[M4 M2]]; rewrite M, M2, ?Ep, ?Eq; try congruence.
           ++ lia.
           ++ assert (e = n) by lia. congruence.
    + intros v q. rewrite SN. unfold nodes_inv in NI0. rewrite (NI0 r l v q). split.
      * intros (H & e & x & Hx & Hv). split; [exact H|]. exists e, (snd (retype e2p (oe edges) (e, x))). split; [|exact Hv].
        apply (in_map (retype e2p (oe edges))) in Hx. exact Hx.
      * intros (H & e & y & Hy & Hv). split; [exact H|]. destruct (INR e y Hy) as (x & Hx & Ey). exists e, x. split; [exact Hx|].
        unfold retype in Ey. injection Ey as ->. exact Hv.
Qed.

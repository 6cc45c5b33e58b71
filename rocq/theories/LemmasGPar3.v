(** Distributed Green-Naghdi correction: the blocks a unit stores. *)
From Coq Require Import Reals ZArith List Bool Arith Lia Lra Permutation.
From Verif Require Import Num ModelSWE Outcome ModelShape ModelBasis ModelJac ModelStep ModelIHDG SpecComm
  SpecSWE SpecStepper SpecStep SpecStage SpecIHDG SpecIHDG2
  LemmasSWE LemmasRK LemmasBasis2 LemmasStep LemmasStage LemmasPar2 LemmasPar4 LemmasIHDG4 LemmasIHDG6 LemmasIPar LemmasIPar2 LemmasIPar3 LemmasIPar4 LemmasIPar5
  LemmasGN1 LemmasGN2 LemmasGN3 LemmasGN4 LemmasGN5
  ModelIPar SpecIPar ModelGN ModelGPar SpecGPar LemmasGPar1 LemmasGPar2.
Import ListNotations.
Open Scope R_scope.

Definition stays (x x' : dcsys) : Prop := d_12 x' = d_12 x /\ d_21 x' = d_21 x /\ d_22 x' = d_22 x /\ d_r x' = d_r x.
Section Put.
  Context (X : Type) (fe fb : X -> nat) (A F G : X -> nat -> nat -> R).
  Lemma put_fold : forall l x, NoDup (map (fun p => (fe p, fb p)) l) ->
    let x' := fold_left (fun x p => put_local (fe p) (fb p) (A p) (F p) (G p) x) l x in
    (forall e r c, d_11 x' e r c = d_11 x e r c + lsum l (fun p => on e (fe p) (A p r c))) /\ stays x x' /\
    (forall p, In p l -> d_1h x' (fe p) (fb p) = F p /\ d_2h x' (fe p) (fb p) = G p) /\
    (forall e b, ~ In (e, b) (map (fun p => (fe p, fb p)) l) -> d_1h x' e b = d_1h x e b /\ d_2h x' e b = d_2h x e b).
  Proof.
    induction l as [|p l IH]; intros x N; cbn [fold_left].
    - split; [intros; unfold lsum; cbn; ring|]. split; [unfold stays; auto|]. split; [intros ? []|auto].
    - cbn [map] in N. inversion N as [|? ? Q B]; subst. destruct (IH (put_local (fe p) (fb p) (A p) (F p) (G p) x) B) as (I1 & I2 & I3 & I4).
      split; [|split; [exact I2|split]].
      + intros e r c. rewrite I1, lsum_cons. cbn [put_local d_11]. unfold upd, on. destruct (Nat.eqb_spec e (fe p)) as [->|]; [unfold plus2; ring|ring].
      + intros y [<-|Hy]; [|apply I3; exact Hy]. destruct (I4 (fe p) (fb p) Q) as [-> ->]. cbn [put_local d_1h d_2h]. rewrite !LemmasGN5.upd2_same. auto.
      + intros e b Hn. cbn [map In] in Hn. destruct (I4 e b) as [-> ->]; [tauto|]. cbn [put_local d_1h d_2h]. rewrite !LemmasGN5.upd2_other by (intros E; apply Hn; left; exact E). auto.
  Qed.
End Put.
Lemma fold_if : forall (X Z : Type) (p : X -> bool) (f : Z -> X -> Z) l z, fold_left (fun z x => if p x then f z x else z) l z = fold_left f (filter p l) z.
Proof. intros X Z p f l. induction l as [|x l IH]; intros z; [reflexivity|]. cbn [fold_left filter]. rewrite IH. destruct (p x); reflexivity. Qed.

Section UnitBlocks.
  Context (m : mesh) (un : iunit) (box : mailbox) (g : R) (q : nat -> coeffs) (wet : nat -> bool).
  Context (Nf : NoDup (faces m un)) (Ne : NoDup (un_ints un ++ un_bnds un)) (Nd : NoDup (map de_edge (un_dist un))).
  Context (Rg : forall k, In k (un_ints un ++ un_bnds un) -> (k < length (m_intfaces m) + length (m_bounds m))%nat).
  Context (Rd : forall d, In d (un_dist un) -> ~ In (de_edge d) (un_ints un ++ un_bnds un)).

  Definition upairs : list (gedge * gside) := flat_map (fun ed => map (pair ed) (wet_sides wet ed)) (unit_edges m un).
  Definition wdist : list dedge := filter (fun d => wet (de_elt d)) (un_dist un).
  Lemma unit_sides : map (fun s => (s_e s, s_b s)) (flat_map ge_sides (unit_edges m un)) = flat_map (sides m) (un_ints un ++ un_bnds un).
  Proof.
    unfold unit_edges. revert Rg. generalize (un_ints un ++ un_bnds un) as l. induction l as [|k l IH]; intros R; [reflexivity|].
    cbn [map flat_map]. rewrite map_app, IH by (intros x Hx; apply R; right; exact Hx). f_equal. apply side_pairs. apply R. left. reflexivity.
  Qed.
  Lemma upairs_sub : forall p, In p (map (fun p : gedge * gside => (s_e (snd p), s_b (snd p))) upairs) -> In p (flat_map (sides m) (un_ints un ++ un_bnds un)).
  Proof.
    intros p H. apply in_map_iff in H as ([ed s] & <- & H). apply in_flat_map in H as (ed' & He & H). apply in_map_iff in H as (s' & E & Hs). injection E as -> ->.
    rewrite <- unit_sides. cbn [snd]. apply (in_map (fun s => (s_e s, s_b s))). apply in_flat_map. exists ed. split; [exact He|]. unfold wet_sides in Hs. apply filter_In in Hs. apply Hs.
  Qed.
  Lemma upairs_nodup : NoDup (map (fun p : gedge * gside => (s_e (snd p), s_b (snd p))) upairs).
  Proof.
    unfold upairs. replace (map (fun p : gedge * gside => (s_e (snd p), s_b (snd p))) (flat_map (fun ed => map (pair ed) (wet_sides wet ed)) (unit_edges m un)))
      with (map (fun s => (s_e s, s_b s)) (filter (fun s => wet (s_e s)) (flat_map ge_sides (unit_edges m un)))).
    - apply nodup_sub. rewrite unit_sides. apply nodup_app in Nf. apply Nf.
    - induction (unit_edges m un) as [|ed l IH]; [reflexivity|]. cbn [flat_map]. rewrite filter_app, !map_app, IH. f_equal. rewrite map_map. cbn. reflexivity.
  Qed.
  Lemma wdist_nodup : NoDup (map half_face wdist).
  Proof. apply nodup_sub. apply nodup_app in Nf. apply Nf. Qed.
  Lemma apart : forall d, In d (un_dist un) -> ~ In (half_face d) (flat_map (sides m) (un_ints un ++ un_bnds un)).
  Proof. intros d H I. pose proof Nf as N. apply nodup_app in N as (_ & _ & N). apply (N _ I). apply in_map. exact H. Qed.
  Lemma apart2 : forall e b, In (e, b) (flat_map (sides m) (un_ints un ++ un_bnds un)) -> ~ In (e, b) (map half_face (un_dist un)).
  Proof. intros e b H I. pose proof Nf as N. apply nodup_app in N as (_ & _ & N). exact (N _ H I). Qed.

  Definition dk (d : dedge) := d_kernels m box d.
  Definition dh1 (d : dedge) : nat -> nat -> R := flat11 (fun i a j c => d_pl m d j i (fun _ => snd (fst (dk d)) (d_side m d) a c)).
  Definition dh2 (d : dedge) : nat -> nat -> R := flat12 (fun i a j => d_pl m d j i (fun _ => snd (dk d) (d_side m d) a)).
  Definition dhh (d : dedge) : nat -> nat -> R := flat11 (fun i a j c => d_ll m d i j (fun _ => fst (fst (dk d)) a c)).
  Lemma dglobal_fold : forall l x, NoDup (map half_face l) -> NoDup (map de_edge l) -> (forall d, In d l -> wet (de_elt d) = true) ->
    let x' := fold_left (d_global m box wet) l x in keeps x x' /\
    (forall d, In d l -> d_h1 x' (de_elt d) (de_face d) = dh1 d /\ d_h2 x' (de_elt d) (de_face d) = dh2 d /\ d_hh x' (de_edge d) = dhh d) /\
    (forall k, ~ In k (map de_edge l) -> d_hh x' k = d_hh x k) /\
    (forall e b, ~ In (e, b) (map half_face l) -> d_h1 x' e b = d_h1 x e b /\ d_h2 x' e b = d_h2 x e b).
  Proof.
    induction l as [|d l IH]; intros x N1 N2 W; cbn [fold_left].
    - split; [unfold keeps; tauto|]. split; [intros ? []|]. auto.
    - cbn [map] in N1, N2. inversion N1 as [|? ? A1 B1]; subst. inversion N2 as [|? ? A2 B2]; subst.
      destruct (IH (d_global m box wet x d) B1 B2 (fun y Hy => W y (or_intror Hy))) as (I1 & I2 & I3 & I4).
      assert (E : d_global m box wet x d = DC (d_11 x) (d_12 x) (d_21 x) (d_22 x) (d_r x) (d_1h x) (d_2h x)
        (ModelGN.upd2 (d_h1 x) (de_elt d) (de_face d) (dh1 d)) (ModelGN.upd2 (d_h2 x) (de_elt d) (de_face d) (dh2 d)) (upd (d_hh x) (de_edge d) (dhh d))).
      { unfold d_global. rewrite (W d (or_introl eq_refl)). unfold dh1, dh2, dhh, dk. destruct (d_kernels m box d) as [[Kh K1] K2]. reflexivity. }
      rewrite E in *. split; [exact I1|]. split; [|split].
      + intros y [<-|Hy]; [|apply I2; exact Hy]. destruct (I4 (de_elt d) (de_face d) A1) as [-> ->]. rewrite (I3 _ A2). cbn [d_h1 d_h2 d_hh]. rewrite !LemmasGN5.upd2_same, upd_same. auto.
      + intros k Hk. cbn [map In] in Hk. rewrite I3 by tauto. cbn [d_hh]. apply upd_other. intros Q. apply Hk. left. symmetry. exact Q.
      + intros e b Hn. cbn [map In] in Hn. destruct (I4 e b) as [-> ->]; [tauto|]. cbn [d_h1 d_h2]. rewrite !LemmasGN5.upd2_other by (intros Q; apply Hn; left; exact Q). auto.
  Qed.
  Lemma dglobal_wet : forall l x, fold_left (d_global m box wet) l x = fold_left (d_global m box wet) (filter (fun d => wet (de_elt d)) l) x.
  Proof.
    induction l as [|d l IH]; intros x; [reflexivity|]. cbn [fold_left filter]. destruct (wet (de_elt d)) eqn:W; [cbn [fold_left]; apply IH|].
    rewrite <- IH. f_equal. unfold d_global. rewrite W. reflexivity.
  Qed.

  Record unit_ok (x : dcsys) : Prop := UnitOk {
    uo_11 : forall e r c, d_11 x e r c = u_vol_11 m un box q e r c +
      lsum (un_ints un ++ un_bnds un) (fun k => lsum (ge_sides (the_gedge m k)) (fun s => on e (s_e s) (if wet (s_e s) then loc_11 m (the_gedge m k) s r c else 0))) +
      lsum (un_dist un) (fun d => on e (de_elt d) (if wet (de_elt d) then loc_11 m (d_edge m d) (d_side m d) r c else 0));
    uo_12 : d_12 x = u_vol_12 m un box q; uo_21 : d_21 x = vol_21 m q; uo_22 : d_22 x = vol_22 m q; uo_r : d_r x = u_vol_r m un box g q;
    uo_1h : forall k s, In k (un_ints un ++ un_bnds un) -> In s (wet_sides wet (the_gedge m k)) ->
      d_1h x (s_e s) (s_b s) = u_loc_1h m un box q (the_gedge m k) s /\ d_2h x (s_e s) (s_b s) = loc_2h m q (the_gedge m k) s;
    uo_hh : forall k, In k (un_ints un ++ un_bnds un) -> wet_edge wet (the_gedge m k) = true -> d_hh x k = hh_block m wet (the_gedge m k) /\
      forall s, In s (wet_sides wet (the_gedge m k)) -> d_h1 x (s_e s) (s_b s) = h1_block m wet (the_gedge m k) s /\ d_h2 x (s_e s) (s_b s) = h2_block m wet (the_gedge m k) s;
    uo_d : forall d, In d (un_dist un) -> wet (de_elt d) = true ->
      d_1h x (de_elt d) (de_face d) = d_loc_1h m un box q d /\ d_2h x (de_elt d) (de_face d) = d_loc_2h m box q d /\
      d_h1 x (de_elt d) (de_face d) = dh1 d /\ d_h2 x (de_elt d) (de_face d) = dh2 d /\ d_hh x (de_edge d) = dhh d }.
  Theorem unit_blocks_ok : (forall k, In k (un_ints un ++ un_bnds un) -> kernels_ok wet (k, the_gedge m k)) -> exists x, unit_blocks m un box g q wet = Ok x /\ unit_ok x.
  Proof.
    intros HK. unfold unit_blocks. set (x0 := DC _ _ _ _ _ _ _ _ _ _).
    unfold u_local_edge. rewrite (fold_nested _ _ _ (wet_sides wet) (fun ed x s => put_local (s_e s) (s_b s) (loc_11 m ed s) (u_loc_1h m un box q ed s) (loc_2h m q ed s) x) (unit_edges m un) x0). fold upairs.
    destruct (put_fold _ (fun p : gedge * gside => s_e (snd p)) (fun p => s_b (snd p)) (fun p => loc_11 m (fst p) (snd p)) (fun p => u_loc_1h m un box q (fst p) (snd p)) (fun p => loc_2h m q (fst p) (snd p)) upairs x0 upairs_nodup) as (L1 & L2 & L3 & L4).
    set (x1 := fold_left _ upairs x0) in *.
    unfold d_local. rewrite (fold_if _ _ (fun d => wet (de_elt d)) (fun x d => put_local (de_elt d) (de_face d) (loc_11 m (d_edge m d) (d_side m d)) (d_loc_1h m un box q d) (d_loc_2h m box q d) x)). fold wdist.
    destruct (put_fold _ de_elt de_face (fun d => loc_11 m (d_edge m d) (d_side m d)) (d_loc_1h m un box q) (d_loc_2h m box q) wdist x1 wdist_nodup) as (M1 & M2 & M3 & M4).
    set (x2 := fold_left _ wdist x1) in *.
    set (l := map (fun k => (k, the_gedge m k)) (un_ints un ++ un_bnds un)).
    assert (F1 : map fst l = un_ints un ++ un_bnds un) by (unfold l; rewrite map_map; cbn [fst]; apply map_id).
    assert (F2 : flat_map (fun x : nat * gedge => map sid (ge_sides (snd x))) l = flat_map (sides m) (un_ints un ++ un_bnds un)).
    { unfold l. revert Rg. generalize (un_ints un ++ un_bnds un) as ks. induction ks as [|k ks IH]; intros R; [reflexivity|]. cbn [map flat_map snd]. rewrite IH by (intros y Hy; apply R; right; exact Hy).
      f_equal. apply side_pairs. apply R. left. reflexivity. }
    destruct (global_fold m q wet l x2) as (x3 & S & (K1 & K2 & K3 & K4 & K5 & K6 & K7) & G1 & G2 & G3).
    { intros x Hx. apply in_map_iff in Hx as (k & <- & Hk). apply HK. exact Hk. }
    { rewrite F1. exact Ne. }
    { rewrite F2. apply nodup_app in Nf. apply Nf. }
    rewrite F1 in G2. rewrite F2 in G3. rewrite S. cbn [bind]. rewrite dglobal_wet. fold wdist.
    destruct (dglobal_fold wdist x3 wdist_nodup) as ((J1 & J2 & J3 & J4 & J5 & J6 & J7) & D1 & D2 & D3).
    { apply nodup_sub. exact Nd. }
    { intros d Hd. apply filter_In in Hd. apply Hd. }
    set (x4 := fold_left _ wdist x3) in *. destruct L2 as (L21 & L22 & L23 & L24). destruct M2 as (M21 & M22 & M23 & M24).
    assert (SD : forall k s, In k (un_ints un ++ un_bnds un) -> In s (wet_sides wet (the_gedge m k)) -> In (s_e s, s_b s) (flat_map (sides m) (un_ints un ++ un_bnds un))).
    { intros k s Hk Hs. apply in_flat_map. exists k. split; [exact Hk|]. rewrite <- (side_pairs m k (Rg k Hk)). apply (in_map (fun s => (s_e s, s_b s))). unfold wet_sides in Hs. apply filter_In in Hs. apply Hs. }
    assert (WS : forall e b, In (e, b) (map half_face wdist) -> In (e, b) (map half_face (un_dist un))).
    { intros e b H. apply in_map_iff in H as (d & E & H). apply filter_In in H. apply in_map_iff. exists d. tauto. }
    assert (WE : forall k, In k (un_ints un ++ un_bnds un) -> ~ In k (map de_edge wdist)).
    { intros k Hk H. apply in_map_iff in H as (d & E & H). apply filter_In in H. apply (Rd d); [apply H|]. rewrite E. exact Hk. }
    exists x4. split; [reflexivity|]. constructor.
    - intros e r c. rewrite J1, K1, M1, L1. unfold x0. cbn [d_11]. f_equal; [f_equal|].
      + unfold upairs, unit_edges. rewrite lsum_flat_map, lsum_map. apply lsum_ext. intros k Hk. rewrite lsum_map. unfold wet_sides. rewrite lsum_filter. apply lsum_ext. intros s _. cbn [fst snd].
        unfold on. destruct (wet (s_e s)), (e =? s_e s)%nat; reflexivity.
      + unfold wdist. rewrite lsum_filter. apply lsum_ext. intros d _. unfold on. destruct (wet (de_elt d)), (e =? de_elt d)%nat; reflexivity.
    - rewrite J2, K2, M21, L21. reflexivity.
    - rewrite J3, K3, M22, L22. reflexivity.
    - rewrite J4, K4, M23, L23. reflexivity.
    - rewrite J5, K5, M24, L24. reflexivity.
    - intros k s Hk Hs. rewrite J6, J7, K6, K7. destruct (M4 (s_e s) (s_b s)) as [-> ->]; [intros Q; apply (apart2 _ _ (SD k s Hk Hs)); apply WS; exact Q|].
      apply (L3 (the_gedge m k, s)). apply in_flat_map. exists (the_gedge m k). split; [apply in_map; exact Hk|]. apply in_map. exact Hs.
    - intros k Hk Wk. destruct (G1 (k, the_gedge m k) (in_map _ _ _ Hk) Wk) as (Q1 & Q2). cbn [fst snd] in Q1, Q2. rewrite D2 by (apply WE; exact Hk). split; [exact Q1|].
      intros s Hs. destruct (D3 (s_e s) (s_b s)) as [-> ->]; [intros Q; apply (apart2 _ _ (SD k s Hk Hs)); apply WS; exact Q|]. apply Q2. exact Hs.
    - intros d Hd Wd. assert (I : In d wdist) by (apply filter_In; split; assumption). rewrite J6, J7, K6, K7. destruct (M3 d I) as (-> & ->). destruct (D1 d I) as (-> & -> & ->). auto.
  Qed.
End UnitBlocks.

(** Proofs: the blocks of a correction stage. *)
From Coq Require Import Reals List Arith Bool Lia Lra.
From Verif Require Import Num Outcome ModelSWE LemmasSWE ModelShape ModelBasis ModelJac ModelStep ModelIHDG ModelCond SpecShape SpecBasis SpecStepper SpecStep SpecStage
  LemmasRK LemmasStep LemmasStage3 LemmasCond ModelGN SpecGN LemmasGN1 LemmasGN2 LemmasGN3 LemmasGN4.
Import ListNotations.
Open Scope R_scope.

Lemma upd2_same : forall (A : Type) F e b (x : A), upd2 F e b x e b = x.
Proof. intros. unfold upd2. rewrite !upd_same. reflexivity. Qed.
Lemma upd2_other : forall (A : Type) F e b (x : A) e' b', (e, b) <> (e', b') -> upd2 F e b x e' b' = F e' b'.
Proof.
  intros A F e b x e' b' H. unfold upd2, upd. destruct (Nat.eqb_spec e' e) as [->|]; [|reflexivity].
  destruct (Nat.eqb_spec b' b) as [->|]; [|reflexivity]. exfalso. apply H. reflexivity.
Qed.
Lemma fold_nested : forall (X Y Z : Type) (g : X -> list Y) (f : X -> Z -> Y -> Z) l z,
  fold_left (fun z x => fold_left (f x) (g x) z) l z = fold_left (fun z p => f (fst p) z (snd p)) (flat_map (fun x => map (pair x) (g x)) l) z.
Proof.
  induction l as [|x l IH]; intros z; [reflexivity|]. cbn [fold_left flat_map]. rewrite fold_left_app, IH. f_equal.
  generalize (g x) as q. intros q. revert z. induction q as [|y q IQ]; intros z; [reflexivity|]. cbn. apply IQ.
Qed.
Definition sid (s : gside) : nat * nat := (s_e s, s_b s).
Lemma nodup_sub : forall (X Y : Type) (f : X -> Y) p l, NoDup (map f l) -> NoDup (map f (filter p l)).
Proof.
  induction l as [|x l IH]; intros H; [constructor|]. cbn [map] in H. inversion H as [|? ? A B]; subst. cbn [filter]. destruct (p x); [|auto].
  cbn [map]. constructor; [|auto]. intros Q. apply A. apply in_map_iff in Q. destruct Q as (y & E & Q). apply filter_In in Q. apply in_map_iff. exists y. tauto.
Qed.

Section Blocks.
  Context (m : mesh) (g : R) (q : nat -> coeffs) (wet : nat -> bool).
  Context (HM : faces_once m).

  Definition pairs : list (gedge * gside) := flat_map (fun ed => map (pair ed) (wet_sides wet ed)) (gedges m).
  Lemma pairs_nodup : NoDup (map (fun p => sid (snd p)) pairs).
  Proof.
    unfold pairs. replace (map (fun p => sid (snd p)) (flat_map (fun ed => map (pair ed) (wet_sides wet ed)) (gedges m)))
      with (map sid (filter (fun s => wet (s_e s)) (flat_map ge_sides (gedges m)))).
    - apply nodup_sub. unfold sid; rewrite (gedges_sides m); apply HM.
    - induction (gedges m) as [|ed l IH]; [reflexivity|]. cbn [flat_map]. rewrite filter_app, !map_app, IH. f_equal. rewrite map_map. cbn. reflexivity.
  Qed.
  Lemma in_pairs : forall ed s, In ed (gedges m) -> In s (wet_sides wet ed) -> In (ed, s) pairs.
  Proof. intros ed s H1 H2. apply in_flat_map. exists ed. split; [exact H1|]. apply in_map. exact H2. Qed.

  Lemma local_fold : forall l d, NoDup (map (fun p : gedge * gside => sid (snd p)) l) ->
    let d' := fold_left (fun d p => local_side m q (fst p) d (snd p)) l d in
    (forall e r c, d_11 d' e r c = d_11 d e r c + lsum l (fun p => if Nat.eqb (s_e (snd p)) e then loc_11 m (fst p) (snd p) r c else 0)) /\
    d_12 d' = d_12 d /\ d_21 d' = d_21 d /\ d_22 d' = d_22 d /\ d_r d' = d_r d /\
    (forall ed s, In (ed, s) l -> d_1h d' (s_e s) (s_b s) = loc_1h m q ed s /\ d_2h d' (s_e s) (s_b s) = loc_2h m q ed s) /\
    (forall e b, ~ In (e, b) (map (fun p : gedge * gside => sid (snd p)) l) -> d_1h d' e b = d_1h d e b /\ d_2h d' e b = d_2h d e b).
  Proof.
    induction l as [|[ed s] l IH]; intros d N; cbn [fold_left].
    - split; [intros; unfold lsum; cbn; ring|]. split; [reflexivity|]. split; [reflexivity|]. split; [reflexivity|]. split; [reflexivity|]. split; [intros ? ? []|auto].
    - cbn [map snd] in N. inversion N as [|? ? A B]; subst. destruct (IH (local_side m q ed d s) B) as (I1 & I2 & I3 & I4 & I5 & I6 & I7). cbn [fst snd].
      split; [|split; [exact I2|split; [exact I3|split; [exact I4|split; [exact I5|split]]]]].
      + intros e r c. rewrite I1, lsum_cons. cbn [local_side d_11 fst snd]. unfold upd. rewrite (Nat.eqb_sym e). destruct (Nat.eqb_spec (s_e s) e) as [<-|]; [unfold plus2; ring|ring].
      + intros ed' s' [E|Hin]; [|apply I6; exact Hin]. injection E as <- <-. destruct (I7 (s_e s) (s_b s) A) as [-> ->]. cbn [local_side d_1h d_2h]. rewrite !upd2_same. auto.
      + intros e b Hn. cbn [map snd In] in Hn. destruct (I7 e b) as [-> ->]; [tauto|]. cbn [local_side d_1h d_2h]. rewrite !upd2_other by (intros E; apply Hn; left; exact E). auto.
  Qed.

  Definition kernels_ok (x : nat * gedge) : Prop := wet_edge wet (snd x) = true -> ge_kind (snd x) <> KLevee.
  Definition kernels_of (ed : gedge) : (nat -> nat -> R) * (gside -> nat -> nat -> R) * (gside -> nat -> R) :=
    match ge_kind ed with
    | KInternal => if forallb (fun s => wet (s_e s)) (ge_sides ed) then flow_kernels 2 else wall_kernels
    | KOpen => flow_kernels 1
    | _ => wall_kernels
    end.
  Lemma kernels_model : forall ed, ge_kind ed <> KLevee -> edge_kernels wet ed = Ok (kernels_of ed).
  Proof. intros ed H. unfold edge_kernels, kernels_of. destruct (ge_kind ed); try reflexivity; [destruct (forallb _ _); reflexivity|exfalso; apply H; reflexivity]. Qed.
  Definition h1_block (ed : gedge) (s : gside) : nat -> nat -> R := flat11 (fun i a j c => s_pl m ed s j i (fun _ => snd (fst (kernels_of ed)) s a c)).
  Definition h2_block (ed : gedge) (s : gside) : nat -> nat -> R := flat12 (fun i a j => s_pl m ed s j i (fun _ => snd (kernels_of ed) s a)).
  Definition hh_block (ed : gedge) : nat -> nat -> R := flat11 (fun i a j c => s_ll m ed i j (fun _ => fst (fst (kernels_of ed)) a c)).
  Definition keeps (d d' : dcsys) : Prop := d_11 d' = d_11 d /\ d_12 d' = d_12 d /\ d_21 d' = d_21 d /\ d_22 d' = d_22 d /\ d_r d' = d_r d /\ d_1h d' = d_1h d /\ d_2h d' = d_2h d.
  Lemma global_sides : forall ed l d, NoDup (map sid l) -> let '(_, K1, K2) := kernels_of ed in
    let d' := fold_left (global_side m ed K1 K2) l d in keeps d d' /\ d_hh d' = d_hh d /\
    (forall s, In s l -> d_h1 d' (s_e s) (s_b s) = h1_block ed s /\ d_h2 d' (s_e s) (s_b s) = h2_block ed s) /\
    (forall e b, ~ In (e, b) (map sid l) -> d_h1 d' e b = d_h1 d e b /\ d_h2 d' e b = d_h2 d e b).
  Proof.
    intros ed l. destruct (kernels_of ed) as [[Kh K1] K2] eqn:EK. induction l as [|s l IH]; intros d N; cbn [fold_left].
    - split; [unfold keeps; tauto|]. split; [reflexivity|]. split; [intros ? []|auto].
    - cbn [map] in N. inversion N as [|? ? A B]; subst. destruct (IH (global_side m ed K1 K2 d s) B) as (I1 & I2 & I3 & I4).
      split; [exact I1|]. split; [exact I2|]. split.
      + intros s' [<-|Hin]; [|apply I3; exact Hin]. destruct (I4 (s_e s) (s_b s) A) as [-> ->]. cbn [global_side d_h1 d_h2]. rewrite !upd2_same. unfold h1_block, h2_block. rewrite EK. auto.
      + intros e b Hn. cbn [map In] in Hn. destruct (I4 e b) as [-> ->]; [tauto|]. cbn [global_side d_h1 d_h2]. rewrite !upd2_other by (intros E; apply Hn; left; exact E). auto.
  Qed.
  Lemma global_fold : forall l d, (forall x, In x l -> kernels_ok x) -> NoDup (map fst l) -> NoDup (flat_map (fun x : nat * gedge => map sid (ge_sides (snd x))) l) ->
    exists d', ofold (global_edge m wet) l d = Ok d' /\ keeps d d' /\
    (forall x, In x l -> wet_edge wet (snd x) = true -> d_hh d' (fst x) = hh_block (snd x) /\
       forall s, In s (wet_sides wet (snd x)) -> d_h1 d' (s_e s) (s_b s) = h1_block (snd x) s /\ d_h2 d' (s_e s) (s_b s) = h2_block (snd x) s) /\
    (forall k, ~ In k (map fst l) -> d_hh d' k = d_hh d k) /\
    (forall e b, ~ In (e, b) (flat_map (fun x => map sid (ge_sides (snd x))) l) -> d_h1 d' e b = d_h1 d e b /\ d_h2 d' e b = d_h2 d e b).
  Proof.
    induction l as [|x l IH]; intros d HK N1 N2; cbn [ofold].
    - exists d. split; [reflexivity|]. split; [unfold keeps; tauto|]. split; [intros ? []|]. auto.
    - cbn [map] in N1. inversion N1 as [|? ? A1 A2]; subst. cbn [flat_map] in N2.
      assert (B : NoDup (map sid (ge_sides (snd x))) /\ NoDup (flat_map (fun x => map sid (ge_sides (snd x))) l) /\ forall p, In p (map sid (ge_sides (snd x))) -> ~ In p (flat_map (fun x => map sid (ge_sides (snd x))) l)).
      { clear - N2. revert N2. generalize (flat_map (fun x => map sid (ge_sides (snd x))) l) as L. induction (map sid (ge_sides (snd x))) as [|p r IHr]; intros L N2; cbn [app] in N2.
        - split; [constructor|]. split; [exact N2|intros ? []].
        - inversion N2 as [|? ? A B]; subst. destruct (IHr L B) as (I1 & I2 & I3). split; [constructor; [|exact I1]; intros Q; apply A; apply in_or_app; left; exact Q|]. split; [exact I2|].
          intros p' [<-|Hp]; [|apply I3; exact Hp]. intros Q. apply A. apply in_or_app. right. exact Q. }
      destruct B as (B1 & B2 & B3). destruct x as [k ed]. cbn [fst snd] in *.
      assert (S1 : exists d1, global_edge m wet d (k, ed) = Ok d1 /\ keeps d d1 /\
        (wet_edge wet ed = true -> d_hh d1 k = hh_block ed /\ forall s, In s (wet_sides wet ed) -> d_h1 d1 (s_e s) (s_b s) = h1_block ed s /\ d_h2 d1 (s_e s) (s_b s) = h2_block ed s) /\
        (forall k', k' <> k -> d_hh d1 k' = d_hh d k') /\ (forall e b, ~ In (e, b) (map sid (ge_sides ed)) -> d_h1 d1 e b = d_h1 d e b /\ d_h2 d1 e b = d_h2 d e b)).
      { unfold global_edge. cbn [snd fst]. destruct (wet_edge wet ed) eqn:We.
        - rewrite (kernels_model ed) by (apply (HK (k, ed)); [left; reflexivity|exact We]). cbn [bind].
          assert (NW : NoDup (map sid (wet_sides wet ed))) by (apply nodup_sub; exact B1).
          pose proof (global_sides ed (wet_sides wet ed)) as GS. destruct (kernels_of ed) as [[Kh K1] K2] eqn:EK.
          set (d1 := DC _ _ _ _ _ _ _ _ _ _). destruct (GS d1 NW) as (G1 & G2 & G3 & G4). eexists. split; [reflexivity|]. split; [exact G1|]. split; [|split].
          + intros _. split; [rewrite G2; unfold d1; cbn [d_hh]; rewrite upd_same; unfold hh_block; rewrite EK; reflexivity|exact G3].
          + intros k' Hk. rewrite G2. unfold d1. cbn [d_hh]. apply upd_other. exact Hk.
          + intros e b Hn. apply G4. intros Q. apply Hn. apply in_map_iff in Q. destruct Q as (s & E & Q). apply in_wet_sides in Q. apply in_map_iff. exists s. tauto.
        - exists d. split; [reflexivity|]. split; [unfold keeps; tauto|]. split; [discriminate|]. auto. }
      destruct S1 as (d1 & S1 & G1 & G2 & G3 & G4). rewrite S1. cbn [bind].
      destruct (IH d1) as (d' & S2 & I1 & I2 & I3 & I4); [intros y Hy; apply HK; right; exact Hy|exact A2|exact B2|].
      exists d'. split; [exact S2|]. split; [|split; [|split]].
      + unfold keeps in *. destruct I1 as (-> & -> & -> & -> & -> & -> & ->). exact G1.
      + intros y [<-|Hy] Wy; [|apply I2; assumption]. cbn [fst snd] in *. destruct (G2 Wy) as [Q1 Q2]. split; [rewrite I3 by exact A1; exact Q1|].
        intros s Hs. destruct (I4 (s_e s) (s_b s)) as [-> ->]; [|apply Q2; exact Hs]. apply B3. apply in_wet_sides in Hs. apply (in_map sid). apply Hs.
      + intros k' Hk. cbn [map fst In] in Hk. rewrite I3, G3 by (intros E; apply Hk; auto). reflexivity.
      + intros e b Hn. cbn [flat_map snd] in Hn. destruct (I4 e b) as [-> ->]; [intros Q; apply Hn; apply in_or_app; right; exact Q|]. apply G4. intros Q. apply Hn. apply in_or_app. left. exact Q.
  Qed.

  Record blocks_ok (d : dcsys) : Prop := BlocksOk {
    bo_11 : forall e r c, d_11 d e r c = vol_11 m q e r c + lsum pairs (fun p => if Nat.eqb (s_e (snd p)) e then loc_11 m (fst p) (snd p) r c else 0);
    bo_12 : d_12 d = vol_12 m q; bo_21 : d_21 d = vol_21 m q; bo_22 : d_22 d = vol_22 m q; bo_r : d_r d = vol_r m g q;
    bo_1h : forall ed s, In ed (gedges m) -> In s (wet_sides wet ed) -> d_1h d (s_e s) (s_b s) = loc_1h m q ed s /\ d_2h d (s_e s) (s_b s) = loc_2h m q ed s;
    bo_hh : forall x, In x (numbered_edges m) -> wet_edge wet (snd x) = true -> d_hh d (fst x) = hh_block (snd x) /\
       forall s, In s (wet_sides wet (snd x)) -> d_h1 d (s_e s) (s_b s) = h1_block (snd x) s /\ d_h2 d (s_e s) (s_b s) = h2_block (snd x) s }.
  Theorem dc_blocks_ok : (forall x, In x (numbered_edges m) -> kernels_ok x) -> exists d, dc_blocks m g q wet = Ok d /\ blocks_ok d.
  Proof.
    intros HK. unfold dc_blocks. set (d0 := DC _ _ _ _ _ _ _ _ _ _). destruct (numbered_nodup m HM) as [N1 N2].
    unfold local_edge. rewrite (fold_nested _ _ _ (wet_sides wet) (fun ed => local_side m q ed) (gedges m) d0). fold pairs.
    destruct (local_fold pairs d0 pairs_nodup) as (L1 & L2 & L3 & L4 & L5 & L6 & _).
    set (d1 := fold_left _ pairs d0) in *. destruct (global_fold (numbered_edges m) d1 HK N1 N2) as (d' & S & (K1 & K2 & K3 & K4 & K5 & K6 & K7) & G & _ & _).
    exists d'. split; [exact S|]. split.
    - intros. rewrite K1, L1. reflexivity.
    - rewrite K2, L2. reflexivity.
    - rewrite K3, L3. reflexivity.
    - rewrite K4, L4. reflexivity.
    - rewrite K5, L5. reflexivity.
    - intros ed s H1 H2. rewrite K6, K7. apply L6. apply in_pairs; assumption.
    - exact G.
  Qed.
  (** A levee next to water leaves its kernels unset. *)
  Lemma dc_blocks_levee : forall x, In x (numbered_edges m) -> wet_edge wet (snd x) = true -> ge_kind (snd x) = KLevee -> dc_blocks m g q wet = UB.
  Proof.
    intros x Hx Wx Kx. unfold dc_blocks. set (d := fold_left _ _ _). clearbody d. revert d Hx. generalize (numbered_edges m) as l.
    induction l as [|y l IH]; intros d Hx; [destruct Hx|]. cbn [ofold]. destruct Hx as [->|Hx].
    - unfold global_edge. rewrite Wx. unfold edge_kernels. rewrite Kx. reflexivity.
    - destruct (global_edge m wet d y) as [d1| |] eqn:E; cbn [bind]; [apply IH; exact Hx| |reflexivity].
      exfalso. revert E. unfold global_edge. destruct (wet_edge wet (snd y)); [|discriminate]. unfold edge_kernels. destruct (ge_kind (snd y)); cbn [bind]; try discriminate.
      + destruct (forallb _ _); discriminate.
  Qed.
End Blocks.

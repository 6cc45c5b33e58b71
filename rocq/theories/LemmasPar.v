(** Exchange between submeshes. *)
From Coq Require Import Reals QArith NArith List Bool Arith Lia Lra Permutation FunctionalExtensionality.
From Verif Require Import Num ModelSWE Outcome ModelShape ModelBasis ModelJac ModelStepper ModelWetDry ModelSlope ModelStep ModelComm ModelPar
  SpecSWE SpecShape SpecStepper SpecWetDry SpecSlope SpecStep SpecStage SpecComm SpecPar
  LemmasSWE LemmasRK LemmasPart LemmasComm LemmasStep LemmasStage LemmasStage2 LemmasStage3 LemmasStage4 LemmasStage5.
Import ListNotations.
Open Scope R_scope.

Lemma for_all_ok : forall (A : Type) n (f : nat -> outcome A) old g, (forall i, (i < n)%nat -> f i = Ok (g i)) ->
  exists h, for_all n f old = Ok h /\ forall i, (i < n)%nat -> h i = g i.
Proof.
  intros A n f old g H. unfold for_all. induction n as [|n IH].
  - exists old. split; [reflexivity|]. intros i Hi. lia.
  - destruct IH as (h & E & Hh); [intros i Hi; apply H; lia|]. rewrite seq_S, ofold_app, E. cbn [plus bind ofold]. rewrite (H n) by lia. cbn [bind].
    eexists. split; [reflexivity|]. intros i Hi. destruct (Nat.eq_dec i n) as [->|D]; [apply upd_same|]. rewrite upd_other by exact D. apply Hh. lia.
Qed.
Lemma for_all_old : forall (A : Type) n (f : nat -> outcome A) old h, for_all n f old = Ok h -> forall i, (n <= i)%nat -> h i = old i.
Proof.
  intros A n f old. unfold for_all. induction n as [|n IH]; intros h H i Hi.
  - injection H as <-. reflexivity.
  - rewrite seq_S, ofold_app in H. destruct (ofold _ (seq 0 n) old) as [h0| |] eqn:E0; cbn [bind plus ofold] in H; try discriminate.
    destruct (f n) as [x| |]; cbn [bind] in H; try discriminate. injection H as <-. rewrite upd_other by lia. apply (IH h0 eq_refl). lia.
Qed.

Lemma perm_filter : forall (A : Type) (f : A -> bool) l l', Permutation l l' -> Permutation (filter f l) (filter f l').
Proof.
  intros A f l l' P. induction P as [|x l l' P IH|x y l|l l' l'' P IH P' IH']; cbn.
  - constructor.
  - destruct (f x); [constructor; exact IH|exact IH].
  - destruct (f x), (f y); try constructor; apply Permutation_refl.
  - eapply Permutation_trans; eassumption.
Qed.
Lemma filter_pairs : forall (g : nat -> list nat) r l, NoDup l -> In r l ->
  map snd (filter (fun x : nat * nat => Nat.eqb (fst x) r) (flat_map (fun r => map (pair r) (g r)) l)) = g r.
Proof.
  intros g r l. assert (Z : forall l, ~ In r l -> filter (fun x : nat * nat => Nat.eqb (fst x) r) (flat_map (fun r => map (pair r) (g r)) l) = []).
  { intros l0. induction l0 as [|x l0 IH]; intros N; [reflexivity|]. cbn [flat_map]. rewrite filter_app, IH by (intro; apply N; right; assumption).
    rewrite app_nil_r. assert (D : x <> r) by (intros ->; apply N; left; reflexivity).
    induction (g x) as [|y ys IHy]; [reflexivity|]. cbn. destruct (Nat.eqb_spec x r); [contradiction|exact IHy]. }
  revert r Z. induction l as [|x l IH]; intros r Z ND I; [destruct I|]. apply NoDup_cons_iff in ND as [N1 N2]. cbn [flat_map]. rewrite filter_app, map_app.
  destruct (Nat.eq_dec x r) as [->|D].
  - rewrite (Z l N1). cbn. rewrite app_nil_r. induction (g r) as [|y ys IHy]; [reflexivity|]. cbn. rewrite Nat.eqb_refl. cbn. rewrite IHy. reflexivity.
  - destruct I as [E|I]; [contradiction|]. rewrite (IH r Z N2 I).
    assert (Zx : filter (fun x0 : nat * nat => Nat.eqb (fst x0) r) (map (pair x) (g x)) = []).
    { induction (g x) as [|y ys IHy]; [reflexivity|]. cbn. destruct (Nat.eqb_spec x r); [contradiction|exact IHy]. }
    rewrite Zx. reflexivity.
Qed.
Lemma order_perm : forall su r, Permutation (su_visit su) (positions su) -> (r < length (su_rankbs su))%nat ->
  Permutation (order_of su r) (seq 0 (length (rb_faces (rank_of su r)))).
Proof.
  intros su r P Hr. unfold order_of. rewrite <- (filter_pairs (fun r => seq 0 (length (rb_faces (rank_of su r)))) r (seq 0 (length (su_rankbs su)))).
  - apply Permutation_map, perm_filter. exact P.
  - apply seq_NoDup.
  - apply in_seq. lia.
Qed.

Section Exchange.
  Context (sch : scheme) (m : mesh) (subs : list submesh).
  Context (cc : nat) (k : comm) (Hk : nth_error (comms sch) cc = Some k).
  Context (mk : mstate -> dface -> list R) (Hmk : forall st d, (N.of_nat (length (mk st d)) <= capacity sch k (N.of_nat (ngp1 m)))%N).
  Let send (su : submesh) (u : ustate) (r : nat) : outcome (list (list R)) :=
    send_all (offsets_of sch m (rank_of su r)) cc (fun j => mk (u_st u) (face_of (rank_of su r) j)) (order_of su r) (u_send u r).

  Lemma exchange_units : forall us, (forall su, In su subs -> Permutation (su_visit su) (positions su)) -> sizes_fit_of sch m subs -> buffers_sized_of sch m subs us ->
    exists us', exchange subs send us = Ok us' /\ buffers_sized_of sch m subs us' /\
      (forall i, (i < length subs)%nat -> u_st (us' i) = u_st (us i)) /\
      forall i r j n, (i < length subs)%nat -> (r < length (su_rankbs (unit_at subs i)))%nat -> (j < length (rb_faces (rankb_at subs i r)))%nat ->
        (N.of_nat n <= capacity sch k (N.of_nat (ngp1 m)))%N ->
        exists w, receive (offsets_of sch m (rankb_at subs i r)) cc j n (u_send (us' i) r) = Ok w /\ carries w (mk (u_st (us i)) (face_of (rankb_at subs i r) j)) n.
  Proof.
    intros us V F Sz.
    set (res i r := oget (u_send (us i) r) (send (unit_at subs i) (us i) r)).
    assert (One : forall i r, (i < length subs)%nat -> (r < length (su_rankbs (unit_at subs i)))%nat ->
      send (unit_at subs i) (us i) r = Ok (res i r) /\ map (@length R) (res i r) = map (@length R) (u_send (us i) r) /\
      forall j n, (j < length (rb_faces (rankb_at subs i r)))%nat -> (N.of_nat n <= capacity sch k (N.of_nat (ngp1 m)))%N ->
        exists w, receive (offsets_of sch m (rankb_at subs i r)) cc j n (res i r) = Ok w /\ carries w (mk (u_st (us i)) (face_of (rankb_at subs i r) j)) n).
    { intros i r Hi Hr.
      set (ngps := map (fun _ : dface => N.of_nat (ngp1 m)) (rb_faces (rankb_at subs i r))).
      destruct (exchange_ok sch ngps cc k (fun j => mk (u_st (us i)) (face_of (rankb_at subs i r) j)) (F i r Hi Hr) Hk) with (order := order_of (unit_at subs i) r) (bufs := u_send (us i) r)
        as (b' & E & L & _ & Rc).
      - intros j g Hj. unfold ngps in Hj. rewrite nth_error_map in Hj. destruct (nth_error _ j); [|discriminate]. injection Hj as <-. apply Hmk.
      - unfold ngps. rewrite map_length. apply order_perm; [|exact Hr]. apply V. unfold unit_at. apply nth_In. exact Hi.
      - apply (Sz i r Hi Hr).
      - assert (Eb : send (unit_at subs i) (us i) r = Ok b') by exact E.
        assert (Er : res i r = b') by (unfold res; rewrite Eb; reflexivity). rewrite Er. split; [exact Eb|]. split; [exact L|].
        intros j n Hj Hn. apply (Rc j (N.of_nat (ngp1 m)) n); [|exact Hn]. unfold ngps. rewrite nth_error_map.
        destruct (nth_error (rb_faces (rankb_at subs i r)) j) eqn:En; [reflexivity|]. apply nth_error_None in En. lia. }
    assert (Inner : forall i, (i < length subs)%nat -> exists b, for_all (length (su_rankbs (unit_at subs i))) (send (unit_at subs i) (us i)) (u_send (us i)) = Ok b /\
      forall r, (r < length (su_rankbs (unit_at subs i)))%nat -> b r = res i r).
    { intros i Hi. apply for_all_ok. intros r Hr. apply One; assumption. }
    set (b i := oget (u_send (us i)) (for_all (length (su_rankbs (unit_at subs i))) (send (unit_at subs i) (us i)) (u_send (us i)))).
    destruct (for_all_ok _ (length subs) (fun i => do b <- for_all (length (su_rankbs (sub subs i))) (send (sub subs i) (us i)) (u_send (us i)) ; Ok (UState (u_st (us i)) b)) us
      (fun i => UState (u_st (us i)) (b i))) as (us' & E & Hu).
    { intros i Hi. destruct (Inner i Hi) as (bi & Ei & _). unfold b. change (sub subs i) with (unit_at subs i). rewrite Ei. reflexivity. }
    exists us'. split; [exact E|].
    assert (Bi : forall i r, (i < length subs)%nat -> (r < length (su_rankbs (unit_at subs i)))%nat -> u_send (us' i) r = res i r).
    { intros i r Hi Hr. rewrite (Hu i Hi). cbn [u_send]. destruct (Inner i Hi) as (bi & Ei & Hb). unfold b. rewrite Ei. cbn [oget]. apply Hb. exact Hr. }
    split; [|split].
    - intros i r Hi Hr. rewrite (Bi i r Hi Hr), <- (Sz i r Hi Hr). destruct (One i r Hi Hr) as (_ & L & _).
      rewrite <- (map_map (@length R) N.of_nat (res i r)), L, map_map. reflexivity.
    - intros i Hi. rewrite (Hu i Hi). reflexivity.
    - intros i r j n Hi Hr Hj Hn. rewrite (Bi i r Hi Hr). apply One; assumption.
  Qed.

  (** What arrives at face [j] of rank boundary [r] of unit [i]: the message of the
      same face of the partner. *)
  Lemma delivered_units : forall cuts us, decomposes m subs cuts -> sizes_fit_of sch m subs -> buffers_sized_of sch m subs us ->
    exists us', exchange subs send us = Ok us' /\ buffers_sized_of sch m subs us' /\
      (forall i, (i < length subs)%nat -> u_st (us' i) = u_st (us i)) /\
      forall i r j n, (i < length subs)%nat -> (r < length (su_rankbs (unit_at subs i)))%nat -> (j < length (rb_faces (rankb_at subs i r)))%nat ->
        (N.of_nat n <= capacity sch k (N.of_nat (ngp1 m)))%N ->
        let rb := rankb_at subs i r in
        let d' := face_of (rankb_at subs (rb_unit rb) (rb_index rb)) j in
        exists w, receive (offsets_of sch m rb) cc j n (delivered subs us' i r) = Ok w /\ carries w (mk (u_st (us (rb_unit rb))) d') n.
  Proof.
    intros cuts us D F Sz. destruct (exchange_units us (dc_visit _ _ _ D) F Sz) as (us' & E & B & S & Rc).
    exists us'. split; [exact E|]. split; [exact B|]. split; [exact S|]. intros i r j n Hi Hr Hj Hn rb d'.
    destruct (dc_partner _ _ _ D i r Hi Hr) as (P1 & P2 & P3 & _). fold rb in P1, P2, P3.
    assert (O : offsets_of sch m rb = offsets_of sch m (rankb_at subs (rb_unit rb) (rb_index rb))).
    { unfold offsets_of. f_equal. f_equal. clear - P3. revert P3. generalize (rb_faces (rankb_at subs (rb_unit rb) (rb_index rb))) as l'. generalize (rb_faces rb) as l.
      intros l. induction l as [|x l IH]; intros [|y l'] H; try discriminate; [reflexivity|]. cbn. rewrite (IH l') by (cbn in H; lia). reflexivity. }
    rewrite O. apply (Rc (rb_unit rb) (rb_index rb) j n P1 P2); [|exact Hn]. rewrite P3. exact Hj.
  Qed.
End Exchange.

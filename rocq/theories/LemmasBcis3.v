(** Proofs: repeated rows of the levee section. *)
From Coq Require Import Reals List Bool Arith NArith Lia.
From Verif Require Import Num Outcome ModelMesh ModelBcis SpecBcis LemmasBcis LemmasBcis2.
Import ListNotations.
Open Scope R_scope.

Lemma key_eqb_iff : forall a b : N * N, key_eqb a b = true <-> a = b.
Proof.
  intros [a1 a2] [b1 b2]. unfold key_eqb. cbn [fst snd]. rewrite andb_true_iff, !N.eqb_eq. split; [intros [-> ->]; reflexivity|intros E; injection E as -> ->; split; reflexivity].
Qed.
Lemma find_put : forall (V : Type) (m : rmap V) k v k', rm_find (rm_put m k v) k' = if key_eqb k' k then Some v else rm_find m k'.
Proof.
  intros V m k v k'. induction m as [|[j w] m IH].
  - cbn. destruct (key_eqb k' k); reflexivity.
  - cbn [rm_put]. destruct (key_ltb k j); [reflexivity|]. destruct (key_eqb k j) eqn:E.
    + apply key_eqb_iff in E. subst j. cbn. destruct (key_eqb k' k); reflexivity.
    + cbn [rm_find]. destruct (key_eqb k' j) eqn:F; [|exact IH].
      destruct (key_eqb k' k) eqn:G; [|reflexivity]. apply key_eqb_iff in F, G. subst. rewrite (proj2 (key_eqb_iff j j) eq_refl) in E. discriminate.
Qed.
Lemma last_row : forall secs a b, Forall section_ok secs ->
  exists d, read_bcis (length (print secs)) (print secs) no_bcis = Some d /\
    (forall v, rm_find (bc_levee d) (a, b) = Some v <-> exists r1 r2, flat_map levees_of secs = r1 ++ ((a, b), v) :: r2 /\ forall w, ~ In ((a, b), w) r2).
Proof.
  intros secs a b O. assert (L : (length secs <= length (print secs))%nat).
  { clear O. unfold print. induction secs as [|s secs IH]; [cbn; lia|]. cbn [flat_map]. rewrite app_length. cbn [length].
    assert (1 <= length (print_section s))%nat by (destruct s as [? ? ?|?]; cbn; lia). lia. }
  destruct (read_bcis_print secs _ no_bcis O L) as (T & F & E & _). eexists. split; [exact E|]. cbn [bc_levee]. intros v.
  assert (G : forall rows (m : rmap levee), rm_find (fold_left put_levee rows m) (a, b) = Some v <->
    (exists r1 r2, rows = r1 ++ ((a, b), v) :: r2 /\ forall w, ~ In ((a, b), w) r2) \/ (rm_find m (a, b) = Some v /\ forall w, ~ In ((a, b), w) rows)).
  { induction rows as [|[k w] rows IH]; intros m.
    - cbn. split; [intros H; right; split; [exact H|intros w []]|]. intros [(r1 & r2 & H & _)|[H _]]; [destruct r1; discriminate|exact H].
    - cbn [fold_left]. rewrite IH. replace (put_levee m (k, w)) with (rm_put m k w) by reflexivity. rewrite find_put. split.
      + intros [(r1 & r2 & -> & N)|[H N]]; [left; exists ((k, w) :: r1), r2; split; [reflexivity|exact N]|].
        destruct (key_eqb (a, b) k) eqn:K.
        * apply key_eqb_iff in K. subst k. injection H as ->. left. exists [], rows. split; [reflexivity|exact N].
        * right. split; [exact H|]. intros w' [Q|Q]; [|exact (N w' Q)]. injection Q as -> _. rewrite (proj2 (key_eqb_iff _ _) eq_refl) in K. discriminate.
      + intros [(r1 & r2 & H & N)|[H N]].
        * destruct r1 as [|x r1]; [injection H as -> -> ->|injection H as _ H].
          -- right. rewrite (proj2 (key_eqb_iff _ _) eq_refl). split; [reflexivity|exact N].
          -- left. exists r1, r2. split; assumption.
        * right. destruct (key_eqb (a, b) k) eqn:K; [exfalso; apply key_eqb_iff in K; subst k; exact (N w (or_introl eq_refl))|].
          split; [exact H|]. intros w' Q. exact (N w' (or_intror Q)). }
  rewrite G. split; [intros [H|[H _]]; [exact H|discriminate]|intros H; left; exact H].
Qed.

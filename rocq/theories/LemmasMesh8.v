(** Boolean checks of the mesh hypotheses, used in examples. *)
From Coq Require Import NArith List Bool Arith Lia.
From Verif Require Import Outcome ModelMesh SpecMesh LemmasMesh LemmasMesh2 LemmasMesh3 LemmasMesh4 LemmasMesh5 LemmasMesh6 LemmasMesh7.
Import ListNotations.
Local Open Scope N_scope.

Definition els_t := list (N * (N * N * N)).
Fixpoint nodupb (l : list N) : bool :=
  match l with [] => true | x :: r => negb (existsb (N.eqb x) r) && nodupb r end.
Lemma nodupb_ok : forall l, nodupb l = true -> NoDup l.
Proof.
  induction l as [|x l IH]; intros H; [constructor|]. cbn in H. apply andb_true_iff in H as [A B].
  constructor; [|auto]. intros I. apply negb_true_iff in A.
  assert (existsb (N.eqb x) l = true) by (apply existsb_exists; exists x; split; [assumption | apply N.eqb_refl]). congruence.
Qed.
Definition ids_okb (els : els_t) : bool :=
  nodupb (map fst els) && forallb (fun e => (fst e <? 4294967295) &&
     forallb (fun i => vertex (snd e) i <? 4294967296) [0; 1; 2]%nat) els.
Lemma ids_okb_ok : forall els, ids_okb els = true -> ids_ok els.
Proof.
  intros els H. unfold ids_okb in H. apply andb_true_iff in H as [A B]. split; [apply nodupb_ok; assumption|].
  rewrite forallb_forall in B. intros e t I. apply B in I. cbn [fst snd] in I. apply andb_true_iff in I as [I1 I2].
  apply N.ltb_lt in I1. split; [assumption|]. intros i.
  destruct t as [[a b] c]. unfold vertex in *. cbn in I2. rewrite !andb_true_iff, !N.ltb_lt in I2.
  pose proof (Nat.mod_upper_bound i 3 ltac:(discriminate)) as M.
  destruct (i mod 3)%nat as [|[|[|k]]]; cbn; lia.
Qed.

Definition at_most_twob (els : els_t) : bool :=
  forallb (fun kf => Nat.leb (length (faces_at (all_faces els) (fst kf))) 2) (all_faces els).
Lemma at_most_twob_ok : forall els, ids_ok els -> at_most_twob els = true -> at_most_two els.
Proof.
  intros els OK H f g h S1 S2 S3. unfold at_most_twob in H. rewrite forallb_forall in H.
  assert (KEY : forall f k, In f (faces_at (all_faces els) k) -> forall k', In f (faces_at (all_faces els) k') -> k = k').
  { intros f' k I k' I'. rewrite faces_at_in, in_all_faces in I, I'. destruct I as (p & Hp & ->), I' as (p' & Hp' & ->).
    rewrite (face_on_fun _ _ _ _ (proj1 OK) Hp Hp'). reflexivity. }
  apply share_iff in S1 as (D1 & k & I1 & I2); [|assumption].
  apply share_iff in S2 as (D2 & k2 & I3 & I4); [|assumption].
  apply share_iff in S3 as (D3 & _ & _ & _); [|assumption].
  rewrite <- (KEY g k I2 k2 I3) in I4.
  assert (L : (length [f; g; h] <= length (faces_at (all_faces els) k))%nat).
  { apply NoDup_incl_length.
    - repeat constructor; cbn; intuition congruence.
    - intros z [<-|[<-|[<-|[]]]]; assumption. }
  pose proof (proj1 (faces_at_in _ _ _) I1) as J. apply H in J. cbn [fst] in J. apply Nat.leb_le in J. cbn in L. lia.
Qed.

Definition sharing (els : els_t) : list (face * face) :=
  flat_map (fun kf => map (fun g => (snd kf, g))
    (filter (fun g => negb ((fst g =? fst (snd kf)) && Nat.eqb (snd g) (snd (snd kf)))) (faces_at (all_faces els) (fst kf)))) (all_faces els).
Lemma sharing_spec : forall els f g, ids_ok els -> share_edge els f g -> In (f, g) (sharing els).
Proof.
  intros els f g OK S. apply share_iff in S as (D & k & I & J); [|assumption].
  apply in_flat_map. exists (k, f). split; [apply faces_at_in; assumption|].
  apply in_map_iff. exists g. split; [reflexivity|]. apply filter_In. split; [assumption|].
  cbn [fst snd]. apply negb_true_iff. destruct (fst g =? fst f) eqn:E1; [|reflexivity].
  destruct (Nat.eqb (snd g) (snd f)) eqn:E2; [|reflexivity].
  apply N.eqb_eq in E1. apply Nat.eqb_eq in E2. destruct f, g; cbn in *; subst. congruence.
Qed.
Definition meet_onceb (els : els_t) : bool :=
  let ps := sharing els in
  forallb (fun p => negb (fst (fst p) =? fst (snd p))) ps &&
  forallb (fun p => forallb (fun q =>
    if (fst (fst p) =? fst (fst q)) && (fst (snd p) =? fst (snd q)) then Nat.eqb (snd (fst p)) (snd (fst q)) else true) ps) ps.
Lemma meet_onceb_ok : forall els, ids_ok els -> meet_onceb els = true -> meet_once els.
Proof.
  intros els OK H. unfold meet_onceb in H. apply andb_true_iff in H as [A B]. rewrite forallb_forall in A, B. split.
  - intros f g S. apply sharing_spec in S; [|assumption]. apply A in S. cbn in S. apply negb_true_iff, N.eqb_neq in S. assumption.
  - intros f g f' g' S S' E E'. apply sharing_spec in S; [|assumption]. apply sharing_spec in S'; [|assumption].
    apply B in S. rewrite forallb_forall in S. apply S in S'. cbn [fst snd] in S'.
    rewrite E, E', !N.eqb_refl in S'. cbn in S'. apply Nat.eqb_eq in S'. destruct f, f'; cbn in *; subst; reflexivity.
Qed.

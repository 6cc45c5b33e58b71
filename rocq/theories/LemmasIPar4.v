(** Distributed implicit HDG: combinatorics of the division of a mesh among units. *)
From Coq Require Import Reals ZArith List Bool Arith Lia Lra Permutation.
From Verif Require Import Num ModelSWE Outcome ModelShape ModelBasis ModelJac ModelStep ModelIHDG
  SpecSWE SpecStepper SpecStep SpecIHDG SpecIHDG2
  LemmasSWE LemmasRK LemmasBasis2 LemmasStep LemmasStage LemmasPar2 LemmasPar4 LemmasIHDG3 LemmasIHDG4 LemmasIHDG6 LemmasIHDG9 LemmasIHDG13 LemmasIPar LemmasIPar2 LemmasIPar3
  ModelIPar SpecIPar.
Import ListNotations.
Open Scope R_scope.

Lemma own_sum : forall (A : Type) (ls : iunit -> list A) (F : A -> R) us u e, NoDup (flat_map un_elts us) -> (u < length us)%nat ->
  In e (un_elts (the_unit us u)) -> (forall un x, In un us -> In x (ls un) -> ~ In e (un_elts un) -> F x = 0) ->
  lsum (flat_map ls us) F = lsum (ls (the_unit us u)) F.
Proof.
  intros A ls F us. induction us as [|un us IH]; intros u e ND Hu He Z; [cbn in Hu; lia|].
  cbn [flat_map] in ND |- *. apply nodup_app in ND as (_ & N2 & N3). rewrite lsum_app. destruct u as [|u].
  - cbn in He |- *. rewrite lsum_flat_map, (lsum_ext _ us _ (fun _ => 0)); [rewrite lsum_zero; ring|].
    intros un' H'. rewrite (lsum_ext _ _ _ (fun _ => 0)); [apply lsum_zero|]. intros x Hx. apply (Z un' x); [right; exact H'|exact Hx|].
    intros I. apply (N3 e He). apply in_flat_map. exists un'. split; assumption.
  - change (the_unit (un :: us) (S u)) with (the_unit us u) in *. rewrite (IH u e N2); [|cbn in Hu; lia|exact He|intros un' x H'; apply Z; right; exact H'].
    rewrite (lsum_ext _ (ls un) _ (fun _ => 0)); [rewrite lsum_zero; ring|]. intros x Hx. apply (Z un x (or_introl eq_refl) Hx).
    intros I. apply (N3 e I). apply in_flat_map. exists (the_unit us u). split; [|exact He]. unfold the_unit. apply nth_In. cbn in Hu. lia.
Qed.
Lemma nodup_flat_sub : forall (A B : Type) (h : A -> list B) L l, NoDup (flat_map h L) -> NoDup l -> (forall x, In x l -> In x L) -> NoDup (flat_map h l).
Proof.
  intros A B h L l NL. induction l as [|x l IH]; intros Nl S; [constructor|]. cbn [flat_map]. inversion Nl as [|? ? N1 N2]; subst.
  apply NoDup_app_intro.
  - apply (nodup_part _ _ h L x NL). apply S. left. reflexivity.
  - apply IH; [exact N2|]. intros y Hy. apply S. right. exact Hy.
  - intros b Hb Hb'. apply in_flat_map in Hb' as (y & Hy & Hby). apply N1.
    rewrite (flat_once _ _ h L x y b NL (S x (or_introl eq_refl)) (S y (or_intror Hy)) Hb Hby). exact Hy.
Qed.
Lemma nodup_map_on : forall (A B : Type) (h : A -> B) l, NoDup l -> (forall x y, In x l -> In y l -> h x = h y -> x = y) -> NoDup (map h l).
Proof.
  intros A B h l. induction l as [|x l IH]; intros N I; [constructor|]. cbn. inversion N as [|? ? N1 N2]; subst. constructor.
  - intros K. apply in_map_iff in K as (y & E & Hy). apply N1. rewrite (I x y (or_introl eq_refl) (or_intror Hy) (eq_sym E)). exact Hy.
  - apply IH; [exact N2|]. intros a b Ha Hb. apply I; right; assumption.
Qed.

Section Div.
  Context (m : mesh) (us : list iunit) (cuts : list nat) (own : nat -> bool).
  Context (Dv : divides m us cuts own) (Cf : conforming m).
  Notation ni := (length (m_intfaces m)).
  Notation nb := (length (m_bounds m)).

  Lemma elts_once : NoDup (flat_map un_elts us).
  Proof. apply (Permutation_NoDup (Permutation_sym (dv_elts _ _ _ _ Dv))). apply seq_NoDup. Qed.
  Lemma ints_once : NoDup (flat_map un_ints us ++ cuts).
  Proof. apply (Permutation_NoDup (Permutation_sym (dv_ints _ _ _ _ Dv))). apply seq_NoDup. Qed.
  Lemma bnds_once : NoDup (flat_map un_bnds us).
  Proof. apply (Permutation_NoDup (Permutation_sym (dv_bnds _ _ _ _ Dv))). apply seq_NoDup. Qed.
  Lemma cut_range : forall ed, In ed cuts -> (ed < ni)%nat.
  Proof. intros ed H. assert (I : In ed (seq 0 ni)) by (apply (Permutation_in _ (dv_ints _ _ _ _ Dv)); apply in_or_app; right; exact H). apply in_seq in I. lia. Qed.
  Lemma cut_two : forall ed, In ed cuts -> i_in (the_int m ed) <> i_ex (the_int m ed).
  Proof. intros ed H. apply int_distinct; [exact Cf|apply cut_range; exact H]. Qed.
  Lemma half_cases : forall ed d, In d (halves m own ed) ->
    d = DEdge ed (i_in (the_int m ed)) (i_bin (the_int m ed)) (own ed) \/ d = DEdge ed (i_ex (the_int m ed)) (i_bex (the_int m ed)) (negb (own ed)).
  Proof. intros ed d [<-|[<-|[]]]; [left|right]; reflexivity. Qed.
  Lemma half_edge : forall ed d, In d (halves m own ed) -> de_edge d = ed.
  Proof. intros ed d H. destruct (half_cases ed d H) as [-> | ->]; reflexivity. Qed.
  Lemma half_side_of : forall ed d, (ed < ni)%nat -> In d (halves m own ed) -> In (half_face d) (sides m ed).
  Proof. intros ed d R H. rewrite side_int by exact R. destruct (half_cases ed d H) as [-> | ->]; [left|right; left]; reflexivity. Qed.
  Lemma cuts_once : NoDup cuts.
  Proof. pose proof ints_once as N. apply nodup_app in N as (_ & N & _). exact N. Qed.
  Lemma halves_once : NoDup (flat_map (halves m own) cuts).
  Proof.
    pose proof cuts_once as N. assert (T : forall ed, In ed cuts -> i_in (the_int m ed) <> i_ex (the_int m ed)) by exact cut_two. clear Dv.
    induction cuts as [|ed l IH]; [constructor|]. cbn [flat_map]. inversion N as [|? ? N1 N2]; subst. apply NoDup_app_intro.
    - constructor; [|constructor; [intros []|constructor]]. intros [E|[]]. apply (T ed (or_introl eq_refl)). unfold the_int. congruence.
    - apply IH; [exact N2|]. intros x Hx. apply T. right. exact Hx.
    - intros d H H'. apply in_flat_map in H' as (x & Hx & Hd). apply half_edge in H, Hd. apply N1. rewrite <- H, Hd. exact Hx.
  Qed.
  Lemma dist_all_once : NoDup (flat_map un_dist us).
  Proof. apply (Permutation_NoDup (Permutation_sym (dv_dist _ _ _ _ Dv))). exact halves_once. Qed.
  Lemma dist_half : forall un d, In un us -> In d (un_dist un) -> In (de_edge d) cuts /\ In d (halves m own (de_edge d)).
  Proof.
    intros un d Hu Hd. assert (I : In d (flat_map (halves m own) cuts)).
    { apply (Permutation_in _ (dv_dist _ _ _ _ Dv)). apply in_flat_map. exists un. split; assumption. }
    apply in_flat_map in I as (ed & He & H). rewrite (half_edge ed d H). split; assumption.
  Qed.
  Lemma dist_inj : forall un d d', In un us -> In d (un_dist un) -> In d' (un_dist un) -> de_edge d = de_edge d' -> d = d'.
  Proof.
    intros un d d' Hu H H' E. destruct (dist_half un d Hu H) as (Hc & I). destruct (dist_half un d' Hu H') as (_ & I'). rewrite <- E in I'.
    pose proof (dv_half _ _ _ _ Dv un d Hu H) as O. pose proof (dv_half _ _ _ _ Dv un d' Hu H') as O'.
    pose proof (dv_apart _ _ _ _ Dv un _ Hu Hc) as A.
    destruct (half_cases _ _ I) as [F|F], (half_cases _ _ I') as [F'|F']; rewrite F in O; rewrite F' in O'; cbn [de_elt] in O, O'; unfold the_int in O, O'; try (rewrite F, F'; reflexivity); exfalso; apply A; split; assumption.
  Qed.

  Section U.
    Context (u : nat) (Hu : (u < length us)%nat).
    Notation un := (the_unit us u).
    Lemma unit_in : In un us.
    Proof. unfold the_unit. apply nth_In. exact Hu. Qed.
    Lemma u_elts : NoDup (un_elts un).
    Proof. apply (nodup_part _ _ un_elts us); [exact elts_once|exact unit_in]. Qed.
    Lemma u_ints : NoDup (un_ints un).
    Proof. pose proof ints_once as N. apply nodup_app in N as (N & _ & _). apply (nodup_part _ _ un_ints us); [exact N|exact unit_in]. Qed.
    Lemma u_bnds : NoDup (un_bnds un).
    Proof. apply (nodup_part _ _ un_bnds us); [exact bnds_once|exact unit_in]. Qed.
    Lemma u_dist_edges : NoDup (map de_edge (un_dist un)).
    Proof.
      apply nodup_map_on; [apply (nodup_part _ _ un_dist us); [exact dist_all_once|exact unit_in]|]. intros x y Hx Hy. apply (dist_inj un); [exact unit_in|exact Hx|exact Hy].
    Qed.
    Lemma u_Ri : forall ed, In ed (un_ints un) -> (ed < ni)%nat.
    Proof.
      intros ed H. assert (I : In ed (seq 0 ni)).
      { apply (Permutation_in _ (dv_ints _ _ _ _ Dv)). apply in_or_app. left. apply in_flat_map. exists un. split; [exact unit_in|exact H]. }
      apply in_seq in I. lia.
    Qed.
    Lemma u_Rb2 : forall ed, In ed (un_bnds un) -> (ni <= ed < ni + nb)%nat.
    Proof.
      intros ed H. assert (I : In ed (seq ni nb)).
      { apply (Permutation_in _ (dv_bnds _ _ _ _ Dv)). apply in_flat_map. exists un. split; [exact unit_in|exact H]. }
      apply in_seq in I. lia.
    Qed.
    Lemma u_Rb : forall ed, In ed (un_bnds un) -> (ni <= ed)%nat.
    Proof. intros ed H. apply u_Rb2 in H. lia. Qed.
    Lemma u_Rd : forall d, In d (un_dist un) -> (de_edge d < ni)%nat /\ ~ In (de_edge d) (un_ints un).
    Proof.
      intros d H. destruct (dist_half un d unit_in H) as (Hc & _). split; [apply cut_range; exact Hc|]. intros I.
      pose proof ints_once as N. apply nodup_app in N as (_ & _ & N). apply (N (de_edge d)); [|exact Hc]. apply in_flat_map. exists un. split; [exact unit_in|exact I].
    Qed.
    Lemma u_Ti : forall ed, In ed (un_ints un) -> i_in (the_int m ed) <> i_ex (the_int m ed).
    Proof. intros ed H. apply int_distinct; [exact Cf|apply u_Ri; exact H]. Qed.
    Lemma u_edge_range : forall ed, In ed (un_ints un ++ un_bnds un) -> In ed (seq 0 (ni + nb)).
    Proof. intros ed H. apply in_seq. apply in_app_or in H as [H|H]; [apply u_Ri in H|apply u_Rb2 in H]; lia. Qed.
    Lemma u_faces : NoDup (faces m un).
    Proof.
      unfold faces. pose proof (proj1 Cf) as N. apply NoDup_app_intro.
      - apply (nodup_flat_sub _ _ _ (seq 0 (ni + nb)) _ N); [|exact u_edge_range]. apply NoDup_app_intro; [exact u_ints|exact u_bnds|].
        intros x Hx Hy. apply u_Ri in Hx. apply u_Rb in Hy. lia.
      - apply nodup_map_on; [exact (NoDup_map_inv _ _ u_dist_edges)|]. intros x y Hx Hy E.
        destruct (dist_half un x unit_in Hx) as (Cx & Ix). destruct (dist_half un y unit_in Hy) as (Cy & Iy).
        apply (dist_inj un x y unit_in Hx Hy). apply (one_edge m (de_edge x) (de_edge y) (half_face x) Cf).
        + pose proof (cut_range _ Cx). lia.
        + pose proof (cut_range _ Cy). lia.
        + apply half_side_of; [apply cut_range; exact Cx|exact Ix].
        + rewrite E. apply half_side_of; [apply cut_range; exact Cy|exact Iy].
      - intros s Hs Hd. apply in_flat_map in Hs as (ed & He & Is). apply in_map_iff in Hd as (d & <- & Hd).
        destruct (dist_half un d unit_in Hd) as (Cd & Id). pose proof (cut_range _ Cd) as Rd.
        assert (E : ed = de_edge d).
        { apply (one_edge m ed (de_edge d) (half_face d) Cf); [|lia|exact Is|apply half_side_of; assumption]. apply u_edge_range, in_seq in He. lia. }
        subst ed. apply in_app_or in He as [He|He]; [exact (proj2 (u_Rd d Hd) He)|]. apply u_Rb in He. lia.
    Qed.

    (** Sums over the edges of the mesh that touch an own element. *)
    Lemma sum_bnds : forall e (F : nat -> R), In e (un_elts un) ->
      (forall ed, (ni <= ed < ni + nb)%nat -> b_elt (the_bnd m ed) <> e -> F ed = 0) -> rsum nb (fun k => F (ni + k)%nat) = lsum (un_bnds un) F.
    Proof.
      intros e F He Z. transitivity (lsum (seq ni nb) F).
      - rewrite <- lsum_seq. clear. generalize ni as k. induction nb as [|n IH]; intros k; [reflexivity|]. cbn [seq]. rewrite !lsum_cons, Nat.add_0_r. f_equal.
        rewrite <- (IH (S k)). rewrite <- seq_shift, lsum_map. apply lsum_ext. intros x _. f_equal. lia.
      - rewrite <- (lsum_perm _ _ _ F (dv_bnds _ _ _ _ Dv)). apply (own_sum _ un_bnds F us u e); [exact elts_once|exact Hu|exact He|].
        intros un' x Hn Hx N. assert (R : In x (seq ni nb)) by (apply (Permutation_in _ (dv_bnds _ _ _ _ Dv)); apply in_flat_map; exists un'; split; assumption).
        apply in_seq in R. apply Z; [lia|]. intros E. apply N. rewrite <- E.
        apply (dv_own _ _ _ _ Dv un' x (b_elt (the_bnd m x), b_id (the_bnd m x)) Hn); [apply in_or_app; right; exact Hx|].
        rewrite side_bnd by lia. left. reflexivity.
    Qed.
    Definition pick (vi ve : nat -> R) (d : dedge) : R := if (de_elt d =? i_in (the_int m (de_edge d)))%nat then vi (de_edge d) else ve (de_edge d).
    Lemma sum_ints : forall e (vi ve : nat -> R), In e (un_elts un) ->
      let F ed := on e (i_in (the_int m ed)) (vi ed) + on e (i_ex (the_int m ed)) (ve ed) in
      rsum ni F = lsum (un_ints un) F + lsum (un_dist un) (fun d => on e (de_elt d) (pick vi ve d)).
    Proof.
      intros e vi ve He F. rewrite <- lsum_seq, <- (lsum_perm _ _ _ F (dv_ints _ _ _ _ Dv)), lsum_app. f_equal.
      - apply (own_sum _ un_ints F us u e); [exact elts_once|exact Hu|exact He|]. intros un' x Hn Hx N.
        assert (R : In x (seq 0 ni)) by (apply (Permutation_in _ (dv_ints _ _ _ _ Dv)); apply in_or_app; left; apply in_flat_map; exists un'; split; assumption).
        apply in_seq in R. unfold F, on.
        destruct (Nat.eqb_spec e (i_in (the_int m x))) as [E|_].
        { exfalso. apply N. rewrite E. apply (dv_own _ _ _ _ Dv un' x (i_in (the_int m x), i_bin (the_int m x)) Hn); [apply in_or_app; left; exact Hx|].
          rewrite side_int by lia. left. reflexivity. }
        destruct (Nat.eqb_spec e (i_ex (the_int m x))) as [E|_]; [|ring].
        exfalso. apply N. rewrite E. apply (dv_own _ _ _ _ Dv un' x (i_ex (the_int m x), i_bex (the_int m x)) Hn); [apply in_or_app; left; exact Hx|].
        rewrite side_int by lia. right. left. reflexivity.
      - transitivity (lsum (flat_map (halves m own) cuts) (fun d => on e (de_elt d) (pick vi ve d))).
        + rewrite lsum_flat_map. apply lsum_ext. intros ed Hc. unfold halves. rewrite !lsum_cons. unfold lsum at 1. cbn [map fold_right]. unfold pick. cbn [de_elt de_edge].
          fold (the_int m ed). rewrite Nat.eqb_refl. destruct (Nat.eqb_spec (i_ex (the_int m ed)) (i_in (the_int m ed))) as [E|_]; [exfalso; apply (cut_two ed Hc); symmetry; exact E|].
          unfold F. ring.
        + rewrite <- (lsum_perm _ _ _ _ (dv_dist _ _ _ _ Dv)). apply (own_sum _ un_dist _ us u e); [exact elts_once|exact Hu|exact He|].
          intros un' d Hn Hd N. unfold on. destruct (Nat.eqb_spec e (de_elt d)) as [E|_]; [|reflexivity]. exfalso. apply N. rewrite E. exact (dv_half _ _ _ _ Dv un' d Hn Hd).
    Qed.
  End U.
  (** Every element, and every half, is somewhere. *)
  Lemma owner : forall e, (e < m_n m)%nat -> exists u, (u < length us)%nat /\ In e (un_elts (the_unit us u)).
  Proof.
    intros e He. assert (I : In e (flat_map un_elts us)) by (apply (Permutation_in _ (Permutation_sym (dv_elts _ _ _ _ Dv))); apply in_seq; lia).
    apply in_flat_map in I as (un & Hn & H). destruct (In_nth us un (IUnit [] [] [] []) Hn) as (u & Hu & <-). exists u. split; assumption.
  Qed.
  Lemma unit_edge : forall ed, (ed < ni + nb)%nat -> In ed cuts \/ exists u, (u < length us)%nat /\ In ed (un_ints (the_unit us u) ++ un_bnds (the_unit us u)).
  Proof.
    intros ed He. destruct (Nat.lt_ge_cases ed ni) as [L|G].
    - assert (I : In ed (flat_map un_ints us ++ cuts)) by (apply (Permutation_in _ (Permutation_sym (dv_ints _ _ _ _ Dv))); apply in_seq; lia).
      apply in_app_or in I as [I|I]; [right|left; exact I]. apply in_flat_map in I as (un & Hn & H). destruct (In_nth us un (IUnit [] [] [] []) Hn) as (u & Hu & <-).
      exists u. split; [exact Hu|]. apply in_or_app. left. exact H.
    - right. assert (I : In ed (flat_map un_bnds us)) by (apply (Permutation_in _ (Permutation_sym (dv_bnds _ _ _ _ Dv))); apply in_seq; lia).
      apply in_flat_map in I as (un & Hn & H). destruct (In_nth us un (IUnit [] [] [] []) Hn) as (u & Hu & <-).
      exists u. split; [exact Hu|]. apply in_or_app. right. exact H.
  Qed.
  Lemma half_owner : forall ed d, In ed cuts -> In d (halves m own ed) -> exists u, (u < length us)%nat /\ In d (un_dist (the_unit us u)).
  Proof.
    intros ed d Hc Hd. assert (I : In d (flat_map un_dist us)).
    { apply (Permutation_in _ (Permutation_sym (dv_dist _ _ _ _ Dv))). apply in_flat_map. exists ed. split; assumption. }
    apply in_flat_map in I as (un & Hn & H). destruct (In_nth us un (IUnit [] [] [] []) Hn) as (u & Hu & <-). exists u. split; assumption.
  Qed.
End Div.

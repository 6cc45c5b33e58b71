(** Distributed Green-Naghdi correction: matrices and equations of the units together. *)
From Coq Require Import Reals ZArith List Bool Arith Lia Lra Permutation.
From Verif Require Import Num ModelSWE Outcome ModelShape ModelBasis ModelJac ModelStep ModelIHDG SpecComm
  SpecSWE SpecStepper SpecStep SpecStage SpecIHDG SpecIHDG2
  LemmasSWE LemmasRK LemmasBasis2 LemmasStep LemmasStage LemmasPar2 LemmasPar4 LemmasIHDG4 LemmasIHDG6 LemmasIPar LemmasIPar2 LemmasIPar3 LemmasIPar4 LemmasIPar5
  LemmasGN1 LemmasGN2 LemmasGN3 LemmasGN4 LemmasGN5
  ModelIPar SpecIPar ModelGN ModelGPar SpecGPar LemmasGPar1 LemmasGPar2 LemmasGPar3 LemmasGPar4.
Import ListNotations.
Open Scope R_scope.

Definition got {A : Type} (a : A) (o : outcome A) : A := match o with Ok x => x | _ => a end.
Definition zero_sys : dcsys := let z3 := fun _ _ _ => 0 in DC z3 z3 z3 z3 (fun _ _ => 0) (fun _ => z3) (fun _ => z3) (fun _ => z3) (fun _ => z3) z3.

Section Blocks.
  Context (m : mesh) (us : list iunit) (cuts : list nat) (own : nat -> bool).
  Context (Dv : divides m us cuts own) (Cf : conforming m) (Fo : faces_once m) (Sw : symmetric_weights m) (Sp : symmetric_points m) (Ft : forall ed, In ed cuts -> fits m ed).
  Context (g : R) (q : nat -> coeffs) (qs : nat -> nat -> coeffs) (Hq : elts_shared m us q qs).
  Context (wet : nat -> bool) (wets : nat -> nat -> bool) (Hw : wets_shared us wet wets) (Lv : no_wet_levee m wet).
  Context (boxes : nat -> mailbox) (Ml : mailed m us boxes qs wets).
  Notation ni := (length (m_intfaces m)).
  Notation nb := (length (m_bounds m)).
  Notation fI k := (the_int m k).
  Notation UN u := (the_unit us u).

  Lemma in_gedges : forall k, (k < ni + nb)%nat -> In (the_gedge m k) (gedges m).
  Proof. intros k H. unfold the_gedge. apply nth_In. rewrite gedges_len. exact H. Qed.
  Lemma in_numbered : forall k, (k < ni + nb)%nat -> In (k, the_gedge m k) (numbered_edges m).
  Proof. intros k H. apply numbered_nth. cbn [fst snd]. apply nth_error_nth'. rewrite gedges_len. exact H. Qed.
  Lemma numbered_is : forall x, In x (numbered_edges m) -> (fst x < ni + nb)%nat /\ snd x = the_gedge m (fst x).
  Proof.
    intros x H. apply numbered_nth in H. split; [rewrite <- gedges_len; apply nth_error_Some; rewrite H; discriminate|]. unfold the_gedge. symmetry. apply nth_error_nth. exact H.
  Qed.
  Lemma kernels_there : forall k, (k < ni + nb)%nat -> kernels_ok wet (k, the_gedge m k).
  Proof.
    intros k H W. cbn [snd] in *. destruct (Nat.lt_ge_cases k ni) as [L|G].
    - rewrite gedge_int in * by exact L. cbn [ge_kind]. unfold kind_of. rewrite (Lv (fI k)); [discriminate|unfold the_int; apply nth_In; exact L|].
      unfold wet_edge in W. cbn [ge_sides existsb s_e] in W. rewrite orb_false_r in W. exact W.
    - rewrite gedge_bnd by lia. cbn [ge_kind]. destruct (b_bc (the_bnd m k)); discriminate.
  Qed.
  Lemma serial_ok : exists s, dc_blocks m g q wet = Ok s /\ blocks_ok m g q wet s.
  Proof.
    apply dc_blocks_ok; [exact Fo|]. intros x Hx. destruct (numbered_is x Hx) as (R & E). destruct x as [k ed]. cbn [fst snd] in *. subst ed. apply kernels_there. exact R.
  Qed.
  Notation SU u := (got zero_sys (unit_blocks m (UN u) (boxes u) g (qs u) (wets u))).
  Lemma edges_lt : forall u k, (u < length us)%nat -> In k (un_ints (UN u) ++ un_bnds (UN u)) -> (k < ni + nb)%nat.
  Proof. intros u k Hu H. pose proof (u_edge_range m us cuts own Dv u Hu k H) as Q. apply in_seq in Q. lia. Qed.
  Lemma units_ok : forall u, (u < length us)%nat -> unit_blocks m (UN u) (boxes u) g (qs u) (wets u) = Ok (SU u) /\ unit_ok m (UN u) (boxes u) g (qs u) (wets u) (SU u).
  Proof.
    intros u Hu. destruct (unit_blocks_ok m (UN u) (boxes u) g (qs u) (wets u)) as (x & E & O).
    - eapply u_faces; eassumption.
    - apply NoDup_app_intro; [eapply u_ints; eassumption|eapply u_bnds; eassumption|]. intros k Hx Hy.
      pose proof (u_Ri m us cuts own Dv u Hu k Hx). pose proof (u_Rb m us cuts own Dv u Hu k Hy). lia.
    - eapply u_dist_edges; eassumption.
    - intros k Hk. apply (edges_lt u); assumption.
    - intros d Hd I. destruct (u_Rd m us cuts own Dv u Hu d Hd) as (R & N). apply in_app_or in I as [I|I]; [exact (N I)|].
      pose proof (u_Rb m us cuts own Dv u Hu _ I). lia.
    - intros k Hk W. apply (kernels_there k); [apply (edges_lt u); assumption|]. cbn [snd] in *. rewrite <- W. symmetry. eapply wets_edge; eassumption.
    - rewrite E. split; [reflexivity|exact O].
  Qed.
  Lemma wet_edge_sides : forall w k, (k < ni + nb)%nat -> existsb (fun eb => w (fst eb)) (sides m k) = wet_edge w (the_gedge m k).
  Proof. intros w k H. rewrite <- (side_pairs m k H). unfold wet_edge. induction (ge_sides (the_gedge m k)) as [|s l IH]; [reflexivity|]. cbn. rewrite IH. reflexivity. Qed.
  Lemma side_there : forall k e b, (k < ni + nb)%nat -> In (e, b) (sides m k) -> wet e = true -> exists s, In s (wet_sides wet (the_gedge m k)) /\ s_e s = e /\ s_b s = b.
  Proof.
    intros k e b R H W. rewrite <- (side_pairs m k R) in H. apply in_map_iff in H as (s & E & H). injection E as E1 E2. exists s. split; [|auto]. unfold wet_sides. apply filter_In. split; [exact H|]. rewrite E1. exact W.
  Qed.

  Theorem blocks_same : exists s, dc_blocks m g q wet = Ok s /\
    (forall u, (u < length us)%nat -> unit_blocks m (UN u) (boxes u) g (qs u) (wets u) = Ok (SU u)) /\ blocks_shared m us own wet s (fun u => SU u).
  Proof.
    destruct serial_ok as (s & E & O). exists s. split; [exact E|]. split; [intros u Hu; apply units_ok; exact Hu|]. constructor.
    - intros u e Hu He. destruct (units_ok u Hu) as (_ & X). split; [|split; [|split; [|split]]].
      + intros r c. rewrite (uo_11 _ _ _ _ _ _ _ X), (bo_11 _ _ _ _ _ O). rewrite (v11_same m us cuts own Dv Cf Ft q qs Hq wets boxes Ml u Hu e He). rewrite Rplus_assoc. f_equal.
        unfold pairs. rewrite lsum_flat_map, gedges_list, lsum_map.
        rewrite (lsum_ext _ (seq 0 (ni + nb)) _ (fun k => lsum (ge_sides (the_gedge m k)) (fun t => on e (s_e t) (if wet (s_e t) then loc_11 m (the_gedge m k) t r c else 0)))).
        2:{ intros k _. rewrite lsum_map. unfold wet_sides. rewrite lsum_filter. apply lsum_ext. intros t _. cbn [fst snd]. unfold on. rewrite (Nat.eqb_sym e). destruct (wet (s_e t)), (s_e t =? e)%nat; reflexivity. }
        rewrite (sum_sides m us cuts own Dv Cf u e (fun k t => if wet (s_e t) then loc_11 m (the_gedge m k) t r c else 0) Hu He). f_equal.
        * apply lsum_ext. intros k Hk. apply lsum_ext. intros t Ht. rewrite (Hw u (s_e t) Hu); [reflexivity|]. eapply own_edge; eassumption.
        * apply lsum_ext. intros d Hd. rewrite (Hw u (de_elt d) Hu) by (eapply own_half; eassumption). rewrite (sd_e m us cuts own Dv Cf Ft u Hu d Hd). rewrite (l11_d m us cuts own Dv Cf Ft u Hu d Hd). reflexivity.
      + intros r c. rewrite (uo_12 _ _ _ _ _ _ _ X), (bo_12 _ _ _ _ _ O). eapply v12_same; eassumption.
      + intros r c. rewrite (uo_21 _ _ _ _ _ _ _ X), (bo_21 _ _ _ _ _ O). eapply v21_same; eassumption.
      + intros r c. rewrite (uo_22 _ _ _ _ _ _ _ X), (bo_22 _ _ _ _ _ O). eapply v22_same; eassumption.
      + intros r. rewrite (uo_r _ _ _ _ _ _ _ X), (bo_r _ _ _ _ _ O). eapply vr_same; eassumption.
    - intros u k e b r c Hu Hk Hs W. destruct (units_ok u Hu) as (_ & X). pose proof (edges_lt u k Hu Hk) as R.
      destruct (side_there k e b R Hs W) as (t & Ht & <- & <-).
      assert (Ht' : In t (wet_sides (wets u) (the_gedge m k))) by (rewrite (wets_sides m us cuts own Dv wet wets Hw u Hu k Hk); exact Ht).
      assert (WE : wet_edge wet (the_gedge m k) = true).
      { unfold wet_edge. apply existsb_exists. exists t. unfold wet_sides in Ht. apply filter_In in Ht. exact Ht. }
      destruct (uo_1h _ _ _ _ _ _ _ X k t Hk Ht') as (-> & ->). destruct (bo_1h _ _ _ _ _ O (the_gedge m k) t (in_gedges k R) Ht) as (-> & ->).
      destruct (uo_hh _ _ _ _ _ _ _ X k Hk) as (_ & Q); [rewrite (wets_edge m us cuts own Dv wet wets Hw u Hu k Hk); exact WE|].
      destruct (Q t Ht') as (-> & ->). destruct (bo_hh _ _ _ _ _ O (k, the_gedge m k) (in_numbered k R) WE) as (_ & Q'). destruct (Q' t Ht) as (-> & ->). cbn [snd].
      split; [eapply l1h_same; eassumption|]. split; [eapply l2h_same; eassumption|]. unfold h1_block, h2_block. rewrite (kernels_same m us cuts own Dv wet wets Hw u Hu k Hk). auto.
    - intros u k r c Hu Hk W. destruct (units_ok u Hu) as (_ & X). pose proof (edges_lt u k Hu Hk) as R. rewrite (wet_edge_sides wet k R) in W.
      destruct (uo_hh _ _ _ _ _ _ _ X k Hk) as (-> & _); [rewrite (wets_edge m us cuts own Dv wet wets Hw u Hu k Hk); exact W|].
      destruct (bo_hh _ _ _ _ _ O (k, the_gedge m k) (in_numbered k R) W) as (Q & _). cbn [fst snd] in Q. rewrite Q. unfold hh_block. rewrite (kernels_same m us cuts own Dv wet wets Hw u Hu k Hk). reflexivity.
    - intros u d r c Hu Hd W. destruct (units_ok u Hu) as (_ & X). destruct (dcase m us cuts own Dv Cf Ft u Hu d Hd) as (R & _).
      assert (W' : wets u (de_elt d) = true) by (rewrite (Hw u (de_elt d) Hu); [exact W|eapply own_half; eassumption]).
      destruct (uo_d _ _ _ _ _ _ _ X d Hd W') as (-> & -> & -> & -> & _).
      pose proof (sd_e m us cuts own Dv Cf Ft u Hu d Hd) as S1. pose proof (sd_b m us cuts own Dv Cf Ft u Hu d Hd) as S2. pose proof (sd_in m us cuts own Dv Cf Ft u Hu d Hd) as S3.
      assert (Ht : In (side_of m d) (wet_sides wet (the_gedge m (de_edge d)))) by (unfold wet_sides; apply filter_In; split; [exact S3|rewrite S1; exact W]).
      assert (WE : wet_edge wet (the_gedge m (de_edge d)) = true) by (unfold wet_edge; apply existsb_exists; exists (side_of m d); split; [exact S3|rewrite S1; exact W]).
      rewrite <- S1, <- S2. assert (R' : (de_edge d < ni + nb)%nat) by lia.
      destruct (bo_1h _ _ _ _ _ O (the_gedge m (de_edge d)) (side_of m d) (in_gedges _ R') Ht) as (-> & ->).
      destruct (bo_hh _ _ _ _ _ O (de_edge d, the_gedge m (de_edge d)) (in_numbered _ R') WE) as (_ & Q'). destruct (Q' (side_of m d) Ht) as (-> & ->). cbn [snd].
      split; [eapply l1h_d; eassumption|]. split; [eapply l2h_d; eassumption|]. split; [eapply h1_d; eassumption|eapply h2_d; eassumption].
    - intros u v d d' r c Hu Hv Hd Hd' Ee N W. destruct (units_ok u Hu) as (_ & X). destruct (units_ok v Hv) as (_ & Y). destruct (dcase m us cuts own Dv Cf Ft u Hu d Hd) as (R & T & _).
      assert (R' : (de_edge d < ni + nb)%nat) by lia.
      assert (A : across m d = de_elt d' /\ across m d' = de_elt d).
      { unfold across. fold (the_int m (de_edge d)). rewrite <- Ee. fold (the_int m (de_edge d)).
        destruct (other_half m us cuts own Dv Cf Ft u v d d' Hu Hv Hd Hd' Ee N) as [(E1 & E2 & E3 & E4)|(E1 & E2 & E3 & E4)]; rewrite E1, E3, Nat.eqb_refl;
        destruct (Nat.eqb_spec (i_ex (fI (de_edge d))) (i_in (fI (de_edge d)))) as [Q|_]; try congruence; auto. }
      destruct A as (A1 & A2).
      assert (WE : wet_edge wet (the_gedge m (de_edge d)) = true).
      { rewrite <- (wet_edge_sides wet _ R'). rewrite side_int by exact R. cbn [existsb fst]. rewrite orb_false_r.
        destruct (other_half m us cuts own Dv Cf Ft u v d d' Hu Hv Hd Hd' Ee N) as [(E1 & E2 & E3 & E4)|(E1 & E2 & E3 & E4)]; rewrite E1, E3 in W; [exact W|rewrite orb_comm; exact W]. }
      destruct (bo_hh _ _ _ _ _ O (de_edge d, the_gedge m (de_edge d)) (in_numbered _ R') WE) as (Q & _). cbn [fst snd] in Q. rewrite Q.
      assert (D1 : wet (de_elt d) = true -> d_hh (SU u) (de_edge d) r c = dhh m (boxes u) d r c /\
        (if wet (de_elt d') then 2 else 1) * dhh m (boxes u) d r c = flip own (de_edge d) (r / 2) * flip own (de_edge d) (c / 2) * hh_block m wet (the_gedge m (de_edge d)) r c).
      { intros W1. split; [|rewrite <- A1; eapply hh_d; eassumption]. destruct (uo_d _ _ _ _ _ _ _ X d Hd) as (_ & _ & _ & _ & Z); [rewrite (Hw u (de_elt d) Hu); [exact W1|eapply own_half; eassumption]|]. rewrite Z. reflexivity. }
      assert (D2 : wet (de_elt d') = true -> d_hh (SU v) (de_edge d) r c = dhh m (boxes v) d' r c /\
        (if wet (de_elt d) then 2 else 1) * dhh m (boxes v) d' r c = flip own (de_edge d) (r / 2) * flip own (de_edge d) (c / 2) * hh_block m wet (the_gedge m (de_edge d)) r c).
      { intros W1. rewrite Ee. split; [|rewrite <- A2; eapply hh_d; eassumption]. destruct (uo_d _ _ _ _ _ _ _ Y d' Hd') as (_ & _ & _ & _ & Z); [rewrite (Hw v (de_elt d') Hv); [exact W1|eapply own_half; eassumption]|]. rewrite Z. reflexivity. }
      destruct (wet (de_elt d)), (wet (de_elt d')); try discriminate W.
      + destruct (D1 eq_refl) as (-> & D3). destruct (D2 eq_refl) as (-> & D4). lra.
      + destruct (D1 eq_refl) as (-> & D3). lra.
      + destruct (D2 eq_refl) as (-> & D4). lra.
  Qed.
End Blocks.

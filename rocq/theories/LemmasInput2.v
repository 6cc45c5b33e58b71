(** Writing and reading again; the partitioner's file. *)
From Coq Require Import NArith List Bool String Ascii Lia.
From Verif Require Import Outcome ModelRun ModelInput SpecInput LemmasInput.
Import ListNotations.
Open Scope string_scope.

Lemma lookup_app : forall {A} k (l r : list (string * A)), lookup k (l ++ r)%list = match lookup k l with Some v => Some v | None => lookup k r end.
Proof. intros A k. induction l as [|[k' v] l IH]; intro r; cbn; [reflexivity|]. destruct (String.eqb k k'); [reflexivity|apply IH]. Qed.
Lemma lookup_opt : forall k k' o, lookup k (opt k' o) = if String.eqb k k' then o else None.
Proof. intros k k' [v|]; cbn; destruct (String.eqb k k'); reflexivity. Qed.
Lemma lookup_switch : forall k k' b, lookup k (switch k' b) = if String.eqb k k' then (if b then Some (Scalar "Enable") else None) else None.
Proof. intros k k' [|]; cbn; destruct (String.eqb k k'); reflexivity. Qed.
Lemma section_map : forall A l k (d : A) f, section (Map l) k d f = match lookup k l with Some n => f n | None => Ok d end.
Proof. reflexivity. Qed.
Lemma bind_ok : forall {A B} (x : outcome A) (a : A) (f : A -> outcome B), x = Ok a -> bind x f = f a.
Proof. intros A B x a f ->. reflexivity. Qed.

Section L.
  Context {F T : Type} (cv : conv F T).
  Hypothesis Hf : faithful cv.
  Lemma as_num : forall l k x, lookup k l = Some (num cv x) -> get_double cv (Map l) k = Ok x.
  Proof. intros l k x H. unfold get_double. cbn [get]. rewrite H. cbn. rewrite (f_double cv Hf). reflexivity. Qed.
  Definition good (w : swe F) : Prop := match w_friction w with NoFriction => True | Chezy c | Manning c _ => negative cv c = false end.
  Ltac look := unfold write_swe; rewrite section_map; rewrite ?lookup_app, ?lookup_opt, ?lookup_switch; cbn [lookup String.eqb Ascii.eqb Bool.eqb].
  Ltac go := repeat (cbn; rewrite ?(f_double cv Hf), ?(f_bool cv Hf), ?(f_uint cv Hf)); cbn.
  Lemma round_swe : forall w, good w -> read_swe cv (write_swe cv w) = Ok w.
  Proof.
    intros w Hg. unfold read_swe.
    assert (E1 : get_string (write_swe cv w) "name" = Ok (w_name w)) by reflexivity.
    assert (E2 : default_double cv (write_swe cv w) "gravity" (def_g cv) = Ok (w_g w)).
    { unfold default_double. apply (as_num _ "gravity"). reflexivity. }
    assert (E3 : default_double cv (write_swe cv w) "density_air" (def_air cv) = Ok (w_air w)).
    { unfold default_double. apply (as_num _ "density_air"). reflexivity. }
    assert (E4 : default_double cv (write_swe cv w) "density_water" (def_water cv) = Ok (w_water w)).
    { unfold default_double. apply (as_num _ "density_water"). reflexivity. }
    assert (E5 : section (write_swe cv w) "spherical_projection" None (read_proj cv) = Ok (w_proj w)).
    { look. destruct (w_proj w) as [[[a b] r]|]; [|reflexivity]. unfold read_proj, get_double. go. reflexivity. }
    assert (E6 : section (write_swe cv w) "initial_conditions" IcDefault (read_ic cv) = Ok (w_ic w)).
    { look. destruct (w_ic w); try reflexivity. unfold read_ic, get_double. go. reflexivity. }
    assert (E7 : section (write_swe cv w) "function_source" false read_switch = Ok (w_fsource w)).
    { look. destruct (w_fsource w); reflexivity. }
    assert (E8 : section (write_swe cv w) "bottom_friction" NoFriction (read_friction cv) = Ok (w_friction w)).
    { unfold good in Hg. look. destruct (w_friction w); try reflexivity; unfold read_friction, get_double; go; rewrite Hg; reflexivity. }
    assert (E9 : section (write_swe cv w) "meteo_forcing" None (read_meteo cv) = Ok (w_meteo w)).
    { look. destruct (w_meteo w) as [[[[a b] r] q]|]; [|reflexivity]. unfold read_meteo, get_double. go. reflexivity. }
    assert (E10 : section (write_swe cv w) "tide_potential" false read_tide = Ok (w_tide w)).
    { look. destruct (w_tide w); reflexivity. }
    assert (E11 : section (write_swe cv w) "coriolis" false read_switch = Ok (w_coriolis w)).
    { look. destruct (w_coriolis w); reflexivity. }
    assert (E12 : section (write_swe cv w) "wetting_drying" None (read_wetdry cv) = Ok (w_wetdry w)).
    { look. destruct (w_wetdry w); [|reflexivity]. unfold read_wetdry, get_double. go. reflexivity. }
    assert (E13 : section (write_swe cv w) "slope_limiting" None (read_limiter cv) = Ok (w_limiter w)).
    { look. destruct (w_limiter w) as [[a b]|]; [|reflexivity]. unfold read_limiter, get_double. go. reflexivity. }
    rewrite E1, E2, E3, E4, E5, E6, E7, E8, E9, E10, E11, E12, E13. cbn. destruct w; reflexivity.
  Qed.
  Lemma read_good : forall y w, read_swe cv y = Ok w -> good w.
  Proof.
    intros y w H. pose proof (y_friction cv y w (read_swe_says cv y w H)) as G. unfold good. destruct (w_friction w); [exact I| |].
    - apply (G c "" (or_introl eq_refl)).
    - apply (G c file (or_intror eq_refl)).
  Qed.
  Lemma read_name : forall y w, read_swe cv y = Ok w -> get_string y "name" = Ok (w_name w).
  Proof. intros y w H. unfold read_swe in H. binvs H. inversion H. reflexivity. Qed.
  Lemma round_named : forall ok y w, (do s <- get_string y "name" ; if (ok s : bool) then read_swe cv y else Throw) = Ok w ->
    (do s <- get_string (write_swe cv w) "name" ; if ok s then read_swe cv (write_swe cv w) else Throw) = Ok w.
  Proof.
    intros ok y w H. destruct (get_string y "name") as [s| |] eqn:E; cbn [bind] in H; try discriminate H. destruct (ok s) eqn:Eo; [|discriminate H].
    pose proof (read_name y w H) as Hn. rewrite E in Hn. inversion Hn; subst.
    change (get_string (write_swe cv w) "name") with (@Ok string (w_name w)). cbn [bind]. rewrite Eo. apply round_swe, (read_good y), H.
  Qed.
  Lemma round_swe_problem : forall y w, swe_problem cv y = Ok w -> swe_problem cv (write_swe cv w) = Ok w.
  Proof. intros y w. exact (round_named (fun s => (s =? "rkdg_swe") || (s =? "ehdg_swe") || (s =? "ihdg_swe")) y w). Qed.
  Lemma round_gn_problem : forall y w, gn_problem cv y = Ok w -> gn_problem cv (write_swe cv w) = Ok w.
  Proof. intros y w. exact (round_named (fun s => (s =? "ehdg_gn") || (s =? "ihdg_gn")) y w). Qed.

  (** ** The whole file. *)
  Lemma slash_app : forall s, ends_slash (s ++ "/") = true.
  Proof. induction s as [|c s IH]; [reflexivity|]. cbn. destruct (s ++ "/") eqn:E; [destruct s; discriminate E|]. exact IH. Qed.
  Lemma with_slash_idem : forall s p, with_slash s = Ok p -> with_slash p = Ok p.
  Proof.
    intros [|c s] p H; [discriminate H|]. cbn [with_slash] in H. destruct (ends_slash (String c s)) eqn:E; inversion H; subst.
    - cbn [with_slash]. rewrite E. reflexivity.
    - change (with_slash (String c (s ++ "/"))) with (@Ok string (if ends_slash (String c s ++ "/") then String c s ++ "/" else (String c s ++ "/") ++ "/")). rewrite slash_app. reflexivity.
  Qed.
  (** What is true of parameters that were read. *)
  Record derived {P : Type} (i : params F T P) : Prop := {
    d_format : (i_format i =? "Adcirc") || (i_format i =? "Meta") = true;
    d_bcis : i_bcis i = stem (i_mesh i) ++ ".bcis"; d_dbmd : i_dbmd i = stem (i_mesh i) ++ ".dbmd";
    d_run : i_run i = span cv (i_start i) (i_end i);
    d_out : match i_output i with
      | Some (p, l, a, b, c) => with_slash p = Ok p /\ forall o, In o [a; b; c] -> match o with Some (q, n) => ceil_div cv q (i_dt i) = Some n | None => True end
      | None => True end }.
  Lemma read_derived : forall {P} (prob : yaml -> outcome P) y i, read_params cv prob y = Ok i -> derived i.
  Proof.
    intros P prob y i H. unfold read_params in H. binv H. binv H. binv H. binv H. binv H.
    destruct (negb _) eqn:Ef; [discriminate H|]. binvs H. inversion H; subst. clear H. apply negb_false_iff in Ef.
    constructor; cbn [i_format i_mesh i_bcis i_dbmd i_run i_start i_end i_dt i_output]; try reflexivity; try assumption.
    - symmetry. apply (f_span cv Hf).
    - match goal with H : section y "output" _ _ = Ok ?o |- _ => apply section_spec in H; destruct H as [(n & _ & Hr & _)|(-> & _)]; [|exact I] end.
      unfold read_output in Hr. binvs Hr. inversion Hr; subst. split; [eapply with_slash_idem; eassumption|].
      assert (G : forall k r, section n k None (read_freq cv a11) = Ok r -> match r with Some (q, m) => ceil_div cv q a11 = Some m | None => True end).
      { intros k r Hk. apply read_freq_spec in Hk. destruct r as [[q m]|]; [exact (proj2 Hk)|exact I]. }
      intros o [<-|[<-|[<-|[]]]]; eapply G; eassumption.
  Qed.
  Lemma read_freq_write : forall dt q n, ceil_div cv q dt = Some n -> read_freq cv dt (Map [("frequency", num cv q)]) = Ok (Some (q, n)).
  Proof. intros dt q n H. unfold read_freq. cbn. unfold get_double. go. rewrite H. reflexivity. Qed.
  Lemma round_output : forall (dt : F) p l a b c, with_slash p = Ok p ->
    (forall o, In o [a; b; c] -> match o with Some (q, n) => ceil_div cv q dt = Some n | None => True end) ->
    read_output cv dt (Map ([("path", Scalar p)] ++
            opt "logfile" (match l with Some (s, v) => Some (Map [("name", Scalar s); ("verbose", Scalar (sb cv v))]) | None => None end) ++
            write_freq cv "vtk" a ++ write_freq cv "vtu" b ++ write_freq cv "modal" c)%list) = Ok (Some (p, l, a, b, c)).
  Proof.
    intros dt p l a b c Hp Ho. unfold read_output. rewrite (bind_ok _ tt) by reflexivity. rewrite (bind_ok _ p) by reflexivity. rewrite Hp. cbn [bind].
    rewrite (bind_ok _ l).
    2:{ rewrite section_map. unfold write_freq. rewrite !lookup_app, !lookup_opt. cbn [lookup String.eqb Ascii.eqb Bool.eqb]. destruct l as [[s v]|]; [|reflexivity]. unfold read_log, get_bool. go. reflexivity. }
    rewrite (bind_ok _ a). 2:{ pose proof (Ho a (or_introl eq_refl)) as Hk. rewrite section_map. unfold write_freq. rewrite !lookup_app, !lookup_opt. cbn [lookup String.eqb Ascii.eqb Bool.eqb]. destruct a as [[q n]|]; [apply read_freq_write, Hk|reflexivity]. }
    rewrite (bind_ok _ b). 2:{ pose proof (Ho b (or_intror (or_introl eq_refl))) as Hk. rewrite section_map. unfold write_freq. rewrite !lookup_app, !lookup_opt. cbn [lookup String.eqb Ascii.eqb Bool.eqb]. destruct b as [[q n]|]; [apply read_freq_write, Hk|reflexivity]. }
    rewrite (bind_ok _ c). 2:{ pose proof (Ho c (or_intror (or_intror (or_introl eq_refl)))) as Hk. rewrite section_map. unfold write_freq. rewrite !lookup_app, !lookup_opt. cbn [lookup String.eqb Ascii.eqb Bool.eqb]. destruct c as [[q n]|]; [apply read_freq_write, Hk|reflexivity]. }
    reflexivity.
  Qed.
  Lemma round_params : forall {P Q} (prob : yaml -> outcome Q) (wr : P -> yaml) (i : params F T P) (q : Q), derived i -> printable cv (i_start i) -> printable cv (i_end i) ->
    prob (wr (i_problem i)) = Ok q ->
    read_params cv prob (write_params cv wr i) = Ok (Params (i_order i) (i_format i) (i_mesh i) (i_bcis i) (i_dbmd i) (i_coords i) (i_start i) (i_end i) (i_run i) (i_dt i)
      (i_rkorder i) (i_stages i) (i_ramp i) q (i_balancer i) (i_output i)).
  Proof.
    intros P Q prob wr i q [D1 D2 D3 D4 D5] Hs He Hp. unfold read_params.
    set (y := write_params cv wr i).
    rewrite (bind_ok _ (Scalar (su cv (i_order i)))) by reflexivity.
    rewrite (bind_ok _ (i_order i)) by (unfold get_uint, y, write_params; cbn; rewrite (f_uint cv Hf); reflexivity).
    rewrite (bind_ok _ (Map [("format", Scalar (i_format i)); ("file_name", Scalar (i_mesh i)); ("coordinate_system", Scalar (coords_name (i_coords i)))])) by reflexivity.
    rewrite (bind_ok _ tt) by reflexivity. rewrite (bind_ok _ (i_format i)) by reflexivity. rewrite D1. cbn [negb].
    rewrite (bind_ok _ (i_mesh i)) by reflexivity. rewrite (bind_ok _ (coords_name (i_coords i))) by reflexivity.
    rewrite (bind_ok _ (i_coords i)) by (destruct (i_coords i); reflexivity).
    rewrite (bind_ok _ (Map [("start_time", Scalar (stime cv (i_start i))); ("end_time", Scalar (stime cv (i_end i))); ("dt", num cv (i_dt i));
             ("order", Scalar (su cv (i_rkorder i))); ("nstages", Scalar (su cv (i_stages i))); ("ramp_duration", num cv (i_ramp i))])) by reflexivity.
    rewrite (bind_ok _ tt) by reflexivity. rewrite (bind_ok _ (stime cv (i_start i))) by reflexivity. rewrite (bind_ok _ (stime cv (i_end i))) by reflexivity.
    rewrite (bind_ok _ (i_dt i)) by (apply as_num; reflexivity).
    rewrite (bind_ok _ (i_rkorder i)) by (unfold get_uint; go; reflexivity). rewrite (bind_ok _ (i_stages i)) by (unfold get_uint; go; reflexivity).
    rewrite (bind_ok _ (i_ramp i)) by (unfold default_double; apply (as_num _ "ramp_duration"); reflexivity).
    rewrite (bind_ok _ (wr (i_problem i))) by reflexivity. rewrite Hp. cbn [bind].
    rewrite (bind_ok _ (i_balancer i)).
    2:{ unfold y, write_params. rewrite section_map, !lookup_app, !lookup_opt. cbn [lookup String.eqb Ascii.eqb Bool.eqb]. destruct (i_balancer i) as [[s r]|]; [|reflexivity]. unfold read_balancer, get_double. go. reflexivity. }
    rewrite (bind_ok _ (i_output i)).
    2:{ unfold y, write_params. rewrite section_map, !lookup_app, !lookup_opt. cbn [lookup String.eqb Ascii.eqb Bool.eqb].
        destruct (i_output i) as [[[[[p l] a] b] c]|]; [|reflexivity]. apply round_output; apply D5. }
    unfold printable in Hs, He. rewrite Hs, He, <- D2, <- D3, D4. f_equal. f_equal. rewrite <- (f_span cv Hf). rewrite Hs, He. reflexivity.
  Qed.
  Lemma round_read : forall {P} (prob : yaml -> outcome P) (wr : P -> yaml) y i, (forall n p, prob n = Ok p -> prob (wr p) = Ok p) ->
    read_params cv prob y = Ok i -> printable cv (i_start i) -> printable cv (i_end i) -> read_params cv prob (write_params cv wr i) = Ok i.
  Proof.
    intros P prob wr y i Hw H Hs He. pose proof (read_derived prob y i H) as D.
    destruct (z_problem cv _ y i (read_params_says cv prob (fun n p => prob n = Ok p) y i (fun n p E => E) H)) as (n & _ & Hn).
    rewrite (round_params prob wr i (i_problem i) D Hs He (Hw n _ Hn)). destruct i; reflexivity.
  Qed.

  (** ** The partitioner. *)
  Lemma read_swap : forall {P} (prob : yaml -> outcome P) y i, read_params cv prob y = Ok i ->
    exists n, read_params cv any_problem y = Ok (Params (i_order i) (i_format i) (i_mesh i) (i_bcis i) (i_dbmd i) (i_coords i) (i_start i) (i_end i) (i_run i) (i_dt i)
      (i_rkorder i) (i_stages i) (i_ramp i) n (i_balancer i) (i_output i)) /\ node y ["problem"] = Some n /\ prob n = Ok (i_problem i).
  Proof.
    intros P prob y i H. unfold read_params in *.
    repeat match type of H with
    | bind ?a _ = Ok _ => let E := fresh "E" in destruct a eqn:E; cbn [bind] in H |- *; try discriminate H
    | (if negb ?b then _ else _) = _ => destruct (negb b) eqn:?; [discriminate H|]
    end.
    match goal with E : prob ?n = Ok _ |- _ => exists n end. unfold any_problem. cbn [bind].
    repeat match goal with E : section y _ _ _ = Ok _ |- _ => rewrite E; clear E; cbn [bind] end.
    inversion H; subst. cbn. repeat apply conj; try reflexivity; [|assumption].
    match goal with E : must y "problem" = Ok _ |- _ => exact (proj1 (must_spec _ _ _ E)) end.
  Qed.
  Lemma last_dot_ext : forall s, last_dot (s ++ ".meta") = Some (String.length s).
  Proof. induction s as [|c s IH]; [reflexivity|]. cbn. rewrite IH. reflexivity. Qed.
  Lemma stake_app : forall s t, stake (String.length s) (s ++ t) = s.
  Proof. induction s as [|c s IH]; intro t; [destruct t; reflexivity|]. cbn. rewrite IH. reflexivity. Qed.
  Lemma stem_ext : forall s, stem (s ++ ".meta") = s.
  Proof. intro s. unfold stem. rewrite last_dot_ext. apply stake_app. Qed.
  Lemma meta_derived : forall {P} (i : params F T P), derived i -> derived (to_meta i).
  Proof.
    intros P i [D1 D2 D3 D4 D5]. constructor; cbn [to_meta i_format i_mesh i_bcis i_dbmd i_run i_start i_end i_dt i_output]; try assumption; [reflexivity|rewrite stem_ext; assumption..].
  Qed.
  Lemma meta_same : forall {P} (i : params F T P), derived i -> same_but_mesh i (to_meta i).
  Proof.
    intros P i D. constructor; try reflexivity.
    - exists (stem (i_mesh i)). repeat apply conj; [reflexivity|apply d_bcis, D|apply d_dbmd, D].
    - split; reflexivity.
  Qed.
  Lemma par_read : forall {P} (prob : yaml -> outcome P) y i, read_params cv prob y = Ok i -> printable cv (i_start i) -> printable cv (i_end i) ->
    exists y', parallelized cv y = Ok y' /\ read_params cv prob y' = Ok (to_meta i) /\ node y' ["problem"] = node y ["problem"].
  Proof.
    intros P prob y i H Hs He. destruct (read_swap prob y i H) as (n & Hr & Hn & Hq). unfold parallelized. rewrite Hr. cbn [bind].
    eexists. split; [reflexivity|]. split.
    - pose proof (meta_derived _ (read_derived _ _ _ Hr)) as D. rewrite (round_params prob (fun n => n) _ (i_problem i) D Hs He Hq). reflexivity.
    - rewrite Hn. reflexivity.
  Qed.
  Lemma create_kind : forall y k i, create cv y = Ok (k, i) -> exists n s, node y ["problem"] = Some n /\ word n ["name"] s /\
    read_params cv (if s =? "ehdg_gn" then gn_problem cv else swe_problem cv) y = Ok i /\
    ((s = "rkdg_swe" /\ k = RKDG_SWE) \/ (s = "ehdg_swe" /\ k = EHDG_SWE) \/ (s = "ihdg_swe" /\ k = IHDG_SWE) \/ (s = "ehdg_gn" /\ k = EHDG_GN)).
  Proof.
    intros y k i H. unfold create in H. binv H. binv H. binv H. exists a, a1. split; [exact (proj1 (must_spec _ _ _ E))|]. split; [apply get_string_spec, E1|].
    destruct (a1 =? "rkdg_swe") eqn:A; [|destruct (a1 =? "ehdg_swe") eqn:B; [|destruct (a1 =? "ihdg_swe") eqn:C; [|destruct (a1 =? "ehdg_gn") eqn:D; [|discriminate H]]]];
      binv H; inversion H; subst;
      [apply String.eqb_eq in A|apply String.eqb_eq in B|apply String.eqb_eq in C|apply String.eqb_eq in D]; subst; cbn; repeat apply conj; try assumption; tauto.
  Qed.
  Lemma create_from : forall y n s k i, node y ["problem"] = Some n -> word n ["name"] s ->
    read_params cv (if s =? "ehdg_gn" then gn_problem cv else swe_problem cv) y = Ok i ->
    ((s = "rkdg_swe" /\ k = RKDG_SWE) \/ (s = "ehdg_swe" /\ k = EHDG_SWE) \/ (s = "ihdg_swe" /\ k = IHDG_SWE) \/ (s = "ehdg_gn" /\ k = EHDG_GN)) -> create cv y = Ok (k, i).
  Proof.
    intros y n s k i Hn Hs Hr Hk. unfold create. unfold must at 1. rewrite (node_get _ _ _ Hn). cbn [bind].
    assert (M : exists v, must n "name" = Ok v).
    { unfold must. destruct Hs as [Hs|[Hs _]]; unfold leaf in *; rewrite (node_get _ _ _ Hs); eexists; reflexivity. }
    destruct M as [v ->]. cbn [bind]. rewrite (proj2 (get_string_spec n "name" s) Hs). cbn [bind].
    destruct Hk as [[-> ->]|[[-> ->]|[[-> ->]|[-> ->]]]]; cbn [String.eqb Ascii.eqb Bool.eqb] in *; rewrite Hr; reflexivity.
  Qed.
  Lemma parallel_run : forall y k i, create cv y = Ok (k, i) -> printable cv (i_start i) -> printable cv (i_end i) ->
    exists y' j, parallelized cv y = Ok y' /\ create cv y' = Ok (k, j) /\ same_but_mesh i j.
  Proof.
    intros y k i H Hs He. destruct (create_kind y k i H) as (n & s & Hn & Hw & Hr & Hk). destruct (par_read _ y i Hr Hs He) as (y' & P1 & P2 & P3).
    exists y', (to_meta i). split; [exact P1|]. split; [|exact (meta_same i (read_derived _ _ _ Hr))].
    apply (create_from y' n s); [congruence|assumption..].
  Qed.
  Lemma parallel_idem : forall y i y', read_params cv any_problem y = Ok i -> printable cv (i_start i) -> printable cv (i_end i) -> parallelized cv y = Ok y' -> parallelized cv y' = Ok y'.
  Proof.
    intros y i y' H Hs He Hp. destruct (par_read _ y i H Hs He) as (y2 & P1 & P2 & P3). rewrite P1 in Hp. inversion Hp; subst.
    unfold parallelized in P1 |- *. rewrite P2. rewrite H in P1. cbn [bind] in *. rewrite <- P1. f_equal.
    unfold write_params, to_meta. cbn [i_order i_format i_mesh i_bcis i_dbmd i_coords i_start i_end i_run i_dt i_rkorder i_stages i_ramp i_problem i_balancer i_output]. rewrite stem_ext. reflexivity.
  Qed.

  (** ** Weights. *)
  Lemma any_node : forall y (i : params F T yaml), read_params cv any_problem y = Ok i -> node y ["problem"] = Some (i_problem i).
  Proof.
    intros y i H. destruct (read_swap any_problem y i H) as (n & _ & Hn & Hq). inversion Hq; subst. exact Hn.
  Qed.
  Lemma solver_weights : forall y k i, create cv y = Ok (k, i) -> wet_weights cv y = Ok false.
  Proof.
    intros y k i H. destruct (create_kind y k i H) as (n & s & Hn & Hw & Hr & Hk). destruct (read_swap _ y i Hr) as (n' & Ha & Hn' & Hq).
    rewrite Hn in Hn'. inversion Hn'; subst. unfold wet_weights. rewrite Ha. cbn [bind i_problem].
    assert (G : get n' "name" = Ok (Some (Scalar s))).
    { destruct Hw as [Hw|[Hw ->]]; [exact (node_get _ _ _ Hw)|]. exfalso. destruct Hk as [[E _]|[[E _]|[[E _]|[E _]]]]; discriminate E. }
    rewrite G. cbn [bind as_string]. destruct Hk as [[-> _]|[[-> _]|[[-> _]|[-> _]]]]; reflexivity.
  Qed.
  Lemma wet_weights_name : forall y, wet_weights cv y = Ok true -> leaf y ["problem"; "name"] "swe" /\ create cv y = Throw.
  Proof.
    intros y H. unfold wet_weights in H. binv H. binv H. destruct a0 as [v|]; [|discriminate H]. binv H. destruct (a0 =? "swe") eqn:Es; [|discriminate H].
    apply String.eqb_eq in Es. subst. pose proof (any_node y a E) as Hn. pose proof (get_node _ _ _ E0) as Hv.
    assert (V : v = Scalar "swe") by (destruct v as [|x|l]; cbn in E1; inversion E1; reflexivity). subst v.
    split; [unfold leaf; rewrite node_cons, Hn; symmetry; exact Hv|].
    unfold create. unfold must at 1. rewrite (node_get _ _ _ Hn). cbn [bind]. unfold must. rewrite E0. cbn [bind]. unfold get_string. rewrite E0. reflexivity.
  Qed.

  (** ** The globals. *)
  Lemma init_shows : forall w d, all_off d -> shows cv w d (init_globals cv w d).
  Proof.
    intros w d (A1 & A2 & A3 & A4 & A5 & A6 & A7). unfold init_globals. constructor; cbn; try (rewrite ?A1, ?A4, ?A5, ?orb_false_r; auto; fail).
    - rewrite A3. destruct (w_meteo w); split; congruence.
    - destruct (w_friction w); auto.
    - destruct (w_wetdry w); auto.
    - destruct (w_limiter w) as [[m u]|]; auto.
  Qed.
  Lemma init_idem : forall w d, init_globals cv w (init_globals cv w d) = init_globals cv w d.
  Proof.
    intros w d. unfold init_globals. cbn. f_equal; try (destruct (w_fsource w), (s_fsource d); reflexivity); try (destruct (w_tide w); reflexivity); try (destruct (w_coriolis w); reflexivity);
      try (destruct (w_friction w); reflexivity); try (destruct (w_meteo w); reflexivity); try (destruct (w_wetdry w); reflexivity); try (destruct (w_limiter w) as [[m u]|]; reflexivity).
  Qed.
End L.

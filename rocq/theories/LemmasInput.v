(** Reading an input file. *)
From Coq Require Import NArith List Bool String Ascii Lia.
From Verif Require Import Outcome ModelRun ModelInput SpecInput.
Import ListNotations.
Open Scope string_scope.

Ltac binv H := match type of H with bind ?a _ = Ok _ => let E := fresh "E" in destruct a eqn:E; cbn [bind] in H; try discriminate H end.
Ltac binvs H := repeat binv H.

Lemma lookup_find : forall {A} k (l : list (string * A)), lookup k l = match find (fun e => String.eqb k (fst e)) l with Some e => Some (snd e) | None => None end.
Proof. intros A k. induction l as [|[k' v] l IH]; cbn; [reflexivity|]. destruct (String.eqb k k'); [reflexivity|exact IH]. Qed.
Lemma node_cons : forall y k p, node y (k :: p) = match node y [k] with Some n => node n p | None => None end.
Proof. intros [|s|l] k p; cbn; try reflexivity. destruct (find _ l) as [e|]; reflexivity. Qed.
Lemma get_node : forall y k v, get y k = Ok v -> v = node y [k].
Proof. intros [|s|l] k v H; cbn in *; inversion H; try reflexivity. rewrite lookup_find. destruct (find _ l) as [e|]; reflexivity. Qed.
Lemma get_path : forall y k v p, get y k = Ok v -> node y (k :: p) = match v with Some n => node n p | None => None end.
Proof. intros y k v p H. rewrite node_cons, <- (get_node _ _ _ H). reflexivity. Qed.
Lemma node_get : forall y k n, node y [k] = Some n -> get y k = Ok (Some n).
Proof. intros [|s|l] k n H; try discriminate H. cbn in *. rewrite lookup_find. destruct (find _ l) as [e|]; [|discriminate H]. exact (f_equal Ok H). Qed.
Lemma has_key_true : forall y k, has_key y k = Ok true <-> node y [k] <> None.
Proof.
  intros y k. unfold has_key. split.
  - destruct (get y k) as [v| |] eqn:E; cbn [bind]; intro H; try discriminate H. rewrite <- (get_node _ _ _ E). destruct v; [discriminate|discriminate H].
  - destruct (node y [k]) as [n|] eqn:E; intro H; [|congruence]. rewrite (node_get _ _ _ E). reflexivity.
Qed.
Lemma has_key_false : forall y k, has_key y k = Ok false -> node y [k] = None.
Proof. intros y k. unfold has_key. destruct (get y k) as [v| |] eqn:E; cbn [bind]; intro H; try discriminate H. rewrite <- (get_node _ _ _ E). destruct v; [discriminate H|reflexivity]. Qed.

Section L.
  Context {F T : Type} (cv : conv F T).
  Notation number := (number cv). Notation whole := (whole cv). Notation truth := (truth cv).
  Lemma get_string_spec : forall y k s, get_string y k = Ok s <-> word y [k] s.
  Proof.
    intros y k s. unfold get_string, word, leaf. split.
    - destruct (get y k) as [v| |] eqn:E; cbn [bind]; intro H; try discriminate H. rewrite <- (get_node _ _ _ E).
      destruct v as [[|x|l]|]; cbn in H; inversion H; subst; [right|left]; split || reflexivity; reflexivity.
    - intros [H|[H ->]]; rewrite (node_get _ _ _ H); reflexivity.
  Qed.
  Lemma conv_spec : forall A (p : string -> option A) y k x, bind (get y k) (as_conv p) = Ok x <-> exists s, leaf y [k] s /\ p s = Some x.
  Proof.
    intros A p y k x. unfold leaf. split.
    - destruct (get y k) as [v| |] eqn:E; cbn [bind]; intro H; try discriminate H. rewrite <- (get_node _ _ _ E).
      destruct v as [[|s|l]|]; cbn in H; try discriminate H. exists s. split; [reflexivity|]. destruct (p s); inversion H; reflexivity.
    - intros (s & H & Hp). rewrite (node_get _ _ _ H). cbn. rewrite Hp. reflexivity.
  Qed.
  Lemma get_double_spec : forall y k x, get_double cv y k = Ok x <-> number y [k] x.
  Proof. intros. apply conv_spec. Qed.
  Lemma get_uint_spec : forall y k x, get_uint cv y k = Ok x <-> whole y [k] x.
  Proof. intros. apply conv_spec. Qed.
  Lemma get_bool_spec : forall y k x, get_bool cv y k = Ok x <-> truth y [k] x.
  Proof. intros. apply conv_spec. Qed.
  Lemma word_has : forall y k s, word y [k] s -> has_key y k = Ok true.
  Proof. intros y k s H. apply has_key_true. destruct H as [H|[H _]]; unfold leaf in *; rewrite H; discriminate. Qed.
  Lemma conv_has : forall A (p : string -> option A) y k x, (exists s, leaf y [k] s /\ p s = Some x) -> has_key y k = Ok true.
  Proof. intros A p y k x (s & H & _). apply (word_has y k s). left. exact H. Qed.
  Lemma number_has : forall y k x, number y [k] x -> has_key y k = Ok true.
  Proof. intros. eapply conv_has, H. Qed.
  Lemma leaf_word : forall y p s, leaf y p s -> word y p s.
  Proof. intros. left. assumption. Qed.
  Lemma word_leaf : forall y p s, word y p s -> s <> "null" -> leaf y p s.
  Proof. intros y p s [H|[_ H]] Hn; [exact H|congruence]. Qed.
  Lemma section_spec : forall A y k (d : A) f r, section y k d f = Ok r ->
    (exists n, node y [k] = Some n /\ f n = Ok r /\ forall p, node y (k :: p) = node n p) \/ (r = d /\ forall p, node y (k :: p) = None).
  Proof.
    intros A y k d f r H. unfold section in H. binv H. pose proof (get_node _ _ _ E) as Hn. destruct a as [n|].
    - left. exists n. repeat apply conj; [symmetry; exact Hn|exact H|]. intro p. exact (get_path y k (Some n) p E).
    - right. inversion H. split; [reflexivity|]. intro p. exact (get_path y k None p E).
  Qed.
  Lemma section_none : forall A y k (d : A) f, y <> Null -> (forall s, y <> Scalar s) -> node y [k] = None -> section y k d f = Ok d.
  Proof. intros A [|s|l] k d f H1 H2 H; [congruence|exfalso; exact (H2 s eq_refl)|]. unfold section. cbn in *. rewrite lookup_find. destruct (find _ l); [discriminate H|reflexivity]. Qed.
  Lemma default_double_spec : forall y k d x, default_double cv y k d = Ok x -> number_or cv d y [k] x.
  Proof.
    intros y k d x H. unfold default_double in H. binv H. destruct a.
    - left. apply get_double_spec, H.
    - right. inversion H. split; [exact (has_key_false _ _ E)|reflexivity].
  Qed.

  Ltac facts := repeat match goal with
    | H : number ?n [?k] ?x |- _ => pose proof (proj2 (get_double_spec n k x) H); pose proof (number_has n k x H); clear H
    | H : leaf ?n [?k] ?s |- _ => apply leaf_word in H
    | H : word ?n [?k] ?s |- _ => pose proof (proj2 (get_string_spec n k s) H); pose proof (word_has n k s H); clear H
    end.
  Ltac rw H := repeat (match goal with
    | E : has_key ?n ?k = _ |- _ => rewrite E in H
    | E : get_double cv ?n ?k = _ |- _ => rewrite E in H
    | E : get_string ?n ?k = _ |- _ => rewrite E in H
    end; cbn in H).
  Ltac specs := repeat match goal with
    | H : get_double cv ?n ?k = Ok ?x |- _ => apply (proj1 (get_double_spec n k x)) in H
    | H : get_string ?n ?k = Ok ?x |- _ => apply (proj1 (get_string_spec n k x)) in H
    | H : (?s =? ?t)%string = true |- _ => apply String.eqb_eq in H; subst
    end.
  Lemma read_proj_spec : forall n r, read_proj cv n = Ok r -> forall a b c, r = Some (a, b, c) <-> number n ["longitude_o"] a /\ number n ["latitude_o"] b /\ number n ["R"] c.
  Proof.
    intros n r H a b c. unfold read_proj in H. split.
    - intros ->. binv H. destruct a0; [|discriminate H]. binvs H. inversion H; subst. specs. auto.
    - intros (A & B & C). facts. unfold has_keys in H. rw H. inversion H. reflexivity.
  Qed.
  Lemma read_meteo_spec : forall n r, read_meteo cv n = Ok r -> forall t a b q, r = Some (t, a, b, q) <->
    word n ["type"] t /\ word n ["raw_input_file"] a /\ word n ["input_file"] b /\ number n ["frequency"] q.
  Proof.
    intros n r H t a b q. unfold read_meteo in H. split.
    - intros ->. binv H. destruct a0; [|discriminate H]. binvs H. inversion H; subst. specs. auto.
    - intros (A & B & C & D). facts. unfold has_keys in H. rw H. inversion H. reflexivity.
  Qed.
  Lemma read_wetdry_spec : forall n r, read_wetdry cv n = Ok r -> forall h, r = Some h <-> number n ["h_o"] h.
  Proof.
    intros n r H h. unfold read_wetdry in H. split.
    - intros ->. binv H. destruct a; [|discriminate H]. binvs H. inversion H; subst. specs. auto.
    - intros A. facts. rw H. inversion H. reflexivity.
  Qed.
  Lemma read_limiter_spec : forall n r, read_limiter cv n = Ok r -> forall m u, r = Some (m, u) <->
    leaf n ["type"] "Cockburn-Shu" /\ number n ["M"] m /\ number n ["nu"] u.
  Proof.
    intros n r H m u. unfold read_limiter in H. split.
    - intros ->. binv H. destruct a; [|discriminate H]. binv H. destruct (a =? _) eqn:Et; [|discriminate H]. binv H. destruct a0; [|discriminate H].
      binvs H. inversion H; subst. specs. repeat apply conj; try assumption. apply word_leaf; [assumption|discriminate].
    - intros (A & B & D). facts. unfold has_keys in H. rw H. inversion H. reflexivity.
  Qed.
  Lemma read_tide_spec : forall n r, read_tide n = Ok r -> r = true <-> leaf n ["type"] "Test".
  Proof.
    intros n r H. unfold read_tide in H. split.
    - intros ->. binv H. destruct a; [|discriminate H]. binv H. inversion H as [Et]. specs. apply word_leaf; [assumption|discriminate].
    - intros A. facts. rw H. inversion H. reflexivity.
  Qed.
  Lemma read_switch_spec : forall n r, read_switch n = Ok r -> r = true <-> leaf n [] "Enable".
  Proof.
    intros [|s|l] r H; cbn in H; inversion H; unfold leaf; cbn; split; intro E; try discriminate E.
    - apply String.eqb_eq in E. subst. reflexivity.
    - inversion E. reflexivity.
  Qed.
  Lemma read_constant_spec : forall n r, read_ic cv n = Ok r -> forall z x y, r = IcConstant z x y <->
    leaf n ["type"] "Constant" /\ number n ["initial_surface_height"] z /\ number n ["initial_momentum_x"] x /\ number n ["initial_momentum_y"] y.
  Proof.
    intros n r H z x y. unfold read_ic in H. split.
    - intros ->. binv H. destruct a; [|discriminate H]. binv H. destruct (a =? "Constant") eqn:Et; [|destruct (a =? "Function"); discriminate H].
      binv H. destruct a0; [|discriminate H]. binvs H. inversion H; subst. specs. repeat apply conj; try assumption. apply word_leaf; [assumption|discriminate].
    - intros (A & B & C & D). facts. unfold has_keys in H. rw H. inversion H. reflexivity.
  Qed.
  Lemma read_function_spec : forall n r, read_ic cv n = Ok r -> r = IcFunction <-> leaf n ["type"] "Function".
  Proof.
    intros n r H. unfold read_ic in H. split.
    - intros ->. binv H. destruct a; [|discriminate H]. binv H. destruct (a =? "Constant") eqn:Et.
      + binv H. destruct a0; [|discriminate H]. binvs H.
      + destruct (a =? "Function") eqn:Ef; [|discriminate H]. specs. apply word_leaf; [assumption|discriminate].
    - intros A. facts. rw H. inversion H. reflexivity.
  Qed.
  Lemma read_chezy_spec : forall n r, read_friction cv n = Ok r -> forall c, r = Chezy c <-> leaf n ["type"] "Chezy" /\ number n ["coefficient"] c.
  Proof.
    intros n r H c. unfold read_friction in H. split.
    - intros ->. binv H. destruct a; [|discriminate H]. binv H. destruct (a =? "Chezy") eqn:Et.
      + binv H. destruct a0; [|discriminate H]. binv H. destruct (negative cv a0); inversion H; subst. specs. split; [|assumption]. apply word_leaf; [assumption|discriminate].
      + destruct (a =? "Manning"); [|discriminate H]. binv H. destruct a0; [|discriminate H]. binvs H. destruct (negative cv _); discriminate H.
    - intros (A & B). facts. rw H. destruct (negative cv c); inversion H. reflexivity.
  Qed.
  Lemma read_manning_spec : forall n r, read_friction cv n = Ok r -> forall c f, r = Manning c f <->
    leaf n ["type"] "Manning" /\ number n ["coefficient"] c /\ word n ["input_file"] f.
  Proof.
    intros n r H c f. unfold read_friction in H. split.
    - intros ->. binv H. destruct a; [|discriminate H]. binv H. destruct (a =? "Chezy") eqn:Et.
      + binv H. destruct a0; [|discriminate H]. binv H. destruct (negative cv a0); discriminate H.
      + destruct (a =? "Manning") eqn:Em; [|discriminate H]. binv H. destruct a0; [|discriminate H]. binvs H. destruct (negative cv _); inversion H; subst. specs.
        repeat apply conj; try assumption. apply word_leaf; [assumption|discriminate].
    - intros (A & B & D). facts. unfold has_keys in H. rw H. destruct (negative cv c); inversion H. reflexivity.
  Qed.
  Lemma read_friction_sign : forall n r, read_friction cv n = Ok r -> forall c f, r = Chezy c \/ r = Manning c f -> negative cv c = false.
  Proof.
    intros n r H c f Hr. unfold read_friction in H. binv H. destruct a; [|inversion H; subst; destruct Hr; discriminate]. binv H. destruct (a =? "Chezy") eqn:Et.
    - binv H. destruct a0; [|inversion H; subst; destruct Hr; discriminate]. binv H. destruct (negative cv a0) eqn:En; inversion H; subst. destruct Hr as [Hr|Hr]; inversion Hr; subst; assumption.
    - destruct (a =? "Manning") eqn:Em; [|inversion H; subst; destruct Hr; discriminate]. binv H. destruct a0; [|inversion H; subst; destruct Hr; discriminate].
      binvs H. destruct (negative cv a0) eqn:En; inversion H; subst. destruct Hr as [Hr|Hr]; inversion Hr; subst; assumption.
  Qed.

  (** A section that is there is its node; one that is not there enables nothing. *)
  Lemma leaf_at : forall y k n p s, (forall p, node y (k :: p) = node n p) -> leaf y (k :: p) s <-> leaf n p s.
  Proof. intros y k n p s H. unfold leaf. rewrite H. reflexivity. Qed.
  Lemma leaf_off : forall y k p s, (forall p, node y (k :: p) = None) -> ~ leaf y (k :: p) s.
  Proof. intros y k p s H A. unfold leaf in A. rewrite H in A. discriminate A. Qed.
  Lemma number_at : forall y k n p s, (forall p, node y (k :: p) = node n p) -> number y (k :: p) s <-> number n p s.
  Proof. intros y k n p s H. unfold SpecInput.number, leaf. rewrite H. reflexivity. Qed.
  Lemma number_off : forall y k p s, (forall p, node y (k :: p) = None) -> ~ number y (k :: p) s.
  Proof. intros y k p s H (t & A & _). exact (leaf_off y k p t H A). Qed.
  Lemma word_at : forall y k n p s, (forall p, node y (k :: p) = node n p) -> word y (k :: p) s <-> word n p s.
  Proof. intros y k n p s H. unfold word, leaf. rewrite H. reflexivity. Qed.
  Lemma word_off : forall y k p s, (forall p, node y (k :: p) = None) -> ~ word y (k :: p) s.
  Proof. intros y k p s H [A|[A _]]; unfold leaf in A; rewrite H in A; discriminate A. Qed.
  Lemma truth_at : forall y k n p s, (forall p, node y (k :: p) = node n p) -> truth y (k :: p) s <-> truth n p s.
  Proof. intros y k n p s H. unfold SpecInput.truth, leaf. rewrite H. reflexivity. Qed.

  Lemma read_swe_says : forall y w, read_swe cv y = Ok w -> says cv y w.
  Proof.
    intros y w H. unfold read_swe in H. binvs H. inversion H; subst. clear H. constructor; cbn [w_name w_g w_air w_water w_proj w_ic w_fsource w_friction w_meteo w_tide w_coriolis w_wetdry w_limiter].
    - apply get_string_spec, E.
    - apply default_double_spec, E0.
    - apply default_double_spec, E1.
    - apply default_double_spec, E2.
    - apply section_spec in E3. destruct E3 as [(n & _ & Hr & Hp)|(-> & Hp)]; intros x z t.
      + rewrite !(number_at y _ n _ _ Hp). apply read_proj_spec, Hr.
      + split; [discriminate|]. intros (A & _). destruct (number_off _ _ _ _ Hp A).
    - apply section_spec in E4. destruct E4 as [(n & _ & Hr & Hp)|(-> & Hp)]; intros x z t.
      + rewrite !(number_at y _ n _ _ Hp), (leaf_at y _ n _ _ Hp). apply read_constant_spec, Hr.
      + split; [discriminate|]. intros (A & _). destruct (leaf_off _ _ _ _ Hp A).
    - apply section_spec in E4. destruct E4 as [(n & _ & Hr & Hp)|(-> & Hp)].
      + rewrite (leaf_at y _ n _ _ Hp). apply read_function_spec, Hr.
      + split; [discriminate|]. intro A. destruct (leaf_off _ _ _ _ Hp A).
    - apply section_spec in E5. destruct E5 as [(n & _ & Hr & Hp)|(-> & Hp)].
      + rewrite (leaf_at y _ n _ _ Hp). apply read_switch_spec, Hr.
      + split; [discriminate|]. intro A. destruct (leaf_off _ _ _ _ Hp A).
    - apply section_spec in E6. destruct E6 as [(n & _ & Hr & Hp)|(-> & Hp)]; intros x.
      + rewrite !(number_at y _ n _ _ Hp), (leaf_at y _ n _ _ Hp). apply read_chezy_spec, Hr.
      + split; [discriminate|]. intros (A & _). destruct (leaf_off _ _ _ _ Hp A).
    - apply section_spec in E6. destruct E6 as [(n & _ & Hr & Hp)|(-> & Hp)]; intros x f.
      + rewrite !(number_at y _ n _ _ Hp), (leaf_at y _ n _ _ Hp), (word_at y _ n _ _ Hp). apply read_manning_spec, Hr.
      + split; [discriminate|]. intros (A & _). destruct (leaf_off _ _ _ _ Hp A).
    - apply section_spec in E6. destruct E6 as [(n & _ & Hr & Hp)|(-> & Hp)]; intros x f.
      + apply (read_friction_sign n), Hr.
      + intros [A|A]; discriminate A.
    - apply section_spec in E7. destruct E7 as [(n & _ & Hr & Hp)|(-> & Hp)]; intros x z t q.
      + rewrite !(number_at y _ n _ _ Hp), !(word_at y _ n _ _ Hp). apply read_meteo_spec, Hr.
      + split; [discriminate|]. intros (A & _). destruct (word_off _ _ _ _ Hp A).
    - apply section_spec in E8. destruct E8 as [(n & _ & Hr & Hp)|(-> & Hp)].
      + rewrite (leaf_at y _ n _ _ Hp). apply read_tide_spec, Hr.
      + split; [discriminate|]. intro A. destruct (leaf_off _ _ _ _ Hp A).
    - apply section_spec in E9. destruct E9 as [(n & _ & Hr & Hp)|(-> & Hp)].
      + rewrite (leaf_at y _ n _ _ Hp). apply read_switch_spec, Hr.
      + split; [discriminate|]. intro A. destruct (leaf_off _ _ _ _ Hp A).
    - apply section_spec in E10. destruct E10 as [(n & _ & Hr & Hp)|(-> & Hp)]; intros x.
      + rewrite !(number_at y _ n _ _ Hp). apply read_wetdry_spec, Hr.
      + split; [discriminate|]. intro A. destruct (number_off _ _ _ _ Hp A).
    - apply section_spec in E11. destruct E11 as [(n & _ & Hr & Hp)|(-> & Hp)]; intros x z.
      + rewrite !(number_at y _ n _ _ Hp), (leaf_at y _ n _ _ Hp). apply read_limiter_spec, Hr.
      + split; [discriminate|]. intros (A & _). destruct (leaf_off _ _ _ _ Hp A).
  Qed.

  (** ** The rest of the file. *)
  Lemma need_ok : forall b (u : unit), need b = Ok u -> b = Ok true.
  Proof. intros b u H. unfold need in H. binv H. destruct a; [reflexivity|discriminate H]. Qed.
  Lemma must_spec : forall y k n, must y k = Ok n -> node y [k] = Some n /\ forall p, node y (k :: p) = node n p.
  Proof.
    intros y k n H. unfold must in H. binv H. destruct a as [v|]; inversion H; subst. split; [symmetry; exact (get_node _ _ _ E)|].
    intro p. exact (get_path y k (Some n) p E).
  Qed.
  Lemma slash_end : forall s, ends_slash s = true -> exists d, s = d ++ "/".
  Proof.
    induction s as [|c s IH]; [discriminate|]. intro H. destruct s as [|c' s].
    - cbn in H. apply Ascii.eqb_eq in H. subst. exists "". reflexivity.
    - destruct (IH H) as [d Hd]. exists (String c d). rewrite Hd. reflexivity.
  Qed.
  Lemma with_slash_spec : forall s p, with_slash s = Ok p -> s <> "" /\ (p = s \/ p = s ++ "/") /\ exists d, p = d ++ "/".
  Proof.
    intros [|c s] p H; [discriminate H|]. cbn [with_slash] in H. split; [discriminate|]. destruct (ends_slash (String c s)) eqn:E; inversion H; subst.
    - split; [left; reflexivity|]. exact (slash_end _ E).
    - split; [right; reflexivity|]. exists (String c s). reflexivity.
  Qed.
  Lemma read_freq_spec : forall y k dt r, section y k None (read_freq cv dt) = Ok r ->
    match r with Some (q, n) => number y [k; "frequency"] q /\ ceil_div cv q dt = Some n | None => node y [k] = None end.
  Proof.
    intros y k dt r H. apply section_spec in H. destruct H as [(n & _ & Hr & Hp)|(-> & Hp)]; [|exact (Hp [])].
    unfold read_freq in Hr. binv Hr. binv Hr. destruct (ceil_div cv a0 dt) as [m|] eqn:Ec; inversion Hr; subst.
    apply get_double_spec in E0. rewrite (number_at y k n _ _ Hp). auto.
  Qed.
  Lemma read_params_says : forall {P} (prob : yaml -> outcome P) (sub : yaml -> P -> Prop) y i, (forall n p, prob n = Ok p -> sub n p) ->
    read_params cv prob y = Ok i -> says_all cv sub y i.
  Proof.
    intros P prob sub y i Hsub H. unfold read_params in H. binv H. binv H. binv H. binv H. binv H.
    destruct (negb _) eqn:Ef; [discriminate H|]. binvs H. inversion H; subst. clear H.
    destruct (must_spec _ _ _ E1) as [Hm Hmp]. destruct (must_spec _ _ _ E7) as [Ht Htp]. destruct (must_spec _ _ _ E15) as [Hq Hqp].
    apply negb_false_iff, orb_true_iff in Ef. rewrite !String.eqb_eq in Ef.
    constructor; cbn [i_order i_format i_mesh i_coords i_start i_end i_run i_dt i_rkorder i_stages i_ramp i_problem i_balancer i_output].
    - apply get_uint_spec, E0.
    - split; [|exact Ef]. apply word_leaf; [rewrite (word_at y _ a1 _ _ Hmp); apply get_string_spec, E3|]. destruct Ef as [-> | ->]; discriminate.
    - rewrite (word_at y _ a1 _ _ Hmp). apply get_string_spec, E4.
    - apply word_leaf; [rewrite (word_at y _ a1 _ _ Hmp)|destruct a6; discriminate]. apply get_string_spec. rewrite E5. unfold read_coords in E6.
      destruct (a5 =? "cartesian") eqn:C1; [|destruct (a5 =? "polar") eqn:C2; [|destruct (a5 =? "spherical") eqn:C3; [|discriminate E6]]]; inversion E6; subst;
        [apply String.eqb_eq in C1|apply String.eqb_eq in C2|apply String.eqb_eq in C3]; subst; reflexivity.
    - eexists. eexists. repeat apply conj; [rewrite (word_at y _ a7 _ _ Htp); apply get_string_spec, E9|rewrite (word_at y _ a7 _ _ Htp); apply get_string_spec, E10|reflexivity..].
    - rewrite (number_at y _ a7 _ _ Htp). apply get_double_spec, E11.
    - split; unfold SpecInput.whole, leaf; rewrite Htp; apply get_uint_spec; [exact E12|exact E13].
    - pose proof (default_double_spec _ _ _ _ E14) as Hd. unfold number_or in *. rewrite (number_at y _ a7 _ _ Htp), Htp. exact Hd.
    - eexists. split; [exact Hq|]. apply Hsub, E16.
    - apply section_spec in E17. destruct E17 as [(n & _ & Hr & Hp)|(-> & Hp)]; [|exact (Hp [])]. unfold read_balancer in Hr. binvs Hr. inversion Hr; subst.
      rewrite (word_at y _ n _ _ Hp), (number_at y _ n _ _ Hp). split; [apply get_string_spec|apply get_double_spec]; assumption.
    - apply section_spec in E18. destruct E18 as [(n & _ & Hr & Hp)|(-> & Hp)]; [|exact (Hp [])]. unfold read_output in Hr. binvs Hr. inversion Hr; subst. clear Hr.
      split; [|split].
      + eexists. split; [rewrite (word_at y _ n _ _ Hp); apply get_string_spec; eassumption|]. apply with_slash_spec. assumption.
      + match goal with H : section n "logfile" _ _ = Ok ?l |- _ => apply section_spec in H; destruct H as [(m & _ & Hm' & Hp')|(-> & Hp')] end.
        * unfold read_log in Hm'. binvs Hm'. inversion Hm'; subst. rewrite (word_at y _ n _ _ Hp), (word_at n _ m _ _ Hp'), (truth_at y _ n _ _ Hp), (truth_at n _ m _ _ Hp').
          split; [apply get_string_spec|apply get_bool_spec]; assumption.
        * rewrite Hp. exact (Hp' []).
      + assert (G : forall k r, section n k None (read_freq cv a11) = Ok r -> output_steps cv y a11 k r).
        { intros k r Hk. apply read_freq_spec in Hk. unfold output_steps. destruct r as [[q m]|]; [rewrite (number_at y _ n _ _ Hp); exact Hk|rewrite Hp; exact Hk]. }
        split; [|split]; apply G; assumption.
  Qed.
End L.

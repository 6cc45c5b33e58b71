(** Which problem sections are read at all. *)
From Coq Require Import NArith List Bool String Ascii Lia.
From Verif Require Import Outcome ModelRun ModelInput SpecInput LemmasInput.
Import ListNotations.
Open Scope string_scope.

Section L.
  Context {F T : Type} (cv : conv F T).
  Notation num n k := (a_number cv n [k]). Notation has n k := (given n [k]). Notation wrd n k := (a_word n [k]).
  Notation nsc n := (forall s, n <> Scalar s).

  Lemma key_cases : forall n k, nsc n -> (has_key n k = Ok true /\ has n k) \/ (has_key n k = Ok false /\ ~ has n k).
  Proof.
    intros [|s|l] k H; [right; split; [reflexivity|intros X; apply X; reflexivity]|exfalso; exact (H s eq_refl)|].
    unfold given. destruct (node (Map l) [k]) as [v|] eqn:E.
    - left. split; [apply has_key_true; rewrite E; discriminate|discriminate].
    - right. split; [|intros X; apply X; reflexivity]. unfold has_key. cbn in *. rewrite lookup_find. destruct (find _ l) as [e|]; [discriminate E|reflexivity].
  Qed.
  Lemma key_scalar : forall s k, has_key (Scalar s) k = Throw.
  Proof. reflexivity. Qed.
  Lemma double_cases : forall n k, nsc n -> (exists x, get_double cv n k = Ok x /\ number cv n [k] x) \/ (get_double cv n k = Throw /\ ~ num n k).
  Proof.
    intros n k H. destruct (get_double cv n k) as [x| |] eqn:E.
    - left. exists x. split; [reflexivity|]. apply get_double_spec. exact E.
    - right. split; [reflexivity|]. intros [x X]. apply get_double_spec in X. congruence.
    - exfalso. unfold get_double in E. destruct n as [|s|l]; cbn in E; try discriminate. destruct (lookup k l) as [[|s|l']|]; cbn in E; try discriminate. destruct (pd cv s); discriminate.
  Qed.
  Lemma string_cases : forall n k, nsc n -> (exists s, get_string n k = Ok s /\ word n [k] s) \/ (get_string n k = Throw /\ ~ wrd n k).
  Proof.
    intros n k H. destruct (get_string n k) as [x| |] eqn:E.
    - left. exists x. split; [reflexivity|]. apply get_string_spec. exact E.
    - right. split; [reflexivity|]. intros [x X]. apply get_string_spec in X. congruence.
    - exfalso. unfold get_string in E. destruct n as [|s|l]; cbn in E; try discriminate. destruct (lookup k l) as [[|s|l']|]; cbn in E; discriminate.
  Qed.
  Lemma number_one : forall n k x x', number cv n [k] x -> number cv n [k] x' -> x = x'.
  Proof. intros n k x x' A B. apply get_double_spec in A, B. congruence. Qed.
  Lemma word_one : forall n k x x', word n [k] x -> word n [k] x' -> x = x'.
  Proof. intros n k x x' A B. apply get_string_spec in A, B. congruence. Qed.
  Lemma num_intro : forall n k x, number cv n [k] x -> num n k. Proof. intros n k x H. exists x. exact H. Qed.
  Lemma wrd_intro : forall n k x, word n [k] x -> wrd n k. Proof. intros n k x H. exists x. exact H. Qed.

  Ltac key n k NS := let A := fresh "K" in let B := fresh "K" in destruct (key_cases n k NS) as [[A B]|[A B]]; rewrite ?A; cbn [bind has_keys].
  Ltac dbl n k NS := let x := fresh "x" in let A := fresh "D" in let B := fresh "D" in
    destruct (double_cases n k NS) as [(x & A & B)|[A B]]; rewrite ?A; cbn [bind]; [pose proof (num_intro n k x B)|].
  Ltac str n k NS := let x := fresh "s" in let A := fresh "W" in let B := fresh "W" in
    destruct (string_cases n k NS) as [(x & A & B)|[A B]]; rewrite ?A; cbn [bind]; [pose proof (wrd_intro n k x B)|].
  Ltac fin := repeat match goal with |- forall s, _ <> Scalar s => assumption | |- _ /\ _ => split | |- ?P -> _ => intro end; first [reflexivity | assumption | contradiction | discriminate].
  Ltac yes := split; [intros _; fin|intros _; eexists; reflexivity].
  Ltac no := split; [intros [? X]; discriminate X|intros X; exfalso;
    repeat match goal with
    | H : _ /\ _ |- _ => destruct H
    | H : ?a = ?a -> _ |- _ => specialize (H eq_refl)
    | H : ?P -> _, p : ?P |- _ => specialize (H p)
    end; first [contradiction | discriminate]].

  Lemma scalar_reads : forall s, read_proj cv (Scalar s) = Throw /\ read_meteo cv (Scalar s) = Throw /\ read_tide (Scalar s) = Throw /\ read_wetdry cv (Scalar s) = Throw /\
    read_limiter cv (Scalar s) = Throw /\ read_ic cv (Scalar s) = Throw /\ read_friction cv (Scalar s) = Throw.
  Proof. intros s. repeat apply conj; reflexivity. Qed.
  Lemma kind_is : forall n k s t, word n [k] s -> t <> "null" -> (leaf n [k] t <-> (s =? t) = true).
  Proof.
    intros n k s t W N. split.
    - intros L. apply String.eqb_eq. apply (word_one n k); [exact W|left; exact L].
    - intros E. apply String.eqb_eq in E. subst. apply word_leaf; assumption.
  Qed.
  Lemma leaf_given : forall n k t, leaf n [k] t -> has n k.
  Proof. intros n k t L. unfold given. rewrite L. discriminate. Qed.
  Opaque has_key get_double get_string given a_number a_word number word leaf node.
  Lemma proj_ok : forall n, (exists r, read_proj cv n = Ok r) <-> nsc n /\
    (has n "longitude_o" -> has n "latitude_o" -> has n "R" -> num n "longitude_o" /\ num n "latitude_o" /\ num n "R").
  Proof.
    intros n. destruct n as [|s|l] eqn:En; [| destruct (scalar_reads s) as (S1 & S2 & S3 & S4 & S5 & S6 & S7); rewrite ?S1, ?S2, ?S3, ?S4, ?S5, ?S6, ?S7; split; [intros [r X]; discriminate X|intros [X _]; exfalso; exact (X s eq_refl)] |]; rewrite <- En;
    (assert (NS : nsc n) by (rewrite En; discriminate)); clear En; unfold read_proj; cbn [has_keys]; generalize "longitude_o" as k0; intros k0; generalize "latitude_o" as k1; intros k1; generalize "R" as k2; intros k2;
    (key n k0 NS; [key n k1 NS; [key n k2 NS; [dbl n k0 NS; [dbl n k1 NS; [dbl n k2 NS; [yes|no]|no]|no]|yes]|yes]|yes]).
  Qed.
  Lemma meteo_ok : forall n, (exists r, read_meteo cv n = Ok r) <-> nsc n /\
    (has n "type" -> has n "raw_input_file" -> has n "input_file" -> has n "frequency" -> wrd n "type" /\ wrd n "raw_input_file" /\ wrd n "input_file" /\ num n "frequency").
  Proof.
    intros n. destruct n as [|s|l] eqn:En; [| destruct (scalar_reads s) as (S1 & S2 & S3 & S4 & S5 & S6 & S7); rewrite ?S1, ?S2, ?S3, ?S4, ?S5, ?S6, ?S7; split; [intros [r X]; discriminate X|intros [X _]; exfalso; exact (X s eq_refl)] |]; rewrite <- En;
    (assert (NS : nsc n) by (rewrite En; discriminate)); clear En; unfold read_meteo; cbn [has_keys]; generalize "raw_input_file" as k0; intros k0; generalize "input_file" as k1; intros k1; generalize "frequency" as k2; intros k2; generalize "type" as k3; intros k3;
    (key n k3 NS; [key n k0 NS; [key n k1 NS; [key n k2 NS; [
      str n k3 NS; [str n k0 NS; [str n k1 NS; [dbl n k2 NS; [yes|no]|no]|no]|no]|yes]|yes]|yes]|yes]).
  Qed.
  Lemma tide_ok : forall n, (exists r, read_tide n = Ok r) <-> nsc n /\ (has n "type" -> wrd n "type").
  Proof.
    intros n. destruct n as [|s|l] eqn:En; [| destruct (scalar_reads s) as (S1 & S2 & S3 & S4 & S5 & S6 & S7); rewrite ?S1, ?S2, ?S3, ?S4, ?S5, ?S6, ?S7; split; [intros [r X]; discriminate X|intros [X _]; exfalso; exact (X s eq_refl)] |]; rewrite <- En;
    (assert (NS : nsc n) by (rewrite En; discriminate)); clear En; unfold read_tide; (key n "type" NS; [str n "type" NS; [yes|no]|yes]).
  Qed.
  Lemma wetdry_ok : forall n, (exists r, read_wetdry cv n = Ok r) <-> nsc n /\ (has n "h_o" -> num n "h_o").
  Proof.
    intros n. destruct n as [|s|l] eqn:En; [| destruct (scalar_reads s) as (S1 & S2 & S3 & S4 & S5 & S6 & S7); rewrite ?S1, ?S2, ?S3, ?S4, ?S5, ?S6, ?S7; split; [intros [r X]; discriminate X|intros [X _]; exfalso; exact (X s eq_refl)] |]; rewrite <- En;
    (assert (NS : nsc n) by (rewrite En; discriminate)); clear En; unfold read_wetdry; (key n "h_o" NS; [dbl n "h_o" NS; [yes|no]|yes]).
  Qed.
  Lemma limiter_ok : forall n, (exists r, read_limiter cv n = Ok r) <-> nsc n /\ (has n "type" -> wrd n "type") /\
    (leaf n ["type"] "Cockburn-Shu" -> has n "M" -> has n "nu" -> num n "M" /\ num n "nu").
  Proof.
    intros n. destruct n as [|s|l] eqn:En; [| destruct (scalar_reads s) as (S1 & S2 & S3 & S4 & S5 & S6 & S7); rewrite ?S1, ?S2, ?S3, ?S4, ?S5, ?S6, ?S7; split; [intros [r X]; discriminate X|intros [X _]; exfalso; exact (X s eq_refl)] |]; rewrite <- En;
    (assert (NS : nsc n) by (rewrite En; discriminate)); clear En; unfold read_limiter; cbn [has_keys]; generalize "nu" as k0; intros k0; generalize "M" as k1; intros k1;
    (key n "type" NS; [str n "type" NS; [|no]|
       split; [intros _; split; [exact NS|]; split; [fin|]; intros L; exfalso; apply K0, (leaf_given _ _ _ L)|intros _; eexists; reflexivity]];
     rewrite (kind_is n "type" _ "Cockburn-Shu" W0) by discriminate;
     destruct (_ =? "Cockburn-Shu"); [key n k1 NS; [key n k0 NS; [dbl n k1 NS; [dbl n k0 NS; [yes|no]|no]|yes]|yes]|
       yes]).
  Qed.
  Lemma ic_ok : forall n, (exists r, read_ic cv n = Ok r) <-> nsc n /\ (has n "type" -> wrd n "type") /\
    (leaf n ["type"] "Constant" -> has n "initial_surface_height" -> has n "initial_momentum_x" -> has n "initial_momentum_y" ->
     num n "initial_surface_height" /\ num n "initial_momentum_x" /\ num n "initial_momentum_y").
  Proof.
    intros n. destruct n as [|s|l] eqn:En; [| destruct (scalar_reads s) as (S1 & S2 & S3 & S4 & S5 & S6 & S7); rewrite ?S1, ?S2, ?S3, ?S4, ?S5, ?S6, ?S7; split; [intros [r X]; discriminate X|intros [X _]; exfalso; exact (X s eq_refl)] |]; rewrite <- En;
    (assert (NS : nsc n) by (rewrite En; discriminate)); clear En; unfold read_ic; cbn [has_keys]; generalize "initial_surface_height" as k0; intros k0; generalize "initial_momentum_x" as k1; intros k1; generalize "initial_momentum_y" as k2; intros k2;
    (key n "type" NS; [str n "type" NS; [|no]|
       split; [intros _; split; [exact NS|]; split; [fin|]; intros L; exfalso; apply K0, (leaf_given _ _ _ L)|intros _; eexists; reflexivity]];
     rewrite (kind_is n "type" _ "Constant" W0) by discriminate;
     destruct (_ =? "Constant"); [key n k0 NS; [key n k1 NS; [key n k2 NS; [
       dbl n k0 NS; [dbl n k1 NS; [dbl n k2 NS; [yes|no]|no]|no]|yes]|yes]|yes]|
       split; [intros _; split; [exact NS|]; split; [fin|discriminate]|intros _; destruct (_ =? "Function"); eexists; reflexivity]]).
  Qed.
  Definition nonneg n k := exists c, number cv n [k] c /\ negative cv c = false.
  Lemma nonneg_is : forall n k x, number cv n [k] x -> (nonneg n k <-> negative cv x = false).
  Proof. intros n k x D. split; [intros (c & A & B); rewrite (number_one n k x c D A); exact B|]. intros B. exists x. split; assumption. Qed.
  Lemma friction_ok : forall n, (exists r, read_friction cv n = Ok r) <-> nsc n /\ (has n "type" -> wrd n "type") /\
    (leaf n ["type"] "Chezy" -> has n "coefficient" -> nonneg n "coefficient") /\
    (leaf n ["type"] "Manning" -> has n "coefficient" -> has n "input_file" -> nonneg n "coefficient" /\ wrd n "input_file").
  Proof.
    intros n. destruct n as [|s|l] eqn:En; [| destruct (scalar_reads s) as (S1 & S2 & S3 & S4 & S5 & S6 & S7); rewrite ?S1, ?S2, ?S3, ?S4, ?S5, ?S6, ?S7; split; [intros [r X]; discriminate X|intros [X _]; exfalso; exact (X s eq_refl)] |]; rewrite <- En;
    (assert (NS : nsc n) by (rewrite En; discriminate)); clear En; unfold read_friction; cbn [has_keys]; generalize "coefficient" as k0; intros k0; generalize "input_file" as k1; intros k1;
    (key n "type" NS; [str n "type" NS; [|no]|
       split; [intros _; split; [exact NS|]; split; [fin|]; split; intros L; exfalso; apply K0, (leaf_given _ _ _ L)|intros _; eexists; reflexivity]];
     rewrite (kind_is n "type" _ "Chezy" W0) by discriminate; rewrite (kind_is n "type" _ "Manning" W0) by discriminate;
     match goal with |- context [?a =? "Chezy"] => destruct (String.eqb_spec a "Chezy") as [E|E]; [rewrite E; cbn [String.eqb Ascii.eqb Bool.eqb]|] end;
     [key n k0 NS; [dbl n k0 NS;
        [rewrite (nonneg_is n k0 _ D0); destruct (negative cv _);
          [no
          |yes]
        |assert (~ nonneg n k0) by (intros (c & X & _); apply D0; exists c; exact X); no]
      |yes]
     |match goal with |- context [?a =? "Manning"] => destruct (String.eqb_spec a "Manning") as [E'|E'] end;
      [key n k0 NS; [key n k1 NS; [dbl n k0 NS; [str n k1 NS;
        [rewrite (nonneg_is n k0 _ D0); destruct (negative cv _);
          [no
          |yes]
        |no]|assert (~ nonneg n k0) by (intros (c & X & _); apply D0; exists c; exact X); no]
        |yes]
        |yes]
      |yes]]).
  Qed.
  Transparent has_key get_double get_string given a_number a_word number word leaf node.
  Lemma switch_ok : forall n, (exists r, read_switch n = Ok r) <-> forall l, n <> Map l.
  Proof.
    intros [|s|l]; cbn; split; intros H; try (eexists; reflexivity); try discriminate.
    - destruct H as [? X]; discriminate X.
    - exfalso. exact (H l eq_refl).
  Qed.

  (** ** Sections of the file *)
  Lemma path_some : forall y k n, node y [k] = Some n -> forall p, node y (k :: p) = node n p.
  Proof. intros y k n H p. rewrite node_cons, H. reflexivity. Qed.
  Lemma path_none : forall y k, node y [k] = None -> forall p, node y (k :: p) = None.
  Proof. intros y k H p. rewrite node_cons, H. reflexivity. Qed.
  Lemma section_iff : forall (A : Type) l k (d : A) f, (exists r, section (Map l) k d f = Ok r) <-> match node (Map l) [k] with Some n => exists r, f n = Ok r | None => True end.
  Proof.
    intros A l k d f. unfold section. destruct (node (Map l) [k]) as [n|] eqn:E.
    - rewrite (node_get _ _ _ E). reflexivity.
    - cbn in *. rewrite lookup_find. destruct (find _ l); [discriminate E|]. split; [trivial|]. intros _. eexists. reflexivity.
  Qed.
  Lemma default_iff : forall l k d, (exists r, default_double cv (Map l) k d = Ok r) <-> (has (Map l) k -> num (Map l) k).
  Proof.
    intros l k d. set (n := Map l). assert (NS : nsc n) by discriminate. clearbody n. unfold default_double.
    key n k NS; [dbl n k NS; [yes|no]|yes].
  Qed.
  Lemma name_iff : forall y, (exists s, get_string y "name" = Ok s) <-> wrd y "name".
  Proof. intros y. split; intros [s H]; exists s; apply get_string_spec; exact H. Qed.
  Lemma nsc_some : forall y k n, node y [k] = Some n -> (no_scalar y k <-> nsc n).
  Proof. intros y k n E. unfold no_scalar, leaf. rewrite E. split; intros H s X; apply (H s); congruence. Qed.
  Lemma nsc_none : forall y k, node y [k] = None -> no_scalar y k.
  Proof. intros y k E s X. unfold leaf in X. congruence. Qed.

  Ltac sect y k L := rewrite section_iff; let E := fresh "E" in let n := fresh "n" in
    set (y' := y); change (node y [k]) with (node y' [k]); clearbody y'; destruct (node y' [k]) as [n|] eqn:E;
    [rewrite L, (nsc_some _ _ _ E); unfold nonneg, given, a_number, a_word, number, word, leaf; rewrite ?(path_some _ _ _ E); reflexivity
    |split; [intros _; split; [exact (nsc_none _ _ E)|]|intros _; exact I];
     unfold given, a_number, a_word, number, word, leaf; rewrite ?(path_none _ _ E); repeat apply conj; intros; exfalso; congruence].
  Notation has2 y a b := (given y [a; b]). Notation num2 y a b := (a_number cv y [a; b]). Notation wrd2 y a b := (a_word y [a; b]).
  Lemma sec_proj : forall l d, let y := Map l in let k := "spherical_projection" in (exists r, section y k d (read_proj cv) = Ok r) <-> no_scalar y k /\
    (has2 y k "longitude_o" -> has2 y k "latitude_o" -> has2 y k "R" -> num2 y k "longitude_o" /\ num2 y k "latitude_o" /\ num2 y k "R").
  Proof. intros l d y k. unfold y. sect (Map l) k proj_ok. Qed.
  Lemma sec_ic : forall l d, let y := Map l in let k := "initial_conditions" in (exists r, section y k d (read_ic cv) = Ok r) <-> no_scalar y k /\ (has2 y k "type" -> wrd2 y k "type") /\
    (leaf y [k; "type"] "Constant" -> has2 y k "initial_surface_height" -> has2 y k "initial_momentum_x" -> has2 y k "initial_momentum_y" ->
     num2 y k "initial_surface_height" /\ num2 y k "initial_momentum_x" /\ num2 y k "initial_momentum_y").
  Proof. intros l d y k. unfold y. sect (Map l) k ic_ok. Qed.
  Lemma sec_friction : forall l d, let y := Map l in let k := "bottom_friction" in (exists r, section y k d (read_friction cv) = Ok r) <-> no_scalar y k /\ (has2 y k "type" -> wrd2 y k "type") /\
    (leaf y [k; "type"] "Chezy" -> has2 y k "coefficient" -> exists c, number cv y [k; "coefficient"] c /\ negative cv c = false) /\
    (leaf y [k; "type"] "Manning" -> has2 y k "coefficient" -> has2 y k "input_file" -> (exists c, number cv y [k; "coefficient"] c /\ negative cv c = false) /\ wrd2 y k "input_file").
  Proof. intros l d y k. unfold y. sect (Map l) k friction_ok. Qed.
  Lemma sec_meteo : forall l d, let y := Map l in let k := "meteo_forcing" in (exists r, section y k d (read_meteo cv) = Ok r) <-> no_scalar y k /\
    (has2 y k "type" -> has2 y k "raw_input_file" -> has2 y k "input_file" -> has2 y k "frequency" -> wrd2 y k "type" /\ wrd2 y k "raw_input_file" /\ wrd2 y k "input_file" /\ num2 y k "frequency").
  Proof. intros l d y k. unfold y. sect (Map l) k meteo_ok. Qed.
  Lemma sec_tide : forall l d, let y := Map l in let k := "tide_potential" in (exists r, section y k d read_tide = Ok r) <-> no_scalar y k /\ (has2 y k "type" -> wrd2 y k "type").
  Proof. intros l d y k. unfold y. sect (Map l) k tide_ok. Qed.
  Lemma sec_wetdry : forall l d, let y := Map l in let k := "wetting_drying" in (exists r, section y k d (read_wetdry cv) = Ok r) <-> no_scalar y k /\ (has2 y k "h_o" -> num2 y k "h_o").
  Proof. intros l d y k. unfold y. sect (Map l) k wetdry_ok. Qed.
  Lemma sec_limiter : forall l d, let y := Map l in let k := "slope_limiting" in (exists r, section y k d (read_limiter cv) = Ok r) <-> no_scalar y k /\ (has2 y k "type" -> wrd2 y k "type") /\
    (leaf y [k; "type"] "Cockburn-Shu" -> has2 y k "M" -> has2 y k "nu" -> num2 y k "M" /\ num2 y k "nu").
  Proof. intros l d y k. unfold y. sect (Map l) k limiter_ok. Qed.
  Lemma sec_switch : forall l k d, (exists r, section (Map l) k d read_switch = Ok r) <-> no_map (Map l) k.
  Proof.
    intros l k d. rewrite section_iff. unfold no_map. destruct (node (Map l) [k]) as [n|].
    - rewrite switch_ok. split; intros H x X; apply (H x); congruence.
    - split; [discriminate|trivial].
  Qed.

  Lemma all2 : forall (G : string -> Prop) a b, (forall k, In k [a; b] -> G k) <-> G a /\ G b.
  Proof. intros G a b. split; [intros H; split; apply H; cbn; tauto|]. intros [A B] k [<-|[<-|[]]]; assumption. Qed.
  Lemma all3 : forall (G : string -> Prop) a b c, (forall k, In k [a; b; c] -> G k) <-> G a /\ G b /\ G c.
  Proof. intros G a b c. split; [intros H; repeat apply conj; apply H; cbn; tauto|]. intros (A & B & C) k [<-|[<-|[<-|[]]]]; assumption. Qed.
  Lemma all4 : forall (G : string -> Prop) a b c d, (forall k, In k [a; b; c; d] -> G k) <-> G a /\ G b /\ G c /\ G d.
  Proof. intros G a b c d. split; [intros H; repeat apply conj; apply H; cbn; tauto|]. intros (A & B & C & D) k [<-|[<-|[<-|[<-|[]]]]]; assumption. Qed.

  Lemma read_swe_iff : forall y, (exists w, read_swe cv y = Ok w) <-> readable cv y.
  Proof.
    intros y. destruct y as [|s|l].
    1,2: split; [intros [w H]; discriminate H|intros H; destruct (r_name _ _ H) as [s' [X|[X _]]]; discriminate X].
    set (y := Map l).
    assert (R : (exists w, read_swe cv y = Ok w) <->
      (exists s, get_string y "name" = Ok s) /\ (exists r, default_double cv y "gravity" (def_g cv) = Ok r) /\ (exists r, default_double cv y "density_air" (def_air cv) = Ok r) /\
      (exists r, default_double cv y "density_water" (def_water cv) = Ok r) /\ (exists r, section y "spherical_projection" None (read_proj cv) = Ok r) /\
      (exists r, section y "initial_conditions" IcDefault (read_ic cv) = Ok r) /\ (exists r, section y "function_source" false read_switch = Ok r) /\
      (exists r, section y "bottom_friction" NoFriction (read_friction cv) = Ok r) /\ (exists r, section y "meteo_forcing" None (read_meteo cv) = Ok r) /\
      (exists r, section y "tide_potential" false read_tide = Ok r) /\ (exists r, section y "coriolis" false read_switch = Ok r) /\
      (exists r, section y "wetting_drying" None (read_wetdry cv) = Ok r) /\ (exists r, section y "slope_limiting" None (read_limiter cv) = Ok r)).
    { split.
      - intros [w H]. unfold read_swe in H. binvs H. repeat apply conj; eexists; first [eassumption | reflexivity].
      - intros ((? & E1) & (? & E2) & (? & E3) & (? & E4) & (? & E5) & (? & E6) & (? & E7) & (? & E8) & (? & E9) & (? & E10) & (? & E11) & (? & E12) & (? & E13)).
        unfold read_swe. rewrite E1. cbn [bind]. rewrite E2. cbn [bind]. rewrite E3. cbn [bind]. rewrite E4. cbn [bind]. rewrite E5. cbn [bind]. rewrite E6. cbn [bind]. rewrite E7. cbn [bind].
        rewrite E8. cbn [bind]. rewrite E9. cbn [bind]. rewrite E10. cbn [bind]. rewrite E11. cbn [bind]. rewrite E12. cbn [bind]. rewrite E13. cbn [bind]. eexists. reflexivity. }
    rewrite R. clear R. unfold y. rewrite name_iff, !default_iff, sec_proj, sec_ic, sec_friction, sec_meteo, sec_tide, sec_wetdry, sec_limiter, !sec_switch. fold y.
    split.
    - intros (A1 & A2 & A3 & A4 & (A5 & B5) & (A6 & B6 & C6) & A7 & (A8 & B8 & C8 & D8) & (A9 & B9) & (A10 & B10) & A11 & (A12 & B12) & (A13 & B13 & C13)).
      constructor; try assumption.
      + intros k Hk. cbn in Hk. repeat destruct Hk as [<-|Hk]; try assumption. contradiction.
      + apply all2. split; assumption.
      + intros G. apply all3 in G as (G1 & G2 & G3). apply (all3 (fun k => a_number cv y ["spherical_projection"; k])). apply B5; assumption.
      + intros L G. apply all3 in G as (G1 & G2 & G3). apply (all3 (fun k => a_number cv y ["initial_conditions"; k])). apply C6; assumption.
      + intros G. apply all4 in G as (G1 & G2 & G3 & G4). destruct (B9 G1 G2 G3 G4) as (X1 & X2 & X3 & X4). split; [|exact X4]. apply (all3 (fun k => a_word y ["meteo_forcing"; k])). repeat apply conj; assumption.
    - intros [N G A W S Sw P Ic Ct Fr Ch Mn Me Ti Wd Li Co].
      pose proof (proj1 (all2 _ _ _) Sw) as [Sw1 Sw2].
      repeat match goal with |- _ /\ _ => split end; try assumption; try (apply S; cbn; tauto).
      + intros G1 G2 G3. apply (all3 (fun k => a_number cv y ["spherical_projection"; k])). apply P. apply (all3 (fun k => given y ["spherical_projection"; k])). repeat apply conj; assumption.
      + intros L G1 G2 G3. apply (all3 (fun k => a_number cv y ["initial_conditions"; k])). apply (Ct L). apply (all3 (fun k => given y ["initial_conditions"; k])). repeat apply conj; assumption.
      + intros G1 G2 G3 G4. destruct Me as [X1 X2]; [apply (all4 (fun k => given y ["meteo_forcing"; k])); repeat apply conj; assumption|].
        apply (all3 (fun k => a_word y ["meteo_forcing"; k])) in X1 as (Y1 & Y2 & Y3). repeat apply conj; assumption.
  Qed.

  Lemma bind_defined : forall (A B : Type) (a : outcome A) (f : A -> outcome B), a <> UB -> (forall x, f x <> UB) -> bind a f <> UB.
  Proof. intros A B [x| |] f H1 H2; cbn; [apply H2|discriminate|congruence]. Qed.
  Lemma get_defined : forall y k, get y k <> UB.
  Proof. intros [|s|l] k; discriminate. Qed.
  Lemma conv_defined : forall (A : Type) (p : string -> option A) v, as_conv p v <> UB.
  Proof. intros A p [[|s|l]|]; cbn; try discriminate. destruct (p s); discriminate. Qed.
  Lemma string_defined : forall v, as_string v <> UB.
  Proof. intros [[|s|l]|]; discriminate. Qed.
  Ltac defined := repeat match goal with
    | |- bind _ _ <> UB => apply bind_defined; [|intro]
    | |- get _ _ <> UB => apply get_defined
    | |- as_conv _ _ <> UB => apply conv_defined
    | |- as_string _ <> UB => apply string_defined
    | |- (if ?b then _ else _) <> UB => destruct b
    | |- match ?v with _ => _ end <> UB => destruct v
    | |- Ok _ <> UB => discriminate
    | |- Throw <> UB => discriminate
    | |- _ => progress unfold has_key, get_string, get_double, default_double, section
    end.
  Lemma keys_defined : forall y ks, has_keys y ks <> UB.
  Proof. intros y. induction ks as [|k ks IH]; cbn [has_keys]; defined. exact IH. Qed.
  Lemma read_swe_defined : forall y, read_swe cv y <> UB.
  Proof.
    intros y. unfold read_swe, read_proj, read_ic, read_switch, read_friction, read_meteo, read_tide, read_wetdry, read_limiter. defined; apply keys_defined.
  Qed.
  Lemma read_swe_exact : forall y, (readable cv y -> exists w, read_swe cv y = Ok w) /\ (~ readable cv y -> read_swe cv y = Throw).
  Proof.
    intros y. split; [apply read_swe_iff|]. intros H. destruct (read_swe cv y) as [w| |] eqn:E; [|reflexivity|].
    - exfalso. apply H, read_swe_iff. exists w. exact E.
    - exfalso. exact (read_swe_defined y E).
  Qed.
End L.

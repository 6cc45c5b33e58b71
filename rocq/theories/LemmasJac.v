From Coq Require Import Reals Lra Lia List Arith.
From Coquelicot Require Import Coquelicot.
From Verif Require Import Num ModelSWE SpecSWE LemmasSWE ModelJac SpecJac.
Open Scope R_scope.

Lemma sqrt_gh : forall g h, 0 < g -> 0 < h -> sqrt (g / h) = sqrt (g * h) / h.
Proof.
  intros g h Hg Hh. replace (g / h) with (g * h / (h * h)) by (field; lra).
  rewrite sqrt_div_alt by (apply Rmult_lt_0_compat; assumption). rewrite sqrt_square by lra. reflexivity.
Qed.

(** Abstract away the square root: c > 0 with c * c = g * h. *)
Lemma c_facts : forall g h, 0 < g -> 0 < h -> 0 < sqrt (g * h) /\ sqrt (g * h) * sqrt (g * h) = g * h.
Proof.
  intros g h Hg Hh. assert (0 < g * h) by (apply Rmult_lt_0_compat; assumption).
  split; [apply sqrt_lt_R0; assumption | apply sqrt_sqrt; lra].
Qed.

Lemma mat3_eq : forall A B, m00 A = m00 B -> m01 A = m01 B -> m02 A = m02 B -> m10 A = m10 B -> m11 A = m11 B ->
  m12 A = m12 B -> m20 A = m20 B -> m21 A = m21 B -> m22 A = m22 B -> A = B.
Proof. intros [] [] ; cbn; intros; subst; reflexivity. Qed.

Ltac conj_split := repeat match goal with |- _ /\ _ => split end.
(** Derivative of an explicit expression; side conditions are nonzero depths. *)
Ltac der := auto_derive; [repeat match goal with |- _ /\ _ => split end; try assumption; trivial | try (field; assumption); try ring].

(** ** C04 *)
Lemma flux_jacobian_x : forall g b s z x y, z + b <> 0 ->
  jacobian (fun z x y => fst (get_F g (state z x y) (auxil z b s))) z x y (fst (get_dF_dq g (state z x y) (auxil z b s))).
Proof.
  intros g b s z x y H. unfold jacobian, vderive, get_F, get_dF_dq, state, auxil. num_R. cbn [fst snd ze qx qy hh bath m00 m01 m02 m10 m11 m12 m20 m21 m22].
  conj_split; der.
Qed.
Lemma flux_jacobian_y : forall g b s z x y, z + b <> 0 ->
  jacobian (fun z x y => snd (get_F g (state z x y) (auxil z b s))) z x y (snd (get_dF_dq g (state z x y) (auxil z b s))).
Proof.
  intros g b s z x y H. unfold jacobian, vderive, get_F, get_dF_dq, state, auxil. num_R. cbn [fst snd ze qx qy hh bath m00 m01 m02 m10 m11 m12 m20 m21 m22].
  conj_split; der.
Qed.
Lemma flux_jacobian_n : forall g b s n z x y, z + b <> 0 ->
  jacobian (fun z x y => get_Fn g (state z x y) (auxil z b s) n) z x y (get_dFn_dq g (state z x y) (auxil z b s) n).
Proof.
  intros g b s n z x y H. unfold jacobian, vderive, get_Fn, get_dFn_dq, state, auxil. num_R. cbn [fst snd ze qx qy hh bath m00 m01 m02 m10 m11 m12 m20 m21 m22].
  conj_split; der.
Qed.
Lemma dFn_combination : forall g q a n,
  get_dFn_dq g q a n = madd (mscale (nx n) (fst (get_dF_dq g q a))) (mscale (ny n) (snd (get_dF_dq g q a))).
Proof. intros. apply mat3_eq; cbn; ring. Qed.
Lemma Fn_combination : forall g q a n,
  get_Fn g q a n = vadd (vscale (nx n) (fst (get_F g q a))) (vscale (ny n) (snd (get_F g q a))).
Proof. intros. apply vec3_eq; unfold get_Fn, get_F, vadd, vscale; num_R; cbn [fst snd ze qx qy hh bath nx ny]; unfold Rdiv; ring. Qed.

(** ** C05 *)
Ltac abs_c g h Hg Hh :=
  destruct (c_facts g h Hg Hh) as [?Hc ?Hcc]; rewrite ?(sqrt_gh g h Hg Hh) in *;
  generalize dependent (sqrt (g * h)); intros.

Lemma inverse_lr : forall g h u v x y, 0 < g -> 0 < h -> x * x + y * y = 1 ->
  mmul (invR g h u v x y) (eigR g h u v x y) = ident /\ mmul (eigR g h u v x y) (invR g h u v x y) = ident.
Proof.
  intros g h u v x y Hg Hh Hn. unfold invR, eigR. destruct (c_facts g h Hg Hh) as [Hc Hcc].
  set (c := sqrt (g * h)) in *. clearbody c.
  assert (Hy : y * y = 1 - x * x) by lra.
  split; apply mat3_eq; cbn; first [field [Hy]; lra | ring [Hy]].
Qed.

Lemma get_A_is_dFn : forall g q a n, 0 < g -> 0 < hh a -> unit2 n -> get_A g q a n = get_dFn_dq g q a n.
Proof.
  intros g q a n Hg Hh Hn. unfold get_A, at_point, conj3, eigR, eigL, invR, get_dFn_dq, unit2 in *.
  destruct (c_facts g (hh a) Hg Hh) as [Hc Hcc]. set (c := sqrt (g * hh a)) in *. clearbody c.
  set (u := qx q / hh a). set (v := qy q / hh a). clearbody u v.
  rewrite <- Hcc. clear Hcc Hh Hg.
  generalize dependent (nx n). generalize dependent (ny n). intros y x Hn.
  assert (Hy : y * y = 1 - x * x) by lra.
  apply mat3_eq; cbn; first [field [Hy]; lra | ring [Hy]].
Qed.

Lemma mmul_assoc : forall A B C, mmul (mmul A B) C = mmul A (mmul B C).
Proof. intros. apply mat3_eq; cbn; ring. Qed.
Lemma mmul_ident_r : forall A, mmul A ident = A.
Proof. intros. apply mat3_eq; cbn; ring. Qed.
Lemma mmul_ident_l : forall A, mmul ident A = A.
Proof. intros. apply mat3_eq; cbn; ring. Qed.

(** Conjugation is multiplicative. *)
Lemma conj3_mul : forall g D E h u v x y, 0 < g -> 0 < h -> x * x + y * y = 1 ->
  mmul (conj3 g D h u v x y) (conj3 g E h u v x y) =
  conj3 g (fun h u v x y => mmul (D h u v x y) (E h u v x y)) h u v x y.
Proof.
  intros g D E h u v x y Hg Hh Hn. destruct (inverse_lr g h u v x y Hg Hh Hn) as [I _]. unfold conj3.
  rewrite !mmul_assoc. f_equal. f_equal. rewrite <- (mmul_assoc (invR g h u v x y)), I, mmul_ident_l. reflexivity.
Qed.

Lemma absL_sq : forall g h u v x y, mmul (absL g h u v x y) (absL g h u v x y) = mmul (eigL g h u v x y) (eigL g h u v x y).
Proof.
  intros. assert (RR : forall t, Rabs t * Rabs t = t * t) by (intros t; rewrite <- Rabs_mult; apply Rabs_pos_eq, Rle_0_sqr).
  apply mat3_eq; cbn; rewrite ?RR; ring.
Qed.

Lemma absA_sq : forall g q a n, 0 < g -> 0 < hh a -> unit2 n ->
  mmul (get_absA g q a n) (get_absA g q a n) = mmul (get_A g q a n) (get_A g q a n).
Proof.
  intros g q a n Hg Hh Hn. unfold get_absA, get_A, at_point. rewrite !conj3_mul by assumption. unfold conj3. rewrite absL_sq. reflexivity.
Qed.

Lemma A_parts : forall g q a n, madd (get_Aplus g q a n) (get_Aminus g q a n) = get_A g q a n /\
  msub (get_Aplus g q a n) (get_Aminus g q a n) = get_absA g q a n.
Proof.
  intros g q a n. unfold get_Aplus, get_Aminus, get_A, get_absA, at_point, halfconj3, conj3, plus5, minus5.
  generalize (eigR g (hh a) (qx q / hh a) (qy q / hh a) (nx n) (ny n)) as A.
  generalize (eigL g (hh a) (qx q / hh a) (qy q / hh a) (nx n) (ny n)) as B.
  generalize (absL g (hh a) (qx q / hh a) (qy q / hh a) (nx n) (ny n)) as C.
  generalize (invR g (hh a) (qx q / hh a) (qy q / hh a) (nx n) (ny n)) as D.
  intros D C B A. split; apply mat3_eq; cbn; field.
Qed.

(** Eigenvalues of a conjugated diagonal matrix. *)
Lemma mapply_mul : forall A B w, mapply (mmul A B) w = mapply A (mapply B w).
Proof. intros A B [[a b] c]. cbn. f_equal; [f_equal|]; ring. Qed.
Lemma mapply_scale : forall A s w, mapply A (wscale s w) = wscale s (mapply A w).
Proof. intros A s [[a b] c]. cbn. f_equal; [f_equal|]; ring. Qed.
Lemma mapply_ident : forall w, mapply ident w = w.
Proof. intros [[a b] c]. cbn. f_equal; [f_equal|]; ring. Qed.

Lemma conj_eigen : forall P Q d0 d1 d2 l, mmul Q P = ident -> mmul P Q = ident ->
  (eigenvalue (mmul (mmul P (mdiag d0 d1 d2)) Q) l <-> l = d0 \/ l = d1 \/ l = d2).
Proof.
  intros P Q d0 d1 d2 l QP PQ. split.
  - intros (w & Nw & E). rewrite mmul_assoc, !mapply_mul in E.
    set (y := mapply Q w) in *.
    assert (Ey : mapply (mdiag d0 d1 d2) y = wscale l y).
    { rewrite <- (mapply_ident (mapply (mdiag d0 d1 d2) y)), <- QP, mapply_mul.
      rewrite E, mapply_scale. reflexivity. }
    assert (Ny : y <> (0, 0, 0)).
    { intros Z. apply Nw. rewrite <- (mapply_ident w), <- PQ, mapply_mul. fold y. rewrite Z. cbn. f_equal; [f_equal|]; ring. }
    clearbody y. destruct y as [[a b] c]. cbn in Ey. injection Ey as E0 E1 E2.
    destruct (Req_dec a 0) as [Za|Za]; [|left; apply Rmult_eq_reg_r with a; [lra | assumption]].
    destruct (Req_dec b 0) as [Zb|Zb]; [|right; left; apply Rmult_eq_reg_r with b; [lra | assumption]].
    destruct (Req_dec c 0) as [Zc|Zc]; [|right; right; apply Rmult_eq_reg_r with c; [lra | assumption]].
    subst. congruence.
  - assert (G : forall w, w <> (0, 0, 0) -> mapply (mdiag d0 d1 d2) w = wscale l w ->
      eigenvalue (mmul (mmul P (mdiag d0 d1 d2)) Q) l).
    { intros w Nw E. exists (mapply P w). split.
      - intros Z. apply Nw. rewrite <- (mapply_ident w), <- QP, mapply_mul, Z. cbn. f_equal; [f_equal|]; ring.
      - rewrite !mapply_mul, <- (mapply_mul Q P), QP, mapply_ident, E, mapply_scale. reflexivity. }
    intros [->|[->| ->]].
    + apply (G (1, 0, 0)); [intros [=]; lra | cbn; f_equal; [f_equal|]; ring].
    + apply (G (0, 1, 0)); [intros [=]; lra | cbn; f_equal; [f_equal|]; ring].
    + apply (G (0, 0, 1)); [intros [=]; lra | cbn; f_equal; [f_equal|]; ring].
Qed.

Definition un_of (q : vec3 R) (a : aux3 R) (n : vec2 R) : R := qx q / hh a * nx n + qy q / hh a * ny n.

Lemma dFn_eigenvalues : forall g q a n l, 0 < g -> 0 < hh a -> unit2 n ->
  (eigenvalue (get_dFn_dq g q a n) l <->
   l = un_of q a n - sqrt (g * hh a) \/ l = un_of q a n \/ l = un_of q a n + sqrt (g * hh a)).
Proof.
  intros g q a n l Hg Hh Hn. rewrite <- get_A_is_dFn by assumption.
  destruct (inverse_lr g (hh a) (qx q / hh a) (qy q / hh a) (nx n) (ny n) Hg Hh Hn) as [I1 I2].
  apply (conj_eigen _ _ _ _ _ l I1 I2).
Qed.

Lemma absA_eigenvalues : forall g q a n l, 0 < g -> 0 < hh a -> unit2 n ->
  eigenvalue (get_absA g q a n) l -> 0 <= l.
Proof.
  intros g q a n l Hg Hh Hn E.
  destruct (inverse_lr g (hh a) (qx q / hh a) (qy q / hh a) (nx n) (ny n) Hg Hh Hn) as [I1 I2].
  apply (conj_eigen _ _ _ _ _ l I1 I2) in E. destruct E as [->|[->| ->]]; apply Rabs_pos.
Qed.

Lemma halfconj_conj : forall g D h u v x y, halfconj3 g D h u v x y = conj3 g (half5 D) h u v x y.
Proof. intros. unfold halfconj3, conj3, half5. apply mat3_eq; cbn; ring. Qed.

Lemma Aplus_eigenvalues : forall g q a n l, 0 < g -> 0 < hh a -> unit2 n ->
  (eigenvalue (get_Aplus g q a n) l -> 0 <= l) /\ (eigenvalue (get_Aminus g q a n) l -> l <= 0).
Proof.
  intros g q a n l Hg Hh Hn. unfold get_Aplus, get_Aminus, at_point. rewrite !halfconj_conj.
  destruct (inverse_lr g (hh a) (qx q / hh a) (qy q / hh a) (nx n) (ny n) Hg Hh Hn) as [I1 I2].
  unfold conj3.
  assert (Z : forall A, m01 A = 0 -> m02 A = 0 -> m10 A = 0 -> m12 A = 0 -> m20 A = 0 -> m21 A = 0 -> A = mdiag (m00 A) (m11 A) (m22 A))
    by (intros; apply mat3_eq; first [assumption | reflexivity]).
  split; intros E.
  - rewrite (Z (half5 (plus5 (eigL g) (absL g)) (hh a) (qx q / hh a) (qy q / hh a) (nx n) (ny n))) in E by (cbn; ring).
    apply (conj_eigen _ _ _ _ _ l I1 I2) in E. cbn in E.
    destruct E as [->|[->| ->]];
    match goal with |- context [Rabs ?t] => pose proof (Rle_abs (- t)) as RA; rewrite Rabs_Ropp in RA end; lra.
  - rewrite (Z (half5 (minus5 (eigL g) (absL g)) (hh a) (qx q / hh a) (qy q / hh a) (nx n) (ny n))) in E by (cbn; ring).
    apply (conj_eigen _ _ _ _ _ l I1 I2) in E. cbn in E.
    destruct E as [->|[->| ->]];
    match goal with |- context [Rabs ?t] => pose proof (Rle_abs t) as RA end; lra.
Qed.

(** Product rule for matrices. *)
Lemma der_add : forall (f g : R -> R) (x a b : R), is_derive f x a -> is_derive g x b -> is_derive (fun t => f t + g t) x (a + b).
Proof. intros. apply (is_derive_plus f g x a b); assumption. Qed.
Lemma der_mul : forall (f g : R -> R) (x a b : R), is_derive f x a -> is_derive g x b -> is_derive (fun t => f t * g t) x (a * g x + f x * b).
Proof. intros f g x a b Hf Hg. apply (is_derive_mult f g x a b Hf Hg). intros; apply Rmult_comm. Qed.
Lemma der_eq : forall (f : R -> R) (x a b : R), is_derive f x a -> a = b -> is_derive f x b.
Proof. intros f x a b H <-. exact H. Qed.

Lemma mderive_mul : forall A B t DA DB, mderive A t DA -> mderive B t DB ->
  mderive (fun s => mmul (A s) (B s)) t (madd (mmul DA (B t)) (mmul (A t) DB)).
Proof.
  intros A B t DA DB (a0 & a1 & a2 & a3 & a4 & a5 & a6 & a7 & a8) (b0 & b1 & b2 & b3 & b4 & b5 & b6 & b7 & b8).
  unfold mderive, mmul, madd. cbn [m00 m01 m02 m10 m11 m12 m20 m21 m22].
  conj_split; (eapply der_eq; [apply der_add; [apply der_add|]; apply der_mul; eassumption | cbn; ring]).
Qed.
Lemma mderive_add : forall A B t DA DB, mderive A t DA -> mderive B t DB ->
  mderive (fun s => madd (A s) (B s)) t (madd DA DB).
Proof.
  intros A B t DA DB (a0 & a1 & a2 & a3 & a4 & a5 & a6 & a7 & a8) (b0 & b1 & b2 & b3 & b4 & b5 & b6 & b7 & b8).
  unfold mderive, madd. cbn [m00 m01 m02 m10 m11 m12 m20 m21 m22].
  conj_split; apply der_add; assumption.
Qed.
Lemma der_scale : forall (c : R) (f : R -> R) (x a : R), is_derive f x a -> is_derive (fun t => c * f t) x (c * a).
Proof. intros c f x a H. eapply der_eq; [apply der_mul; [apply (is_derive_const c) | exact H]|]. cbn. unfold zero; cbn. ring. Qed.
Lemma mderive_scale : forall c A t DA, mderive A t DA -> mderive (fun s => mscale c (A s)) t (mscale c DA).
Proof.
  intros c A t DA (a0 & a1 & a2 & a3 & a4 & a5 & a6 & a7 & a8).
  unfold mderive, mscale. cbn [m00 m01 m02 m10 m11 m12 m20 m21 m22].
  conj_split; apply der_scale; assumption.
Qed.
Lemma mderive_eq : forall A t D E, mderive A t D -> D = E -> mderive A t E.
Proof. intros A t D E H <-. exact H. Qed.
Lemma mderive_ext : forall A B t D, (forall s, A s = B s) -> mderive A t D -> mderive B t D.
Proof.
  intros A B t D E (a0 & a1 & a2 & a3 & a4 & a5 & a6 & a7 & a8). unfold mderive.
  conj_split; (eapply is_derive_ext; [intros s; rewrite <- E; reflexivity | assumption]).
Qed.

Lemma conj_derive : forall g (D dD dR dI : R -> R -> R -> R -> R -> mat3) (p : R -> R * R * R) x y t,
  let at5 (F : R -> R -> R -> R -> R -> mat3) s := F (fst (fst (p s))) (snd (fst (p s))) (snd (p s)) x y in
  mderive (at5 (eigR g)) t (at5 dR t) -> mderive (at5 D) t (at5 dD t) -> mderive (at5 (invR g)) t (at5 dI t) ->
  mderive (at5 (conj3 g D)) t (at5 (dconj3 g D dD dR dI) t).
Proof.
  intros g D dD dR dI p x y t at5 H1 H2 H3. unfold at5 in *. unfold conj3, dconj3.
  eapply mderive_eq; [apply mderive_mul; [apply mderive_mul; eassumption | eassumption]|].
  apply mat3_eq; cbn; ring.
Qed.

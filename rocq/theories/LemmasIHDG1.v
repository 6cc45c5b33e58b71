(** Pointwise gradients for the implicit HDG kernels. *)
From Coq Require Import Reals List Bool Arith Lra Lia.
From Coquelicot Require Import Coquelicot.
From Verif Require Import Num ModelSWE ModelShape ModelBasis ModelJac SpecJac LemmasJac LemmasJac2 LemmasBasis2 LemmasBasis3
  ModelStep ModelIHDG SpecIHDG.
Open Scope R_scope.

Definition vset (u : vec3 R) (v : nat) (s : R) : vec3 R :=
  match v with 0%nat => V3 s (qx u) (qy u) | 1%nat => V3 (ze u) s (qy u) | _ => V3 (ze u) (qx u) s end.
Definition vgrad (f : vec3 R -> R) (u : vec3 R) (d : nat -> R) : Prop :=
  forall v, (v < 3)%nat -> is_derive (fun s => f (vset u v s)) (vget u v) (d v).
Definition kron (a v : nat) : R := if Nat.eqb a v then 1 else 0.

Lemma vset_get : forall u v, vset u v (vget u v) = u.
Proof. intros [z x y] [|[|v]]; reflexivity. Qed.
Lemma lt3 : forall v (P : nat -> Prop), P 0%nat -> P 1%nat -> P 2%nat -> (v < 3)%nat -> P v.
Proof. intros [|[|[|v]]] P H0 H1 H2 Hv; try assumption; lia. Qed.

Lemma grad_const : forall c u, vgrad (fun _ => c) u (fun _ => 0).
Proof. intros c u v _. apply is_derive_c. Qed.
Lemma der_id : forall x : R, is_derive (fun s : R => s) x 1.
Proof. intros x. exact (is_derive_id x). Qed.
Lemma grad_get : forall a u, (a < 3)%nat -> vgrad (fun w => vget w a) u (kron a).
Proof.
  intros a u Ha v Hv. revert a Ha v Hv.
  intros [|[|[|a]]] Ha [|[|[|v]]] Hv; try lia; unfold kron; cbn [vset vget ze qx qy Nat.eqb]; try (apply der_id); apply is_derive_c.
Qed.
Lemma grad_plus : forall f h u d e, vgrad f u d -> vgrad h u e -> vgrad (fun w => f w + h w) u (fun v => d v + e v).
Proof. intros f h u d e F H v Hv. exact (is_derive_p _ _ _ _ _ (F v Hv) (H v Hv)). Qed.
Lemma grad_mult : forall f h u d e, vgrad f u d -> vgrad h u e ->
  vgrad (fun w => f w * h w) u (fun v => d v * h u + f u * e v).
Proof.
  intros f h u d e F H v Hv. pose proof (is_derive_m _ _ _ _ _ (F v Hv) (H v Hv)) as K. cbn beta in K.
  rewrite vset_get in K. exact K.
Qed.
Lemma grad_scal : forall c f u d, vgrad f u d -> vgrad (fun w => c * f w) u (fun v => c * d v).
Proof.
  intros c f u d F v Hv. refine (is_derive_e _ _ _ _ _ (is_derive_k _ c _ _ (F v Hv)) _ _).
  - intros y. apply Rmult_comm.
  - apply Rmult_comm.
Qed.
Lemma grad_ext : forall f h u d e, vgrad f u d -> (forall w, f w = h w) -> (forall v, (v < 3)%nat -> d v = e v) -> vgrad h u e.
Proof. intros f h u d e F E K v Hv. exact (is_derive_e _ _ _ _ _ (F v Hv) (fun s => E (vset u v s)) (K v Hv)). Qed.
(** along a coefficient entering variable v with factor c *)
Lemma grad_line : forall f u d v t0 c, (v < 3)%nat -> vgrad f u d ->
  is_derive (fun t => f (vset u v (vget u v + (t - t0) * c))) t0 (d v * c).
Proof.
  intros f u d v t0 c Hv F. pose proof (F v Hv) as D.
  assert (L : is_derive (fun t => vget u v + (t - t0) * c) t0 c) by (auto_derive; [exact I|ring]).
  refine (is_derive_e _ _ _ _ _ (is_derive_o (fun s => f (vset u v s)) (fun t => vget u v + (t - t0) * c) t0 (d v) c _ L) _ _).
  - replace (vget u v + (t0 - t0) * c) with (vget u v) by ring. exact D.
  - reflexivity.
  - apply Rmult_comm.
Qed.

(** From the Jacobians of C04-C06. *)
Lemma grad_jacobian : forall (G : vec3 R -> vec3 R) u J a, (a < 3)%nat ->
  jacobian (fun z x y => G (state z x y)) (ze u) (qx u) (qy u) J -> vgrad (fun w => vget (G w) a) u (mget J a).
Proof.
  intros G u J a Ha [D0 [D1 D2]] v Hv. destruct D0 as [A0 [A1 A2]]. destruct D1 as [B0 [B1 B2]]. destruct D2 as [C0 [C1 C2]].
  revert v Hv. revert a Ha. intros [|[|[|a]]] Ha [|[|[|v]]] Hv; try lia; assumption.
Qed.
Definition at_bath (b s : R) (u : vec3 R) : aux3 R := with_depth (Aux b 0 s) u.
Lemma at_bath_form : forall a u, with_depth a u = at_bath (bath a) (sp a) u.
Proof. reflexivity. Qed.
Lemma at_bath_state : forall b s u, at_bath b s u = auxil (ze u) b s.
Proof. reflexivity. Qed.

Section Flux.
  Context (g : R) (av : aux3 R).
  Notation aw := (with_depth av).
  Lemma grad_Fx : forall u a, hh (aw u) <> 0 -> (a < 3)%nat ->
    vgrad (fun w => vget (fst (get_F g w (aw w))) a) u (mget (fst (get_dF_dq g u (aw u))) a).
  Proof.
    intros [z x y] a H Ha. apply (grad_jacobian (fun w => fst (get_F g w (aw w))) (V3 z x y)); [exact Ha|].
    exact (flux_jacobian_x g (bath av) (sp av) z x y H).
  Qed.
  Lemma grad_Fy : forall u a, hh (aw u) <> 0 -> (a < 3)%nat ->
    vgrad (fun w => vget (snd (get_F g w (aw w))) a) u (mget (snd (get_dF_dq g u (aw u))) a).
  Proof.
    intros [z x y] a H Ha. apply (grad_jacobian (fun w => snd (get_F g w (aw w))) (V3 z x y)); [exact Ha|].
    exact (flux_jacobian_y g (bath av) (sp av) z x y H).
  Qed.
  Lemma grad_Fn : forall n u a, hh (aw u) <> 0 -> (a < 3)%nat ->
    vgrad (fun w => vget (get_Fn g w (aw w) n) a) u (mget (get_dFn_dq g u (aw u) n) a).
  Proof.
    intros n [z x y] a H Ha. apply (grad_jacobian (fun w => get_Fn g w (aw w) n) (V3 z x y)); [exact Ha|].
    exact (flux_jacobian_n g (bath av) (sp av) n z x y H).
  Qed.
  Definition dtau (n : vec2 R) (u : vec3 R) (v : nat) : R :=
    match v with 0%nat => dtau_dze_LF g u (aw u) n | 1%nat => dtau_dqx_LF u (aw u) n | _ => dtau_dqy_LF u (aw u) n end.
  Lemma grad_tau : forall n u, 0 < g -> 0 < hh (aw u) -> un_of u (aw u) n <> 0 ->
    vgrad (fun w => tau_LF g w (aw w) n) u (dtau n u).
  Proof.
    intros n [z x y] Hg Hh Hu v Hv.
    destruct (dtau_is_derivative g (bath av) (sp av) n z x y Hg Hh Hu) as [D0 [D1 D2]].
    revert v Hv. intros [|[|[|v]]] Hv; try lia; assumption.
  Qed.
  Lemma grad_mat : forall (A : vec3 R -> aux3 R -> vec2 R -> mat3) (D : nat -> mat3) n u,
    mderive (fun t => A (state t (qx u) (qy u)) (auxil t (bath av) (sp av)) n) (ze u) (D 0%nat) /\
    mderive (fun t => A (state (ze u) t (qy u)) (auxil (ze u) (bath av) (sp av)) n) (qx u) (D 1%nat) /\
    mderive (fun t => A (state (ze u) (qx u) t) (auxil (ze u) (bath av) (sp av)) n) (qy u) (D 2%nat) ->
    forall a b, (a < 3)%nat -> (b < 3)%nat -> vgrad (fun w => mget (A w (aw w) n) a b) u (fun v => mget (D v) a b).
  Proof.
    intros A D n u [E0 [E1 E2]] a b Ha Hb v Hv.
    assert (K : forall F t X, mderive F t X -> is_derive (fun s => mget (F s) a b) t (mget X a b)).
    { intros F t X HX. unfold mderive in HX. decompose [and] HX.
      revert a Ha. revert b Hb. intros [|[|[|b]]] Hb [|[|[|a]]] Ha; try lia; assumption. }
    revert v Hv. intros [|[|[|v]]] Hv; try lia;
      [exact (K _ _ _ E0) | exact (K _ _ _ E1) | exact (K _ _ _ E2)].
  Qed.
End Flux.

(** A stage seen element by element. *)
From Coq Require Import Reals QArith List Bool Arith Lia Lra Permutation FunctionalExtensionality.
From Verif Require Import Num ModelSWE Outcome ModelShape ModelBasis ModelJac ModelStepper ModelWetDry ModelSlope ModelStep SpecSWE SpecShape SpecStepper SpecWetDry SpecSlope SpecStep
  LemmasSWE LemmasRK LemmasPart LemmasWetDry LemmasSlope LemmasStep LemmasStage.
Import ListNotations.
Open Scope R_scope.

(** What the state holds about one element. *)
Record eview := EV { v_q : nat -> coeffs; v_rhs : nat -> coeffs; v_sol : nat -> coeffs; v_wet : bool; v_cd : bool }.
Definition view (st : mstate) (e : nat) : eview := EV (ms_q st e) (ms_rhs st e) (ms_sol st e) (ms_wet st e) (ms_cd st e).

Definition upd_view (m : mesh) (c : config) (dt : R) (n k e : nat) (v : eview) : eview :=
  let sol := upd (v_sol v) k (apply_minv m e (v_rhs v k)) in
  let next := next_state (I := nat * nat) (c_A c) (c_B c) dt k (fun s i => v_q v s (fst i) (snd i)) (fun s i => sol s (fst i) (snd i)) in
  let q := upd (v_q v) (k + 1) (fun var dof => next (var, dof)) in
  EV (if Nat.eqb (k + 1) n then upd (upd q 0 (q n)) n (q 0%nat) else q) (v_rhs v) sol (v_wet v) (v_cd v).
Definition wd_view (m : mesh) (c : config) (slot e : nat) (v : eview) : outcome eview :=
  do r <- wetting_drying_kernel (m_p m) (c_h_o c) (c_thr c) (m_bath m e) (m_bath_min m e) (EltWD (v_q v slot) (v_rhs v slot) (v_wet v) (v_cd v)) ;
  Ok (EV (upd (v_q v) slot (e_q r)) (upd (v_rhs v) slot (e_rhs r)) (v_sol v) (e_wet r) (e_completely_dry r)).
Definition sl_view (m : mesh) (slot : nat) (nq : nat -> vec) (nw : list bool) (e : nat) (v : eview) : outcome eview :=
  let s := m_sl m e in
  do q <- slope_limiting_kernel (m_p m) (SlIn (sl_g s) (sl_M s) (sl_nu s) (sl_med s) (sl_al s) (sl_rs s) (sl_bath s) nq) (v_wet v) nw (v_q v slot) ;
  Ok (EV (upd (v_q v) slot q) (v_rhs v) (v_sol v) (v_wet v) (v_cd v)).

(** Kernels that act on one element and look at nothing else but the limiter data. *)
Definition local (K : mstate -> nat -> outcome mstate) (g : sl_mesh -> nat -> eview -> outcome eview) : Prop :=
  forall st e v, g (ms_slm st) e (view st e) = Ok v ->
    exists st', K st e = Ok st' /\ view st' e = v /\ (forall e', e' <> e -> view st' e' = view st e') /\ ms_slm st' = ms_slm st.
Lemma local_fold : forall K g, local K g -> forall l st w, NoDup l -> (forall e, In e l -> g (ms_slm st) e (view st e) = Ok (w e)) ->
  exists st', ofold K l st = Ok st' /\ (forall e, In e l -> view st' e = w e) /\ (forall e, ~ In e l -> view st' e = view st e) /\ ms_slm st' = ms_slm st.
Proof.
  intros K g L l. induction l as [|x l IH]; intros st w ND H.
  - exists st. cbn. split; [reflexivity|]. split; [intros e []|]. split; reflexivity.
  - apply NoDup_cons_iff in ND as [N1 N2]. destruct (L st x (w x) (H x (or_introl eq_refl))) as (s1 & E1 & V1 & O1 & M1).
    assert (Hn : forall e, In e l -> e <> x) by (intros e He ->; contradiction).
    destruct (IH s1 w N2) as (s2 & E2 & V2 & O2 & M2).
    { intros e He. rewrite M1, (O1 e (Hn e He)). apply H. right. exact He. }
    exists s2. cbn [ofold]. rewrite E1. cbn [bind]. split; [exact E2|]. split; [|split].
    + intros e [<-|He]; [rewrite (O2 _ N1); exact V1|apply V2; exact He].
    + intros e He. rewrite O2 by (intro; apply He; right; assumption). apply O1. intros ->. apply He. left. reflexivity.
    + congruence.
Qed.

Lemma update_local : forall m c dt n k, local (fun st e => Ok (update_kernel m c dt n k st e)) (fun _ e v => Ok (upd_view m c dt n k e v)).
Proof.
  intros m c dt n k st e v H. injection H as <-. eexists. split; [reflexivity|]. split; [|split; [|reflexivity]].
  - unfold view, update_kernel, upd_view. cbn [ms_q ms_rhs ms_sol ms_wet ms_cd v_q v_rhs v_sol v_wet v_cd]. rewrite !upd_same. reflexivity.
  - intros e' He. unfold view, update_kernel. cbn [ms_q ms_rhs ms_sol ms_wet ms_cd]. rewrite !upd_other by exact He. reflexivity.
Qed.
Lemma wd_local : forall m c slot, local (wd_kernel m c slot) (fun _ => wd_view m c slot).
Proof.
  intros m c slot st e v H. unfold wd_view, view in H. cbn [v_q v_rhs v_sol v_wet v_cd] in H. unfold wd_kernel.
  destruct (wetting_drying_kernel _ _ _ _ _ _) as [r| |]; cbn [bind] in *; try discriminate. injection H as <-.
  eexists. split; [reflexivity|]. split; [|split; [|reflexivity]].
  - unfold view. cbn [ms_q ms_rhs ms_sol ms_wet ms_cd]. rewrite !upd_same. reflexivity.
  - intros e' He. unfold view. cbn [ms_q ms_rhs ms_sol ms_wet ms_cd]. rewrite !upd_other by exact He. reflexivity.
Qed.
Lemma sl_local : forall m slot, local (sl_kernel m slot) (fun sm e => sl_view m slot (n_q sm e) (map (n_wet sm e) (seq 0 3)) e).
Proof.
  intros m slot st e v H. unfold sl_view, view in H. cbn [v_q v_rhs v_sol v_wet v_cd] in H. unfold sl_kernel. cbv zeta in H |- *.
  destruct (slope_limiting_kernel _ _ _ _ _) as [q| |]; cbn [bind] in *; try discriminate. injection H as <-.
  eexists. split; [reflexivity|]. split; [|split; [|reflexivity]].
  - unfold view. cbn [ms_q ms_rhs ms_sol ms_wet ms_cd]. rewrite !upd_same. reflexivity.
  - intros e' He. unfold view. cbn [ms_q ms_rhs ms_sol ms_wet ms_cd]. rewrite !upd_other by exact He. reflexivity.
Qed.
Lemma ofold_ok : forall (A B : Type) (f : A -> B -> A) l s, ofold (fun s x => Ok (f s x)) l s = Ok (fold_left f l s).
Proof. intros A B f l. induction l as [|x l IH]; intros s; [reflexivity|]. cbn [ofold bind fold_left]. apply IH. Qed.

(** The limiter looks at the neighbours' values on faces 0, 1, 2 only, and only if
    the element and all its neighbours are wet. *)
Lemma limit_row_neigh : forall p a s d e f g b n1 n2 h u v q old var, (forall x, (x < 3)%nat -> n1 x = n2 x) ->
  limit_row p (SlIn a s d e f g b n1) h u v q old var = limit_row p (SlIn a s d e f g b n2) h u v q old var.
Proof.
  intros p a s d e f g b n1 n2 h u v q old var H. unfold limit_row. cbv zeta.
  set (centre := fun i => u_baryctr (q i)). set (mid := fun b0 i => u_midpt (q i) b0).
  assert (E : forall x, (x < 3)%nat -> limited_delta (SlIn a s d e f g b n1) h u v centre mid var x = limited_delta (SlIn a s d e f g b n2) h u v centre mid var x).
  { intros x Hx. unfold limited_delta, limited_char, char_tilda, char_delta. cbn [sl_g sl_M sl_nu sl_med sl_al sl_rs sl_neigh].
    rewrite (H x Hx), (H ((x + 1) mod 3)%nat) by (apply Nat.mod_upper_bound; lia). reflexivity. }
  assert (B : forall d1 d2 : vec, (forall x, (x < 3)%nat -> d1 x = d2 x) -> forall x, (x < 3)%nat -> balance d1 x = balance d2 x).
  { intros d1 d2 D x Hx. unfold balance. cbn [vmsum]. rewrite !(D 0%nat), !(D 1%nat), !(D 2%nat) by lia. destruct (Req_EM_T _ _); rewrite (D x Hx); reflexivity. }
  assert (W : new_vrtx (u_baryctr (q var)) (balance (limited_delta (SlIn a s d e f g b n1) h u v centre mid var)) =
              new_vrtx (u_baryctr (q var)) (balance (limited_delta (SlIn a s d e f g b n2) h u v centre mid var))).
  { apply functional_extensionality. intros x. unfold new_vrtx. cbn [vmsum]. rewrite !(B _ _ E) by lia. reflexivity. }
  rewrite W. reflexivity.
Qed.
Lemma sl_view_neigh : forall m slot n1 n2 w1 w2 e v, w1 = w2 ->
  (v_wet v = true -> forallb (fun b => b) w1 = true -> forall x, (x < 3)%nat -> n1 x = n2 x) ->
  sl_view m slot n1 w1 e v = sl_view m slot n2 w2 e v.
Proof.
  intros m slot n1 n2 w1 w2 e v <- H. unfold sl_view. cbv zeta. f_equal. unfold slope_limiting_kernel. cbn [sl_bath].
  destruct (v_wet v) eqn:W; cbn [andb]; [|reflexivity]. destruct (forallb (fun b => b) w1) eqn:Fw; [|reflexivity].
  specialize (H eq_refl eq_refl). destruct (to_linear _ _) as [ql| |]; cbn [bind]; [|reflexivity|reflexivity].
  rewrite !(limit_row_neigh (m_p m) (sl_g (m_sl m e)) (sl_M (m_sl m e)) (sl_nu (m_sl m e)) (sl_med (m_sl m e)) (sl_al (m_sl m e)) (sl_rs (m_sl m e)) (sl_bath (m_sl m e)) n1 n2) by exact H. reflexivity.
Qed.
Lemma wd_view_total : forall m c slot e v, (1 <= m_p m)%nat -> 0 <= c_thr c -> 0 <= c_h_o c -> (forall x, (x < 3)%nat -> m_bath_min m e <= m_bath m e x) ->
  exists v', wd_view m c slot e v = Ok v'.
Proof.
  intros m c slot e v Hp Ht Hh Hb. unfold wd_view.
  destruct (kernel_ok (m_p m) (c_h_o c) (c_thr c) (m_bath m e) (m_bath_min m e) Hp Ht Hh Hb (EltWD (v_q v slot) (v_rhs v slot) (v_wet v) (v_cd v))) as [r [K _]].
  rewrite K. cbn [bind]. eexists. reflexivity.
Qed.
Lemma sl_view_total : forall m slot nq nw e v, (1 <= m_p m)%nat -> exists v', sl_view m slot nq nw e v = Ok v'.
Proof.
  intros m slot nq nw e v Hp. unfold sl_view. cbv zeta.
  match goal with |- context [slope_limiting_kernel ?p ?s ?w ?wn ?q] => destruct (kernel_mean p s w wn q Hp) as [q' [K _]] end.
  rewrite K. cbn [bind]. eexists. reflexivity.
Qed.

(** The outcome of a kernel as a total function, for naming the results. *)
Definition oget {A : Type} (d : A) (o : outcome A) : A := match o with Ok a => a | _ => d end.
Lemma oget_ok : forall (A : Type) (d : A) o, (exists a, o = Ok a) -> o = Ok (oget d o).
Proof. intros A d o [a ->]. reflexivity. Qed.

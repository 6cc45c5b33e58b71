(** The triangle rules. *)
From Coq Require Import ZArith QArith Reals Qreals List Arith Lia Lra Bool.
From Coquelicot Require Import Coquelicot.
From Verif Require Import ModelIntegration SpecBasis SpecIntegration LemmasBasis LemmasBasis2 LemmasIntegration LemmasIntegration2.
Import ListNotations.
Open Scope R_scope.

Notation qp := (Q * (Q * Q))%type.
Definition rpoint (q : qp) : R * (R * R) := (2 * Q2R (fst q), (2 * Q2R (fst (snd q)) - 1, 2 * Q2R (snd (snd q)) - 1)).
Definition q_orbit (permutation : nat) (row : Q * (Q * Q * Q)) : list qp :=
  let '(w, (a, b, c)) := row in
  let point x y := (w, (x, y)) in
  match permutation with
  | 1 => [point a b]
  | 3 => [point a b; point b c; point c a]
  | 6 => [point a b; point b c; point c a; point b a; point c b; point a c]
  | _ => []
  end%nat.
Definition dun_q (p : nat) : list qp := flat_map (fun x => q_orbit (fst x) (snd x)) (combine (dun_perm p) (dun_data p)).
Lemma orbit_q : forall m row, dun_orbit m row = map rpoint (q_orbit m row).
Proof. intros m [w [[a b] c]]. unfold dun_orbit, q_orbit. destruct m as [|[|[|[|[|[|[|m]]]]]]]; reflexivity. Qed.
Lemma flat_orbit : forall l, flat_map (fun x => dun_orbit (fst x) (snd x)) l = map rpoint (flat_map (fun x => q_orbit (fst x) (snd x)) l).
Proof. induction l as [|x l IH]; cbn [flat_map map]; [reflexivity|]. rewrite map_app, <- IH, orbit_q. reflexivity. Qed.
Definition dun_len (p : nat) : bool := (length (dun_perm p) =? length (dun_data p))%nat && (length (dun_q p) =? dun_num p)%nat.
Lemma dun_lens : forallb dun_len (seq 0 21) = true.
Proof. vm_compute. reflexivity. Qed.
Lemma dun_rule_q : forall p, (p <= 20)%nat -> dun_rule p = Some (map rpoint (dun_q p)) /\ length (dun_q p) = dun_num p.
Proof.
  intros p Hp. pose proof (proj1 (forallb_forall _ _) dun_lens p ltac:(apply in_seq; lia)) as H.
  apply andb_true_iff in H. destruct H as [H1 H2]. apply Nat.eqb_eq in H2. split; [|exact H2].
  unfold dun_rule. rewrite (proj2 (Nat.ltb_ge 20 p) Hp), H1, flat_orbit. reflexivity.
Qed.

(** ** Moments *)
Definition s2 : Z := (10 ^ 15)%Z.
Definition g2 : Z := (10 ^ 8)%Z.
Definition big2 : Z := (s2 * g2)%Z.
Definition dun_ok (q : qp) : bool :=
  scale_ok s2 (fst q) && scale_ok s2 (fst (snd q)) && scale_ok s2 (snd (snd q))
  && (Z.abs (2 * scaled s2 (fst (snd q)) - s2) <=? 2 * s2)%Z && (Z.abs (2 * scaled s2 (snd (snd q)) - s2) <=? 2 * s2)%Z.
Definition dun_int (q : qp) : Z * (Z * Z) :=
  (2 * scaled s2 (fst q) * g2, (2 * scaled s2 (fst (snd q)) - s2, 2 * scaled s2 (snd (snd q)) - s2))%Z.
Definition num2 (i j : nat) : Z :=
  (altz (S i) * ((1 - altz (i + j + 2)) * Z.of_nat (S j) - (1 - altz (S j)) * Z.of_nat (i + j + 2)))%Z.
Definition den2 (i j : nat) : Z := (Z.of_nat (S i) * (Z.of_nat (i + j + 2) * Z.of_nat (S j)))%Z.
Lemma mom2_ratio : forall i j, IZR (num2 i j) / IZR (den2 i j) = mom2 i j.
Proof.
  intros i j. unfold num2, den2, mom2, mom. replace (S (S i + j)) with (i + j + 2)%nat by lia.
  rewrite !mult_IZR, minus_IZR, !mult_IZR, !minus_IZR, !altz_pow, <- !INR_IZR_INZ.
  assert (INR (S i) <> 0) by (apply not_0_INR; lia). assert (INR (S j) <> 0) by (apply not_0_INR; lia).
  assert (INR (i + j + 2) <> 0) by (apply not_0_INR; lia). field. auto.
Qed.
Definition dun_check (p : nat) : bool :=
  forallb dun_ok (dun_q p)
  && check_all s2 big2 2 num2 den2 2 (10 ^ 14) (S p) (fun i => S (p - i)) 0 (map dun_int (dun_q p)) (Z.of_nat (length (map dun_int (dun_q p)))) 0.
Lemma dun_checked : forallb dun_check (seq 0 21) = true.
Proof. vm_compute. reflexivity. Qed.
Lemma dun_near : forall q, dun_ok q = true -> near s2 big2 2 0 0 0 (dun_int q) (rpoint q).
Proof.
  intros [w [x y]] H. unfold dun_ok in H. cbn [fst snd] in H. repeat (apply andb_true_iff in H; destruct H as [H ?]).
  match goal with A : (_ <=? _)%Z = true, B : (_ <=? _)%Z = true |- _ => apply Z.leb_le in A; apply Z.leb_le in B end.
  assert (N : IZR s2 <> 0) by (apply not_0_IZR; discriminate).
  unfold near, dun_int, rpoint, mono. cbn [fst snd].
  refine (conj _ (conj _ (conj _ (conj _ _)))); try assumption.
  - rewrite minus_IZR, mult_IZR, (scaled_value s2 x) by (discriminate || assumption). field. exact N.
  - rewrite minus_IZR, mult_IZR, (scaled_value s2 y) by (discriminate || assumption). field. exact N.
  - cbn [pow]. unfold big2. rewrite !mult_IZR, (scaled_value s2 w) by (discriminate || assumption).
    match goal with |- Rabs ?e <= _ => replace e with 0 by (field; exact N) end. rewrite Rabs_R0. lra.
Qed.
Lemma dun_nears : forall l, forallb dun_ok l = true -> Forall2 (near s2 big2 2 0 0 0) (map dun_int l) (map rpoint l).
Proof.
  induction l as [|wx l IH]; intros H; cbn [map]; constructor; cbn [forallb] in H; apply andb_true_iff in H; destruct H as [H1 H2].
  - apply dun_near, H1.
  - apply IH, H2.
Qed.
Definition tol2 : R := 2 / 10 ^ 14.
Lemma dun_moment : forall p i j, (p <= 20)%nat -> (i + j <= p)%nat ->
  Rabs (quad2 (map rpoint (dun_q p)) (fun x y => x ^ i * y ^ j) - mom2 i j) <= tol2.
Proof.
  intros p i j Hp Hij. pose proof (proj1 (forallb_forall _ _) dun_checked p ltac:(apply in_seq; lia)) as H.
  apply andb_true_iff in H. destruct H as [H1 H2].
  pose proof (check_all_ok s2 big2 2 ltac:(reflexivity) ltac:(reflexivity) ltac:(discriminate) num2 den2 2 (10 ^ 14)
    ltac:(intros a b; unfold den2; nia) ltac:(reflexivity) (S p) (fun i => S (p - i)) 0 (map dun_int (dun_q p)) _ 0%Z ltac:(discriminate)
    (dun_nears _ H1) H2 i j ltac:(lia)) as B.
  cbn [plus] in B. specialize (B ltac:(lia)). rewrite mom2_ratio in B.
  eapply Rle_trans; [exact B|]. unfold tol2. change (10 ^ 14)%Z with (10 ^ Z.of_nat 14)%Z. rewrite <- pow_IZR. lra.
Qed.


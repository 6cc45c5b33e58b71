(** Specification of the numbering of global unknowns. *)
From Coq Require Import NArith List Bool.
From Verif Require Import Outcome ModelDofs.
Import ListNotations.
Open Scope N_scope.

Definition unit_at (ls : list (list dunit)) (a : N * N) (u : dunit) : Prop :=
  exists us, nth_error ls (N.to_nat (fst a)) = Some us /\ nth_error us (N.to_nat (snd a)) = Some u.
Definition numbering_at (rs : list (list numbering)) (a : N * N) (n : numbering) : Prop :=
  exists ns, nth_error rs (N.to_nat (fst a)) = Some ns /\ nth_error ns (N.to_nat (snd a)) = Some n.

(** Both sides of every distributed edge know each other, and no two edges of a
    unit claim the same position of the same rank boundary. *)
Definition edges_matched (ls : list (list dunit)) : Prop :=
  (forall a u e, unit_at ls a u -> In e (u_dist u) ->
     g_in e = a /\ g_ex e <> a /\ 0 < g_ndof e /\
     exists u' e', unit_at ls (g_ex e) u' /\ In e' (u_dist u') /\ g_ex e' = a /\ g_pos e' = g_pos e /\ g_ndof e' = g_ndof e) /\
  (forall a u, unit_at ls a u -> NoDup (map (fun e => (g_ex e, g_pos e)) (u_dist u))).

(** Unknowns owned by a unit: three per degree of freedom of its edges, of the
    distributed ones only those it shares with a later unit. *)
Definition lex_lt (a b : N * N) : Prop := fst a < fst b \/ (fst a = fst b /\ snd a < snd b).
Fixpoint sumN (l : list N) : N := match l with [] => 0 | x :: r => x + sumN r end.
Definition owned_size (u : dunit) : N :=
  3 * (sumN (u_int u) + sumN (u_bnd u) + sumN (map (fun e => if owns e then g_ndof e else 0) (u_dist u))).
Definition total_unknowns (ls : list (list dunit)) : N := sumN (map (fun us => sumN (map owned_size us)) ls).

(** The blocks owned by a unit, in order. *)
Definition owned_blocks (u : dunit) (n : numbering) : list (list N) :=
  n_int n ++ n_bnd n ++ map snd (filter (fun eb => owns (fst eb)) (combine (u_dist u) (n_dist n))).
Definition upto (n : N) : list N := map N.of_nat (seq 0 (N.to_nat n)).

(** A block of n consecutive unknowns. *)
Definition contiguous (b : list N) (n : N) : Prop := exists x, b = map (fun i => i + x) (upto n).

(** Blocks owned in a whole run, locality by locality, unit by unit, edge by edge. *)
Definition run_blocks (ls : list (list dunit)) (rs : list (list numbering)) : list (list N) :=
  concat (concat (map (fun x => map (fun y => owned_blocks (fst y) (snd y)) (combine (fst x) (snd x))) (combine ls rs))).

(** b occupies positions o, o + 1, ... of l. *)
Definition slice (l : list N) (o : N) (b : list N) : Prop := exists p s, l = p ++ b ++ s /\ N.of_nat (length p) = o.

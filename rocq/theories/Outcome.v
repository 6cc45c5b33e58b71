(** Outcomes of C++ functions: a value, a thrown exception, or undefined
    behaviour (out-of-range [], dereferencing end(), ...). *)
Inductive outcome (A : Type) : Type :=
| Ok (a : A)
| Throw
| UB.
Arguments Ok {A} a.
Arguments Throw {A}.
Arguments UB {A}.

Definition bind {A B : Type} (x : outcome A) (f : A -> outcome B) : outcome B :=
  match x with Ok a => f a | Throw => Throw | UB => UB end.
Notation "'do' x <- e ; f" := (bind e (fun x => f)) (at level 200, x pattern, right associativity).

(** [v[i]] on a std::vector: no bounds check. *)
Definition of_index {A : Type} (o : option A) : outcome A := match o with Some a => Ok a | None => UB end.
(** [m.at(i)]: throws std::out_of_range. *)
Definition of_at {A : Type} (o : option A) : outcome A := match o with Some a => Ok a | None => Throw end.

Fixpoint ofold {A S : Type} (f : S -> A -> outcome S) (l : list A) (s : S) : outcome S :=
  match l with nil => Ok s | cons a r => bind (f s a) (ofold f r) end.

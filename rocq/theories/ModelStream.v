(** Text input and output of the C++ standard library, as far as the mesh files use it:
    std::ostream operator<< for unsigned integers, characters and doubles, std::istream
    operator>>, ignore and std::getline (C++ standard [istream], [facet.num.get.virtuals],
    [ostream.formatted]; in the C locale).

    A character is its code, a text a list of codes.  An input stream is the text not yet
    read, the end-of-file flag and the fail flag (badbit is not modelled).  A read returns
    the value stored in its variable, or [None] if the variable is left alone. *)
From Coq Require Import ZArith NArith List Bool.
Import ListNotations.
Local Open Scope N_scope.

Definition text := list N.
Definition is_space (c : N) : bool := ((9 <=? c) && (c <=? 13)) || (c =? 32).
Definition is_digit (c : N) : bool := (48 <=? c) && (c <=? 57).
Definition newline : N := 10.
Definition blank : N := 32.

Fixpoint span (f : N -> bool) (l : text) : text * text :=
  match l with
  | [] => ([], [])
  | c :: r => if f c then let (a, b) := span f r in (c :: a, b) else ([], l)
  end.
Definition value (ds : text) : N := fold_left (fun a c => 10 * a + (c - 48)) ds 0.
Definition isnil {A : Type} (l : list A) : bool := match l with [] => true | _ => false end.

(** ** Output *)
Fixpoint digits (fuel : nat) (n : N) : text :=
  match fuel with
  | O => []
  | S k => (if n / 10 =? 0 then [] else digits k (n / 10)) ++ [48 + n mod 10]
  end.
(** operator<< of an unsigned integer. *)
Definition dec (n : N) : text := digits (S (N.size_nat n)) n.
(** setw(w): blanks in front. *)
Definition setw (w : nat) (t : text) : text := repeat blank (w - length t) ++ t.

(** ** Input *)
Record stream := Stream { s_rest : text; s_eof : bool; s_fail : bool }.
Definition good (s : stream) : bool := negb (s_eof s) && negb (s_fail s).
Definition open (t : text) : stream := Stream t false false.

(** [istream.sentry], skipping white space. *)
Definition sentry (s : stream) : stream * bool :=
  if good s then
    let r := snd (span is_space (s_rest s)) in
    if isnil r then (Stream [] true true, false) else (Stream r false false, true)
  else (Stream (s_rest s) (s_eof s) true, false).

Definition sign (l : text) : bool * text :=
  match l with
  | c :: r => if c =? 45 then (true, r) else if c =? 43 then (false, r) else (false, l)
  | [] => (false, [])
  end.
Definition uint_max : N := 4294967295.
(** operator>>(uint&): failing stores 0, or the largest value when the number is too big; a
    minus sign negates modulo 2^32. *)
Definition read_uint (s : stream) : stream * option N :=
  let (s1, ok) := sentry s in
  if ok then
    let (neg, l) := sign (s_rest s1) in
    let (ds, r) := span is_digit l in
    if isnil ds then (Stream r (isnil r) true, Some 0)
    else if value ds <=? uint_max
      then (Stream r (isnil r) false, Some (if neg then (uint_max + 1 - value ds) mod (uint_max + 1) else value ds))
      else (Stream r (isnil r) true, Some uint_max)
  else (s1, None).
(** operator>>(unsigned char&). *)
Definition read_byte (s : stream) : stream * option N :=
  let (s1, ok) := sentry s in
  if ok then match s_rest s1 with c :: r => (Stream r false false, Some c) | [] => (s1, None) end else (s1, None).
(** operator>>(std::string&). *)
Definition read_word (s : stream) : stream * option text :=
  let (s1, ok) := sentry s in
  if ok then let (w, r) := span (fun c => negb (is_space c)) (s_rest s1) in (Stream r (isnil r) false, Some w) else (s1, None).

Fixpoint drop_to (n : nat) (delim : N) (l : text) : text * bool :=
  match n, l with
  | O, _ => (l, false)
  | _, [] => ([], true)
  | S k, c :: r => if c =? delim then (r, false) else drop_to k delim r
  end.
(** istream::ignore(n, delim). *)
Definition ignore (n : nat) (delim : N) (s : stream) : stream :=
  if good s then let (r, e) := drop_to n delim (s_rest s) in Stream r e false
  else Stream (s_rest s) (s_eof s) true.
(** ignore(1000, '\n') *)
Definition skip_line (s : stream) : stream := ignore 1000 newline s.
(** std::getline(istream&, std::string&). *)
Definition getline (s : stream) : stream * option text :=
  if good s then
    let (w, r) := span (fun c => negb (c =? newline)) (s_rest s) in
    match r with
    | _ :: r' => (Stream r' false false, Some w)
    | [] => (Stream [] true (isnil w), Some w)
    end
  else (Stream (s_rest s) (s_eof s) true, None).

(** Storing into a variable that may be uninitialised, or that has a value. *)
Definition store {A : Type} (old new : option A) : option A := match new with Some _ => new | None => old end.
Definition keep {A : Type} (old : A) (new : option A) : A := match new with Some v => v | None => old end.

(** ** Doubles: sign, significand and power of two; zero has significand and exponent 0, other
    significands have 53 bits.  Subnormal and infinite values and NaN are left out: exponents
    have no limits. *)
Record double := Double { d_neg : bool; d_man : N; d_exp : Z }.

Local Open Scope Z_scope.
(** z to the power k as a fraction. *)
Definition frac (m : N) (radix : N) (k : Z) : N * N := (m * radix ^ Z.to_N k, radix ^ Z.to_N (- k))%N.
(** radix^k <= a/b *)
Definition pow_le (radix : N) (k : Z) (a b : N) : bool := (radix ^ Z.to_N k * b <=? a * radix ^ Z.to_N (- k))%N.
Fixpoint find_up (radix : N) (a b : N) (fuel : nat) (k : Z) : Z :=
  match fuel with
  | O => k
  | S f => if pow_le radix (k + 1) a b then find_up radix a b f (k + 1) else k
  end.
(** The exponent k with radix^k <= a/b < radix^(k+1). *)
Definition leading (radix a b : N) : Z :=
  find_up radix a b (N.to_nat (N.log2 a + N.log2 b + 2)) (- Z.of_N (N.log2 b + 1)).
(** a/b to the nearest integer, ties to even. *)
Definition nearest (a b : N) : N :=
  let q := (a / b)%N in let r := (a mod b)%N in
  (if 2 * r <? b then q else if b <? 2 * r then q + 1 else q + q mod 2)%N.
(** a/b to p digits: significand and exponent. *)
Definition round_to (radix p : N) (a b : N) : N * Z :=
  let k := leading radix a b - Z.of_N p + 1 in
  let m := nearest (a * radix ^ Z.to_N (- k)) (b * radix ^ Z.to_N k) in
  if (m =? radix ^ p)%N then ((radix ^ (p - 1))%N, k + 1) else (m, k).

Definition strip (ds : text) : text := rev (snd (span (N.eqb 48) (rev ds))).
Definition point (f : text) : text := if isnil f then [] else 46%N :: f.
(** %.15g for significand m of 15 digits and exponent k (the value is m 10^k). *)
Definition general (m : N) (k : Z) : text :=
  let x := k + 14 in
  let ds := dec m in
  if (x <? -4) || (15 <=? x) then
    match strip ds with
    | c :: f => c :: point f ++ 101%N :: (if x <? 0 then 45%N else 43%N) :: (if Z.abs x <? 10 then [48%N] else []) ++ dec (Z.to_N (Z.abs x))
    | [] => []
    end
  else if x <? 0 then 48%N :: 46%N :: repeat 48%N (Z.to_nat (- x - 1)) ++ strip ds
  else firstn (Z.to_nat (x + 1)) ds ++ point (strip (skipn (Z.to_nat (x + 1)) ds)).
(** operator<< of a double after setprecision(15). *)
Definition print_double (d : double) : text :=
  (if d_neg d then [45%N] else []) ++
  if (d_man d =? 0)%N then [48%N]
  else let (a, b) := frac (d_man d) 2 (d_exp d) in let (m, k) := round_to 10 15 a b in general m k.

(** The number nearest to (-1)^neg m 10^k. *)
Definition to_double (neg : bool) (m : N) (k : Z) : double :=
  if (m =? 0)%N then Double neg 0 0
  else let (a, b) := frac m 10 k in let (n, e) := round_to 2 53 a b in Double neg n e.
Definition fraction (l : text) : text * text :=
  match l with c :: r => if (c =? 46)%N then span is_digit r else ([], l) | [] => ([], l) end.
(** The characters operator>>(double&) takes, and the number they form. *)
Definition scan_double (l : text) : option (bool * N * Z) * text :=
  let (neg, l1) := sign l in
  let (i, l2) := span is_digit l1 in
  let (f, l3) := fraction l2 in
  if isnil (i ++ f) then (None, l3)
  else
    let mantissa := value (i ++ f) in
    let point := - Z.of_nat (length f) in
    match l3 with
    | c :: r =>
        if ((c =? 101) || (c =? 69))%N then
          let (eneg, r1) := sign r in
          let (x, r2) := span is_digit r1 in
          if isnil x then (None, r2)
          else (Some (neg, mantissa, (if eneg then - Z.of_N (value x) else Z.of_N (value x)) + point), r2)
        else (Some (neg, mantissa, point), l3)
    | [] => (Some (neg, mantissa, point), l3)
    end.
(** operator>>(double&): failing stores 0. *)
Definition read_double (s : stream) : stream * option double :=
  let (s1, ok) := sentry s in
  if ok then
    let (v, r) := scan_double (s_rest s1) in
    match v with
    | Some (neg, m, k) => (Stream r (isnil r) false, Some (to_double neg m k))
    | None => (Stream r (isnil r) true, Some (Double false 0 0))
    end
  else (s1, None).

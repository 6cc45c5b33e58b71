(** The constant of general_definitions.hpp line 227, twelve digits. *)
From Coq Require Import Reals.
Open Scope R_scope.
Definition code_pi : R := 314159265359 / 100000000000.

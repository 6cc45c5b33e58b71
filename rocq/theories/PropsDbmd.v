(** C45: what the partitioner writes into a distributed boundary file is what the run reads. *)
From Coq Require Import ZArith NArith List Bool.
From Verif Require Import Outcome ModelStream ModelMeta ModelDist ModelDbmd SpecMeta SpecDbmd LemmasDbmd.
Import ListNotations.
Local Open Scope N_scope.

Theorem C45_round_trip : forall loc sub gs, Forall group_ok gs -> read_dbmd_text loc sub (write_dbmd gs) = read_dbmd loc sub gs.
Proof. exact dbmd_round_trip. Qed.
Print Assumptions C45_round_trip.

Definition two_groups : list dbgroup :=
  [DBGroup 0 1 2 3 [DBPair 10 20 0 2 1; DBPair 11 21 1 1 1]; DBGroup 4 0 0 1 [DBPair 70 4294967295 2 0 1]].
Example C45_example :
  Forall group_ok two_groups /\
  read_dbmd_text 0 1 (write_dbmd two_groups) =
    Ok [RankBoundary 0 1 2 3 [DBEntry 10 0 20 2 1; DBEntry 11 1 21 1 1]; RankBoundary 0 1 4 0 [DBEntry 4294967295 0 70 2 1]] /\
  read_dbmd_text 2 3 (write_dbmd two_groups) = Throw.
Proof. split; [repeat constructor|split; vm_compute; reflexivity]. Qed.

(** An empty line is not skipped: the loop takes the previous line's numbers for it. *)
Theorem C45_blank_line_refuted : exists loc sub gs,
  Forall group_ok gs /\ (exists k, read_dbmd_text loc sub (write_dbmd gs) = Ok k) /\ read_dbmd_text loc sub (write_dbmd gs ++ [newline]) = UB.
Proof. exists 0, 1, two_groups. split; [repeat constructor|split; [eexists|]; vm_compute; reflexivity]. Qed.
Print Assumptions C45_blank_line_refuted.

(** A file opening with an empty line: the variables have no values yet. *)
Theorem C45_leading_line_refuted : exists loc sub gs, Forall group_ok gs /\ read_dbmd_text loc sub ([newline] ++ write_dbmd gs) = UB.
Proof. exists 0, 1, two_groups. split; [repeat constructor|vm_compute; reflexivity]. Qed.
Print Assumptions C45_leading_line_refuted.

(** A number too large for the reader is cut to the largest one and the reading breaks off. *)
Theorem C45_width_refuted : exists loc sub gs, read_dbmd_text loc sub (write_dbmd gs) <> read_dbmd loc sub gs.
Proof. exists 0, 1, [DBGroup 0 1 2 3 [DBPair 4294967296 0 0 0 0]]. vm_compute. discriminate. Qed.
Print Assumptions C45_width_refuted.

(** When the units of the distributed explicit HDG solver hold what the serial solver
    holds. *)
From Coq Require Import Reals NArith List Bool Arith.
From Verif Require Import Num ModelSWE ModelStep ModelEHDG ModelComm ModelPar ModelEPar SpecSWE SpecStep SpecStage SpecPar.
Import ListNotations.
Open Scope R_scope.

(** The two sides of a cut face agree on its shape.  Unlike in SpecPar nothing is asked of
    the bathymetry. *)
Definition fitting (m : mesh) (f : intface) : Prop :=
  opposite (normal m (i_in f) (i_bin f)) (normal m (i_ex f) (i_bex f)) /\
  half_side (m_nodes m (i_ex f)) (i_bex f) = half_side (m_nodes m (i_in f)) (i_bin f).
Definition no_levees (m : mesh) : Prop := forall f, In f (m_intfaces m) -> i_kind f = Internal.

(** Bathymetry of a cut edge at Gauss point [gp] of its inner side: the mean of both sides. *)
Definition mean_bath (m : mesh) (f : intface) (gp : nat) : R :=
  (bath (m_faux m (i_in f) (i_bin f) gp) + bath (m_faux m (i_ex f) (i_bex f) (length (m_rule1 m) - 1 - gp)%nat)) / 2.
(** Every unit with a side of a cut face holds it, at the Gauss points of its own side. *)
Definition baths_known (m : mesh) (subs : list submesh) (cuts : list intface) (fs : nat -> faces) : Prop :=
  forall i f gp, (i < length subs)%nat -> In f cuts -> (gp < length (m_rule1 m))%nat ->
    (In (i_in f, i_bin f) (cut_sides (unit_at subs i)) -> fc_bath (fs i) (i_in f) (i_bin f) gp = mean_bath m f gp) /\
    (In (i_ex f, i_bex f) (cut_sides (unit_at subs i)) -> fc_bath (fs i) (i_ex f) (i_bex f) gp = mean_bath m f (length (m_rule1 m) - 1 - gp)%nat).
(** The boundary at position [j] of a unit and [l] of the mesh: same trace, same values. *)
Definition boundaries_shared (m : mesh) (subs : list submesh) (fs : nat -> faces) (s : estate) : Prop :=
  forall i j l b, (i < length subs)%nat -> nth_error (su_bounds (unit_at subs i)) j = Some b -> nth_error (m_bounds m) l = Some b ->
    fc_qh (fs i) j = es_qh s l /\
    forall gp, (gp < length (m_rule1 m))%nat -> fc_q (fs i) (b_elt b) (b_id b) gp = es_q s (b_elt b) (b_id b) gp.
Definition ehdg_distributes (m : mesh) (subs : list submesh) (cuts : list intface) (us : nat -> ustate) (fs : nat -> faces) (s : estate) : Prop :=
  distributes subs us (es_m s) /\ boundaries_shared m subs fs s /\ baths_known m subs cuts fs.

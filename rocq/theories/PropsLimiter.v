(** Property theorems: limiter data of the initial step (C08). *)
From Coq Require Import Reals List Bool Arith Lra Lia Permutation.
From Verif Require Import Num ModelSWE Outcome ModelShape SpecShape ModelBasis ModelJac ModelStepper ModelWetDry ModelSlope ModelStep ModelInit
  SpecRest SpecLimiter LemmasLimiter LemmasRest6.
Import ListNotations.
Open Scope R_scope.

(** When no face occurs twice, the start-up gives every element the limiter data of its own
    triangle and of the centres across its faces (C08_alpha, C08_geometry say what these are). *)
Theorem C08_start_data : forall i e (nb : nat -> point),
  NoDup (sides (in_intfaces i) (in_bounds i)) -> (forall b, (b < 3)%nat -> centre_across i e b (nb b)) ->
  let n := in_nodes i e in let s := m_sl (init_mesh i) e in
  sl_bath s = (in_z i e 0%nat + in_z i e 1%nat + in_z i e 2%nat) / 3 /\
  forall b, (b < 3)%nat -> sl_med s b = sl_median n b /\ sl_rs s b = sl_r_sq n b /\ sl_al s b = sl_alpha n nb b.
Proof. exact limiter_data. Qed.
Print Assumptions C08_start_data.

(** The lake of two triangles: across the shared face lies the centre of the other one. *)
Example lake_across : centre_across (lake 1) 0 0 (2 / 3, 2 / 3) /\ centre_across (lake 1) 1 0 (1 / 3, 1 / 3).
Proof.
  split; left; eexists; (split; [left; reflexivity|]); [left|right]; (split; [reflexivity|]); (split; [reflexivity|]);
    unfold GetBarycentricCoordinates; cbn; f_equal; lra.
Qed.
Example lake_start : forall nb, (forall b, (b < 3)%nat -> centre_across (lake 1) 0 b (nb b)) -> sl_al (m_sl (init_mesh (lake 1)) 0%nat) 0%nat = sl_alpha (lake_nodes 0) nb 0.
Proof.
  intros nb H. refine (proj2 (proj2 (proj2 (C08_start_data (lake 1) 0%nat nb _ H) 0%nat ltac:(lia)))).
  cbn. repeat (constructor; [cbn; intuition congruence|]). constructor.
Qed.

(** Specifications for the implicit HDG Newton system: partial derivatives of the
    residual in the unknown coefficients. *)
From Coq Require Import Reals List Bool Arith.
From Coquelicot Require Import Coquelicot.
From Verif Require Import Num ModelSWE ModelShape ModelBasis ModelJac SpecJac ModelStep ModelIHDG.
Import ListNotations.
Open Scope R_scope.

(** The coefficient of variable [v], dof [d] of item [e] replaced by [t]. *)
Definition bump (q : nat -> coeffs) (e v d : nat) (t : R) : nat -> coeffs := fun e' v' d' =>
  if (e' =? e)%nat && (v' =? v)%nat && (d' =? d)%nat then t else q e' v' d'.
(** [D] is the partial derivative of [f] in that coefficient at [q]. *)
Definition partial (f : (nat -> coeffs) -> R) (q : nat -> coeffs) (e v d : nat) (D : R) : Prop :=
  is_derive (fun t => f (bump q e v d t)) (q e v d) D.

(** Element faces lying on edge number [ed]: interfaces first, then boundaries. *)
Definition sides (m : mesh) (ed : nat) : list (nat * nat) :=
  if (ed <? length (m_intfaces m))%nat then
    let f := nth ed (m_intfaces m) (Intf 0 0 0 0 Internal) in [(i_in f, i_bin f); (i_ex f, i_bex f)]
  else let b := nth (ed - length (m_intfaces m)) (m_bounds m) (Bnd 0 0 Land) in [(b_elt b, b_id b)].
(** Every face lies on at most one edge, and the two sides of an interface belong
    to different elements. *)
Definition conforming (m : mesh) : Prop :=
  NoDup (flat_map (sides m) (seq 0 (length (m_intfaces m) + length (m_bounds m)))) /\
  List.Forall (fun f => i_in f <> i_ex f) (m_intfaces m).
(** Gauss weights symmetric about the middle of the face. *)
Definition symmetric_weights (m : mesh) : Prop := forall gp, (gp < length (m_rule1 m))%nat ->
  w1 m (length (m_rule1 m) - gp - 1) = w1 m gp.

Section Points.
  Context (m : mesh) (eaux : nat -> nat -> aux3 R) (g : R) (q qh : nat -> coeffs).

  (** Manning's coefficient is not exactly at the lower bound Cf. *)
  Definition off_threshold (e : nat) : Prop := s_bottom_friction (m_src m e) = true -> s_manning (m_src m e) = true ->
    forall gp, (gp < length (m_rule2 m))%nat ->
    s_g_manning_n_sq (m_src m e) / cube_root (hh (a_elt m q e gp)) <> s_Cf (m_src m e).
  (** The normal of an edge, and the normal velocity and wave speeds of its trace. *)
  Definition edge_normal (ed : nat) : vec2 R := let s := nth 0 (sides m ed) (0%nat, 0%nat) in normal m (fst s) (snd s).
  Definition trace_un (ed gp : nat) : R :=
    let u := u_edge m qh ed gp in let h := hh (a_edge m eaux qh ed gp) in
    qx u / h * nx (edge_normal ed) + qy u / h * ny (edge_normal ed).
  Definition flowing (ed : nat) : Prop := forall gp, (gp < length (m_rule1 m))%nat -> trace_un ed gp <> 0.
  Definition noncritical_edge (ed : nat) : Prop := forall gp, (gp < length (m_rule1 m))%nat ->
    let c := sqrt (g * hh (a_edge m eaux qh ed gp)) in trace_un ed gp - c <> 0 /\ trace_un ed gp <> 0 /\ trace_un ed gp + c <> 0.
  (** The bed slope g grad(b) as derivative of the pressure source g ze grad(b). *)
  Definition slope_mat (e gp : nat) : mat3 :=
    M3 0 0 0 (g * nx (m_db m e gp)) 0 0 (g * ny (m_db m e gp)) 0 0.
End Points.

(** Open boundary state that does not depend on the interior state. *)
Definition prescribed (bc : bc_kind) : Prop :=
  match bc with Land => True | Exterior ex => forall t gp n q q', ex t gp n q = ex t gp n q' end.
Definition is_open (bc : bc_kind) : bool := match bc with Land => false | Exterior _ => true end.
Definition edge_bc (m : mesh) (ed : nat) : option bc_kind :=
  if (ed <? length (m_intfaces m))%nat then None
  else Some (b_bc (nth (ed - length (m_intfaces m)) (m_bounds m) (Bnd 0 0 Land))).
(** The conditions under which the equations of an edge are smooth in its trace, and
    under which they depend on the element only through its own trace. *)
Definition smooth_edge (m : mesh) (eaux : nat -> nat -> aux3 R) (g : R) (qh : nat -> coeffs) (ed : nat) : Prop :=
  match edge_bc m ed with
  | None => flowing m eaux qh ed
  | Some bc => is_open bc = true -> noncritical_edge m eaux g qh ed
  end.
Definition prescribed_edge (m : mesh) (ed : nat) : Prop :=
  match edge_bc m ed with None => True | Some bc => prescribed bc end.
Definition flat (m : mesh) (e : nat) : Prop := forall gp, (gp < length (m_rule2 m))%nat -> m_db m e gp = V2 0 0.

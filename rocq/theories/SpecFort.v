(** ADCIRC meshes that can be written and read back. *)
From Coq Require Import ZArith NArith List.
From Verif Require Import ModelStream ModelMeta ModelFort SpecMeta.
Import ListNotations.
Local Open Scope N_scope.

(** A finite double that is not subnormal. *)
Definition in_range (d : double) : Prop := normal d /\ (-1074 <= d_exp d <= 971)%Z.
Definition point_in_range (p : point3) : Prop := let '(x, y, z) := p in in_range x /\ in_range y /\ in_range z.
Definition short {A : Type} (l : list A) : Prop := N.of_nat (length l) < 4294967296.
Definition ids_list (l : list N) : Prop := uints l /\ short l.
Definition bar_ok (b : bar) : Prop := b_front b < 4294967296 /\ b_back b < 4294967296.
Definition land_ok (l : land) : Prop :=
  match l with
  | Plain t l => (is_plain t = true \/ t = 77 \/ t = 88) /\ t < 4294967296 /\ ids_list l
  | Barrier t l => is_barrier t = true /\ t < 4294967296 /\ short l /\ Forall bar_ok l
  end.
Definition total_ok (n : option N) : Prop := exists k, n = Some k /\ k < 4294967296.
Definition fort_ok (f : fort) : Prop :=
  word (ft_name f) /\
  ft_nodes f <> [] /\ entries (ft_nodes f) /\ Forall (fun n => point_in_range (snd n)) (ft_nodes f) /\
  entries (ft_elements f) /\ Forall (fun e => let '(a, b, c, d) := snd e in uints [a; b; c; d]) (ft_elements f) /\
  total_ok (ft_neta f) /\ short (ft_open f) /\ Forall ids_list (ft_open f) /\
  total_ok (ft_nvel f) /\ short (ft_land f) /\ Forall land_ok (ft_land f) /\
  (exists g, ft_generic f = Some g /\ total_ok (gn_total g) /\ short (gn_lists g) /\ Forall ids_list (gn_lists g)).

(** Everything but the coordinates and the barrier's heights and coefficients is the same,
    and those are within one part in 10^14. *)
Definition close_bar (a b : bar) : Prop :=
  b_front a = b_front b /\ b_back a = b_back b /\ close (b_height a) (b_height b) /\ close (b_sub a) (b_sub b) /\ close (b_super a) (b_super b).
Definition close_land (a b : land) : Prop :=
  match a, b with
  | Plain t l, Plain t' l' => t = t' /\ l = l'
  | Barrier t l, Barrier t' l' => t = t' /\ Forall2 close_bar l l'
  | _, _ => False
  end.
Definition close_fort (a b : fort) : Prop :=
  ft_name a = ft_name b /\
  Forall2 (fun m n => fst m = fst n /\ close_points (snd m) (snd n)) (ft_nodes a) (ft_nodes b) /\
  ft_elements a = ft_elements b /\ ft_neta a = ft_neta b /\ ft_open a = ft_open b /\ ft_nvel a = ft_nvel b /\
  Forall2 close_land (ft_land a) (ft_land b) /\ ft_generic a = ft_generic b.
(** Heights and coefficients that are normal, respectively decimal numbers of 15 digits. *)
Definition bars_all (P : double -> Prop) (l : land) : Prop :=
  match l with Plain _ _ => True | Barrier _ l => Forall (fun b => P (b_height b) /\ P (b_sub b) /\ P (b_super b)) l end.

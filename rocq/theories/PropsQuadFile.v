(** C47: the solver reads the generator's file. *)
From Coq Require Import String Reals ZArith NArith List Bool Lia Lra.
From Verif Require Import Num Outcome ModelStream ModelMeta ModelMesh ModelQuad ModelFort ModelQuadFile SpecMeta SpecQuadFile LemmasQuad LemmasQuadFile LemmasQuadFile2.
Import ListNotations.
Local Open Scope N_scope.

(** The mesh read is the mesh generated; the coordinates are rounded to twelve decimals. *)
Theorem C47_generated_mesh_is_read : forall nodes pat types m n, fits m n -> map fst nodes = nrange ((m + 1) * (n + 1)) ->
  exists els f, make_elements pat m n = Ok els /\ read_fort (write_quad nodes els types m n) = Ok f /\
    adcirc_of f = quad_adcirc types m n els /\
    Forall2 (fun a b => fst a = fst b /\ near_points (snd a) (snd b)) (ft_nodes f) nodes.
Proof. exact quad_file. Qed.
Print Assumptions C47_generated_mesh_is_read.

Definition four_nodes : list (N * point3) :=
  [(0, (to_double true 5 (-1), to_double false 0 0, to_double false 3 0)); (1, (to_double false 1 4, to_double false 0 0, to_double false 3 0));
   (2, (to_double true 5 (-1), to_double false 123456 (-3), to_double false 3 0)); (3, (to_double false 1 4, to_double false 123456 (-3), to_double false 3 0))].
Example C47_line : quad_node (2, (to_double true 5 (-1), to_double false 123456 (-3), to_double false 3 0)) =
  lit "2 -0.500000000000 123.456000000000 3.000000000000 " ++ [newline].
Proof. vm_compute. reflexivity. Qed.
Example C47_example : fits 1 1 /\ map fst four_nodes = nrange 4 /\
  match make_elements zigzag 1 1 with
  | Ok els => match read_fort (write_quad four_nodes els [1; 0; 3; 2] 1 1) with
              | Ok f => ft_nodes f = four_nodes /\ ft_elements f = [(0, (3, 0, 3, 2)); (1, (3, 0, 1, 3))] /\ ft_open f = [[0; 1]] /\
                        ft_land f = [Plain 0 [1; 3]; Plain 77 [2; 3]; Plain 2 [0; 2]] /\ ft_neta f = Some 2 /\ ft_nvel f = Some 6
              | _ => False end
  | _ => False end.
Proof. split; [repeat split; reflexivity|]. split; [reflexivity|]. vm_compute. repeat split; reflexivity. Qed.

(** Coordinates may be equal in the file though they are not in the mesh. *)
Theorem C47_small_refuted : exists a b, double_value a <> double_value b /\ print_fixed a = print_fixed b.
Proof.
  exists (Double false 4503599627370496 (-52)), (Double false 4503599627370497 (-52)). split; [|vm_compute; reflexivity].
  unfold double_value. cbn [d_neg d_man d_exp Z.of_N]. intros E. assert (P : (0 < powerRZ 2 (-52))%R) by (apply powerRZ_lt; lra). set (p := powerRZ 2 (-52)) in *. clearbody p. lra.
Qed.
Print Assumptions C47_small_refuted.

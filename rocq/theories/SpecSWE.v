(** Specifications for the shallow-water flux properties, over the reals.
    Nothing here refers to the transcribed functions, only to the records. *)
From Coq Require Import Reals.
From Verif Require Import Num ModelSWE.
Open Scope R_scope.

(** Unit normal. *)
Definition unit2 (n : vec2 R) : Prop := nx n * nx n + ny n * ny n = 1.
(** The two sides of a face see opposite normals. *)
Definition opposite (n m : vec2 R) : Prop := nx m = - nx n /\ ny m = - ny n.

(** Normal and tangential parts of the vector carried by a state or flux. *)
Definition normal_part (q : vec3 R) (n : vec2 R) : R := qx q * nx n + qy q * ny n.
Definition tangent_part (q : vec3 R) (n : vec2 R) : R := - qx q * ny n + qy q * nx n.

(** Physical normal flux of the shallow-water equations, written in vector
    form: mass is carried by the normal discharge, momentum by advection plus
    hydrostatic pressure along the normal. *)
Definition pressure (g z b : R) : R := g * (z * z / 2 + z * b).
Definition physical_flux (g : R) (q : vec3 R) (b : R) (n : vec2 R) : vec3 R :=
  let w := normal_part q n in
  V3 w (w * qx q / (ze q + b) + pressure g (ze q) b * nx n)
       (w * qy q / (ze q + b) + pressure g (ze q) b * ny n).

(** Fastest signal speed normal to the face: normal velocity plus celerity. *)
Definition wave_speed (g : R) (q : vec3 R) (b : R) (n : vec2 R) : R :=
  Rabs (normal_part q n / (ze q + b)) + sqrt (g * (ze q + b)).

(** [F] and [G] are equal and opposite. *)
Definition cancel (F G : vec3 R) : Prop := ze F + ze G = 0 /\ qx F + qx G = 0 /\ qy F + qy G = 0.

(** A levee is closed when both heads above the crest are within the 1 cm
    tolerance or the two heads agree within it. *)
Definition levee_closed (hi he : R) : Prop := (hi <= 1/100 /\ he <= 1/100) \/ Rabs (hi - he) <= 1/100.

(** Vocabulary of the rectification between two cameras, with rounding. *)
From Verif Require Import RoundedDepthMapModel RoundedCameraSpec.
Local Open Scope R_scope.

(** the point that the second camera measures at a pixel, and its coordinates for the first camera *)
Definition measured (fx fy cx cy : R) (row column : Z) (z : R) : vec :=
  mkV (at_depth fx cx z (IZR column)) (at_depth fy cy z (IZR row)) z.
Definition moved (t : m4) (p : vec) : vec :=
  mkV (dot (r0 (lin t)) p + vx (col t)) (dot (r1 (lin t)) p + vy (col t)) (dot (r2 (lin t)) p + vz (col t)).
(** the field of view is not extreme: directions have a slope of at most three *)
Definition not_extreme (fx fy cx cy : R) (row column : Z) : Prop :=
  IZR column + 2 * cx <= 3 * fx /\ IZR row + 2 * cy <= 3 * fy.

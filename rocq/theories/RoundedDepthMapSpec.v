(** Vocabulary of the rectification with rounding. *)
From Verif Require Import RoundedDepthMapModel RoundedCameraSpec.
From Flocq Require Import Core.
Local Open Scope R_scope.

Definition a_float (x : R) : Prop := generic_format radix2 (FLT_exp (-149) 24) x.
(** the two cameras are at the same place, with the same orientation: nothing to rectify *)
Definition aligned : m4 := mkM4 (mkM3 (mkV 1 0 0) (mkV 0 1 0) (mkV 0 0 1)) v0 v0 1.
(** a measured depth, in millimeters: a float from one millimeter to 100 meters *)
Definition usual_depth (z : R) : Prop := a_float z /\ 1 <= z <= 100000.
(** a depth image: each depth is missing (not positive) or usual *)
Definition usual_image (depth : Z -> Z -> R) : Prop := forall row column, depth row column <= 0 \/ usual_depth (depth row column).

(** Model of the decisions on counts that the program takes with floating point numbers: each
    operation is rounded to nearest even, in double or in single precision.
    Simplified: overflow is not modelled (the counts are bounded in the theorems). *)
From Coq Require Import ZArith Reals Bool.
From Flocq Require Import Core.
Local Open Scope R_scope.

Definition in_double (x : R) : R := round radix2 (FLT_exp (-1074) 53) ZnearestE x.
Definition in_single (x : R) : R := round radix2 (FLT_exp (-149) 24) ZnearestE x.

(** *** Staged points *)
(** [get_confidence], /repo/src/map_management/map_features/map_point.cpp:268-274 and
    map_point2d.cpp:286-292: [pointStagedAgeConfidence] is 3 (parameters.hpp:108) *)
Definition confidence (count : Z) : R :=
  Rmax (-1) (Rmin 1 (in_double (IZR count * in_double (1 / 3)))).
(** [should_remove_from_staged], map_point.cpp:260, map_point2d.cpp:278 *)
Definition should_remove (count : Z) : bool := Rle_bool (confidence count) 0.
(** [should_add_to_local_map], map_point.cpp:262-266, map_point2d.cpp:280-284, parameters.hpp:109 *)
Definition should_add (count : Z) : bool := Rlt_bool (in_double (9 / 10)) (confidence count).

(** *** Matching of descriptors *)
(** /repo/src/features/keypoints/keypoint_handler.cpp:270, [maximumMatchDistance] is 0.7
    (parameters.hpp:96); the distances are Hamming distances of 256 bits *)
Definition is_good_match (first second : Z) : bool :=
  Rlt_bool (IZR first) (in_double (in_double (7 / 10) * IZR second)).

(** *** Detection of planes and cylinders *)
(** /repo/src/features/primitives/primitive_detection.cpp:278-279, parameters.hpp:71-72 *)
Definition minimum_seeds (cells : Z) : Z := Zfloor (in_double (in_double (in_double (8 / 10) / 100) * IZR cells)).
(** primitive_detection.cpp:362-363 and cylinder_segment.cpp:144-145, parameters.hpp:73-74 *)
Definition minimum_activated (cells : Z) : Z := Zfloor (in_double (in_double (in_double (65 / 100) / 100) * IZR cells)).
(** cylinder_segment.cpp:146: [planeSegmentsLeft > 0.1 * _cellActivatedCount] *)
Definition enough_left (left activated : Z) : bool := Rlt_bool (in_double (in_double (1 / 10) * IZR activated)) (IZR left).
(** cylinder_segment.cpp:240 *)
Definition accepted_inliers (left : Z) : Z := Zfloor (in_double (in_double (9 / 10) * IZR left)).
(** [_minZeroPointCount], plane_segment.hpp:33-34, parameters.hpp:75-76; in single precision *)
Definition minimum_zero_points (points : Z) : Z := Zfloor (in_single (in_single (IZR points) * in_single (7 / 10))).

(** *** End of the RANSAC *)
(** [inliersToStop], /repo/src/pose_optimization/pose_optimization.cpp:141-142;
    [minimumInliersProportionForEarlyStop] is [0.80f] converted to double (parameters.hpp:31-32) *)
Definition inliers_to_stop (matches : Z) : Z := Zceil (in_double (in_double (IZR matches) * in_double (in_single (8 / 10)))).
(** 221-225: may an iteration stop the others *)
Definition stops (iteration inliers matches : Z) : bool := (3 <=? iteration)%Z && (inliers_to_stop matches <? inliers)%Z.

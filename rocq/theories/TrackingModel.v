(** Model of the tracked points, inverse depth points and planes.
    Source: /repo/src/tracking/point_with_tracking.cpp, inverse_depth_with_tracking.cpp,
    plane_with_tracking.cpp. Numbers are the elements of any ordered field. Descriptors are not
    modelled. *)
From mathcomp Require Import all_ssreflect all_algebra.
From Verif Require Import KalmanModel.
Import Order.TTheory GRing.Theory Num.Theory.
Set Implicit Arguments.
Unset Strict Implicit.
Unset Printing Implicit Defensive.
Local Open Scope ring_scope.

Section Tracking.
Variable R : realFieldType.
(** the [epsilon] of [double_equal] in the Kalman filter *)
Variable epsilon : R.

(** The square of the norm; the scores below are squares, to need no square root *)
Definition norm2 n (v : 'cV[R]_n) : R := (v^T *m v) 0 0.
(** [((x - z).array() > covariance.diagonal().cwiseSqrt().array()).any()], with squares *)
Definition moved n (x z : 'cV[R]_n) (N : 'M[R]_n) : bool :=
  [exists i, (0 < x i 0 - z i 0) && (N i i < (x i 0 - z i 0) ^+ 2)].
(** The filter of points, planes and inverse depth points: no dynamics, everything is measured *)
Definition still n (noise : R) : filter R n n := Filter 1%:M 1%:M noise%:M.

(** ** Points *)
Record point := Point { coordinates : 'cV[R]_3; point_covariance : 'M[R]_3; moving : bool }.
Inductive result := Score of R | Refused | Exits.
(** The constructor, point_with_tracking.cpp:15-30; [None]: throws *)
Definition new_point (x : 'cV[R]_3) (P : 'M[R]_3) : option point :=
  if ~~ is_covariance_valid P then None else Some (Point x P false).
(** [Point::track], 32-66. [Refused]: returns -1. *)
Definition track_point (p : point) (z : 'cV[R]_3) (N : 'M[R]_3) : point * result :=
  if ~~ is_covariance_valid N then (p, Refused)
  else if ~~ is_covariance_valid (point_covariance p) then (p, Exits)
  else match get_new_state epsilon (still 3 (10%:R ^+ 3)^-1) (coordinates p) (point_covariance p) z N with
       | Returns (x, P) =>
           (Point x P (moved (coordinates p) z N), Score (norm2 (coordinates p - x)))
       | _ => (p, Refused)
       end.
Fixpoint track_points (p : point) (measures : seq ('cV[R]_3 * 'M[R]_3)) : point * seq result :=
  match measures with
  | [::] => (p, [::])
  | (z, N) :: l => let: (p', r) := track_point p z N in let: (p'', rs) := track_points p' l in (p'', r :: rs)
  end.

(** ** Planes *)
Section Planes.
(** Polygons and detections; the normalisation of the normal (plane_coordinates.hpp:17-45) and
    [update_boundary_polygon], which can fail (plane_with_tracking.cpp:62-83) *)
Variables (polygon detection : Type).
Variable normalise : 'cV[R]_4 -> 'cV[R]_4.
Variable merge : 'cV[R]_4 -> polygon -> detection -> polygon * bool.
Record plane := Plane { parameters : 'cV[R]_4; plane_covariance : 'M[R]_4; boundary : polygon }.
Inductive plane_result := Plane_score of R | Plane_throws | Plane_exits.
(** [Plane::track], plane_with_tracking.cpp:18-60: a refused measure returns [false], which is
    the score 0 *)
Definition track_plane (p : plane) (z : 'cV[R]_4) (N : 'M[R]_4) (d : detection) : plane * plane_result :=
  if ~~ is_covariance_valid N then (p, Plane_score 0)
  else if ~~ is_covariance_valid (plane_covariance p) then (p, Plane_exits)
  else match get_new_state epsilon (still 4 (10%:R ^+ 6)^-1) (parameters p) (plane_covariance p) z N with
       | Returns (x, P) =>
           let new_parameters := normalise x in
           let: (b, merged) := merge new_parameters (boundary p) d in
           (Plane new_parameters P b,
            if merged then Plane_score (norm2 (parameters p - new_parameters)) else Plane_throws)
       | _ => (p, Plane_throws)
       end.
Fixpoint track_planes (p : plane) (measures : seq ('cV[R]_4 * 'M[R]_4 * detection)) : plane * seq plane_result :=
  match measures with
  | [::] => (p, [::])
  | (z, N, d) :: l => let: (p', r) := track_plane p z N d in let: (p'', rs) := track_planes p' l in (p'', r :: rs)
  end.
End Planes.

(** ** Inverse depth points *)
Section InverseDepth.
(** The changes of coordinates of inverse_depth_coordinates.cpp (see InverseDepthModel.v). A
    jacobian which is not finite is [None]. *)
Variable coords : Type.
Record changes := Changes
  { first_observation : coords -> 'cV[R]_3;
    to_world : coords -> 'cV[R]_3;
    world_jacobian : coords -> 'M[R]_3;
    from_cartesian : 'cV[R]_3 -> 'cV[R]_3 -> coords;
    from_jacobian : 'cV[R]_3 -> 'cV[R]_3 -> option 'M[R]_3 }.
Variable ch : changes.
Record idpoint := IdPoint { id_coords : coords; id_covariance : 'M[R]_(3 + 3); id_moving : bool }.
(** [compute_cartesian_covariance], inverse_depth_with_tracking.cpp:182-207; the jacobian of
    [to_world_coordinates] has an identity first block (inverse_depth_coordinates.cpp:137) *)
Definition cartesian_covariance (c : coords) (P : 'M[R]_(3 + 3)) : outcome 'M[R]_3 :=
  if ~~ is_covariance_valid P then Invalid_argument
  else let w := propagate_covariance P (row_mx 1%:M (world_jacobian ch c)) in
       if ~~ is_covariance_valid w then Logic_error else Returns w.
(** [compute_inverse_depth_covariance], 209-229; the first block of the jacobian is null
    (inverse_depth_coordinates.cpp:83-84). A matrix which is not finite is not valid. *)
Definition inverse_depth_covariance (P F : 'M[R]_3) (jacobian : option 'M[R]_3) : outcome 'M[R]_(3 + 3) :=
  if ~~ is_covariance_valid P then Invalid_argument
  else if ~~ is_covariance_valid F then Invalid_argument
  else match jacobian with
       | None => Logic_error
       | Some J =>
           let res := propagate_covariance P (col_mx 0 J) in
           let res := block_mx F (ursubmx res) (dlsubmx res) (drsubmx res) in
           if ~~ is_covariance_valid res then Logic_error else Returns res
       end.
(** The constructor, 24-46; [None]: throws. [depth] and [angle] are the variances of new
    observations *)
Definition new_idpoint (depth angle : R) (c : coords) (state : 'M[R]_3) : option idpoint :=
  if ~~ is_covariance_valid state then None
  else let P := block_mx state 0 0 (diag_mx (\row_i (if (i == 0 :> 'I_3) then depth else angle))) in
       if ~~ is_covariance_valid P then None else Some (IdPoint c P false).
Inductive id_result := Updated | Not_updated | Id_exits.
(** [update_with_cartesian], 108-170. An exception is caught: the members assigned before it
    keep their new value. *)
Definition update_with_cartesian (p : idpoint) (z : 'cV[R]_3) (N : 'M[R]_3) : idpoint * id_result :=
  if ~~ is_covariance_valid N then (p, Not_updated)
  else if ~~ is_covariance_valid (id_covariance p) then (p, Id_exits)
  else match cartesian_covariance (id_coords p) (id_covariance p) with
       | Returns W =>
           match get_new_state epsilon (still 3 (10%:R ^+ 4)^-1) (to_world ch (id_coords p)) W z N with
           | Returns (x, P) =>
               if ~~ is_covariance_valid P then (p, Not_updated)
               else
                 let m := moved (to_world ch (id_coords p)) z N in
                 let origin := first_observation ch (id_coords p) in
                 let c := from_cartesian ch x origin in
                 match inverse_depth_covariance P (ulsubmx (id_covariance p)) (from_jacobian ch x origin) with
                 | Returns Q => (IdPoint c Q m, Updated)
                 | _ => (IdPoint c (id_covariance p) m, Not_updated)
                 end
           | _ => (p, Not_updated)
           end
       | _ => (p, Not_updated)
       end.
Fixpoint update_all (p : idpoint) (measures : seq ('cV[R]_3 * 'M[R]_3)) : idpoint * seq id_result :=
  match measures with
  | [::] => (p, [::])
  | (z, N) :: l => let: (p', r) := update_with_cartesian p z N in let: (p'', rs) := update_all p' l in (p'', r :: rs)
  end.
End InverseDepth.
End Tracking.

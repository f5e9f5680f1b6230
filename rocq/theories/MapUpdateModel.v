(** Model of the construction of the map features and of their update with a match.
    Source: /repo/src/map_management/map_features/map_point.cpp, map_point2d.cpp,
    map_primitive.cpp, /repo/src/utils/covariances.cpp:108-226. Numbers are the elements of any
    ordered field. The conversions of coordinates and their jacobians are arguments (they are
    modelled in GeometryModel.v and InverseDepthModel.v). *)
From mathcomp Require Import all_ssreflect all_algebra.
From Verif Require Import KalmanModel TrackingModel.
Import Order.TTheory GRing.Theory Num.Theory.
Set Implicit Arguments.
Unset Strict Implicit.
Unset Printing Implicit Defensive.
Local Open Scope ring_scope.

(** The return value of an update, the [exit] of the library, or the end of the program when an
    exception leaves a function which is [noexcept] *)
Inductive update_result := Success | Failure | Exits_program | Terminates.

Section MapUpdate.
Variable R : realFieldType.
Variable epsilon : R.
(** Descriptors, and [cv::Mat::empty] *)
Variables (descriptor : Type) (empty : descriptor -> bool).
Variables (coords : Type) (ch : changes R coords).
(** The variances of a new inverse depth point, inverse_depth_with_tracking.cpp:39-46 *)
Variables (depth_variance angle_variance : R).

(** A detected keypoint seen from a pose: whether its depth is valid, its world coordinates and
    the covariance of its camera coordinates, then its inverse depth coordinates from the pixel
    ([None]: the constructor throws), and its descriptor *)
Record keypoint := Keypoint
  { k_depth_valid : bool; k_world : 'cV[R]_3; k_camera_covariance : 'M[R]_3;
    k_ray : option coords; k_descriptor : descriptor }.
(** A pose: the rotation from the camera to the world and the covariance of the position *)
Record pose := Pose { rotation : 'M[R]_3; pose_covariance : 'M[R]_3 }.

(** [get_world_point_covariance], covariances.cpp:57-73 *)
Definition world_point_covariance (k : keypoint) (v : pose) : 'M[R]_3 :=
  propagate_covariance (k_camera_covariance k) (rotation v) + pose_covariance v.
(** A pixel without depth: [PointInverseDepth] then [compute_cartesian_covariance],
    map_point.cpp:221-226, inverse_depth_with_tracking.cpp:67-73. [None]: throws *)
Definition ray_measure (k : keypoint) (v : pose) : option ('cV[R]_3 * 'M[R]_3) :=
  match k_ray k with
  | None => None
  | Some c =>
      match new_idpoint depth_variance angle_variance c (pose_covariance v) with
      | None => None
      | Some o =>
          match cartesian_covariance ch (id_coords o) (id_covariance o) with
          | Returns W => Some (to_world ch (id_coords o), W)
          | _ => None
          end
      end
  end.

(** ** 3D points *)
Record map_point := MapPoint { mp_point : point R; mp_descriptor : descriptor }.
(** The constructor of [tracking::Point], point_with_tracking.cpp:15-30. [None]: throws *)
Definition build_point (x : 'cV[R]_3) (P : 'M[R]_3) (d : descriptor) : option map_point :=
  if empty d then None else match new_point x P with Some p => Some (MapPoint p d) | None => None end.
(** [StagedMapPoint::can_add_to_map], map_point.hpp:128-131 *)
Definition point_can_add (k : keypoint) : bool := ~~ empty (k_descriptor k) && k_depth_valid k.
(** [StagedMapPoint], map_point.cpp:248-255 *)
Definition staged_point (v : pose) (k : keypoint) : option map_point :=
  build_point (k_world k) (world_point_covariance k v) (k_descriptor k).
(** [LocalMapPoint] of a staged one, 276-284; the moving flag starts false *)
Definition local_point (p : map_point) : option map_point :=
  build_point (coordinates (mp_point p)) (point_covariance (mp_point p)) (mp_descriptor p).
(** the part of [update_with_match] after the measure, 208-216 and 228-236 *)
Definition point_track (p : map_point) (z : 'cV[R]_3) (N : 'M[R]_3) (d : descriptor) : map_point * update_result :=
  match track_point epsilon (mp_point p) z N with
  | (q, Refused) => (MapPoint q (mp_descriptor p), Failure)
  | (q, Exits) => (MapPoint q (mp_descriptor p), Exits_program)
  | (q, Score s) =>
      if s < 0 then (MapPoint q (mp_descriptor p), Failure)
      else (MapPoint q (if empty d then mp_descriptor p else d), Success)
  end.
(** [MapPoint::update_with_match], 187-240. [matched]: it has a match index. *)
Definition update_point (p : map_point) (matched : bool) (v : pose) (k : keypoint) : map_point * update_result :=
  if ~~ matched then (p, Failure)
  else if k_depth_valid k then point_track p (k_world k) (world_point_covariance k v) (k_descriptor k)
  else match ray_measure k v with
       | None => (p, Terminates)
       | Some (z, N) => point_track p z N (k_descriptor k)
       end.

(** ** 2D points *)
Record map_point2d := MapPoint2D { mp2_point : idpoint R coords; mp2_descriptor : descriptor }.
(** [StagedMapPoint2D::can_add_to_map], map_point2d.hpp:127-130, and the constructor,
    map_point2d.cpp:271-276 *)
Definition point2d_can_add (k : keypoint) : bool := ~~ empty (k_descriptor k) && ~~ k_depth_valid k.
Definition staged_point2d (v : pose) (k : keypoint) : option map_point2d :=
  match k_ray k with
  | None => None
  | Some c => match new_idpoint depth_variance angle_variance c (pose_covariance v) with
              | Some p => Some (MapPoint2D p (k_descriptor k))
              | None => None
              end
  end.
(** [LocalMapPoint2D], 299-306: the copy constructor of [PointInverseDepth],
    inverse_depth_with_tracking.cpp:52-59; the moving flag starts false *)
Definition local_point2d (p : map_point2d) : option map_point2d :=
  if ~~ is_covariance_valid (id_covariance (mp2_point p)) then None
  else Some (MapPoint2D (IdPoint (id_coords (mp2_point p)) (id_covariance (mp2_point p)) false) (mp2_descriptor p)).
(** [update_with_cartesian] with its descriptor *)
Definition point2d_track (p : map_point2d) (z : 'cV[R]_3) (N : 'M[R]_3) (d : descriptor) : map_point2d * update_result :=
  match update_with_cartesian epsilon ch (mp2_point p) z N with
  | (q, Updated) => (MapPoint2D q (if empty d then mp2_descriptor p else d), Success)
  | (q, Not_updated) => (MapPoint2D q (mp2_descriptor p), Failure)
  | (q, Id_exits) => (MapPoint2D q (mp2_descriptor p), Exits_program)
  end.
(** [MapPoint2D::update_with_match], map_point2d.cpp:243-260, with the two [track] of
    inverse_depth_with_tracking.cpp:61-106, which catch the exceptions *)
Definition update_point2d (p : map_point2d) (matched : bool) (v : pose) (k : keypoint) : map_point2d * update_result :=
  if ~~ matched then (p, Failure)
  else if k_depth_valid k then point2d_track p (k_world k) (world_point_covariance k v) (k_descriptor k)
  else match ray_measure k v with
       | None => (p, Failure)
       | Some (z, N) => point2d_track p z N (k_descriptor k)
       end.

(** ** Planes *)
Section Planes.
(** Detections (their polygon) and world polygons, see [TrackingModel]; the transformation of a
    polygon to the world *)
Variables (polygon detection : Type).
Variable normalise : 'cV[R]_4 -> 'cV[R]_4.
Variable merge : 'cV[R]_4 -> polygon -> detection -> polygon * bool.
Variable to_world_polygon : detection -> polygon.
(** [double_equal(d, 0)] and [double_equal(normal.norm(), 1)] *)
Variables (null_distance unit_normal : 'cV[R]_4 -> bool).
(** The jacobians of covariances.cpp:131-136 and 177-181 *)
Variables (jacobian : 'cV[R]_4 -> 'M[R]_(4, 3)) (reduced_jacobian : 'cV[R]_4 -> 'M[R]_(3, 4)).
(** A detected plane: its parameters in the camera and in the world, the covariance of its
    points, its polygon *)
Record detected_plane := DetectedPlane
  { dp_parameters : 'cV[R]_4; dp_world : 'cV[R]_4; dp_cloud : 'M[R]_3; dp_detection : detection }.

Definition bind_outcome (A B : Type) (o : outcome A) (f : A -> outcome B) : outcome B :=
  match o with Returns a => f a | Invalid_argument => Invalid_argument | Logic_error => Logic_error end.
(** the 0.01 added to the diagonals *)
Definition margin : R := (10%:R ^+ 2)^-1.
(** [compute_plane_covariance], covariances.cpp:108-155 *)
Definition compute_plane_covariance (p : 'cV[R]_4) (C : 'M[R]_3) : outcome 'M[R]_4 :=
  if ~~ is_covariance_valid C then Invalid_argument
  else if null_distance p then Invalid_argument
  else if ~~ unit_normal p then Invalid_argument
  else let res := propagate_covariance C (jacobian p) + margin%:M in
       if ~~ is_covariance_valid res then Logic_error else Returns res.
(** [compute_reduced_plane_point_cloud_covariance], 157-193 *)
Definition reduced_plane_covariance (p : 'cV[R]_4) (C : 'M[R]_4) : outcome 'M[R]_3 :=
  if ~~ is_covariance_valid C then Invalid_argument
  else if null_distance p then Invalid_argument
  else if ~~ unit_normal p then Invalid_argument
  else let res := propagate_covariance C (reduced_jacobian p) + margin%:M in
       if ~~ is_covariance_valid res then Logic_error else Returns res.
(** [get_world_plane_covariance], 195-224 *)
Definition world_plane_covariance (d : detected_plane) (v : pose) (C : 'M[R]_4) : outcome 'M[R]_4 :=
  if ~~ is_covariance_valid C then Invalid_argument
  else bind_outcome (reduced_plane_covariance (dp_parameters d) C) (fun P =>
         let W := propagate_covariance P (rotation v) + pose_covariance v in
         if ~~ is_covariance_valid W then Logic_error
         else compute_plane_covariance (dp_world d) W).
(** [StagedMapPlane], map_primitive.cpp:262-288. [None]: throws *)
Definition staged_plane (v : pose) (d : detected_plane) : option (plane R polygon) :=
  match compute_plane_covariance (dp_parameters d) (dp_cloud d) with
  | Returns C =>
      match world_plane_covariance d v C with
      | Returns W =>
          if ~~ unit_normal (dp_world d) then None
          else Some (Plane (dp_world d) W (to_world_polygon (dp_detection d)))
      | _ => None
      end
  | _ => None
  end.
(** [LocalMapPlane], 298-320. [None]: throws *)
Definition local_plane (p : plane R polygon) : option (plane R polygon) :=
  if ~~ is_covariance_valid (plane_covariance p) then None
  else if ~~ unit_normal (parameters p) then None else Some p.
(** [MapPlane::update_with_match], 206-251: the score of [track] is not looked at, every
    exception is caught *)
Definition update_plane (p : plane R polygon) (matched : bool) (v : pose) (d : detected_plane) : plane R polygon * update_result :=
  if ~~ matched then (p, Failure)
  else match compute_plane_covariance (dp_parameters d) (dp_cloud d) with
       | Returns C =>
           if ~~ is_covariance_valid C then (p, Failure)
           else match world_plane_covariance d v C with
                | Returns W =>
                    if ~~ is_covariance_valid W then (p, Failure)
                    else match track_plane epsilon normalise merge p (dp_world d) W (dp_detection d) with
                         | (q, Plane_score _) => (q, Success)
                         | (q, Plane_throws) => (q, Failure)
                         | (q, Plane_exits) => (q, Exits_program)
                         end
                | _ => (p, Failure)
                end
       | _ => (p, Failure)
       end.
End Planes.

(** Histories: updates with a match or without *)
Fixpoint updates (S K : Type) (update : S -> bool -> pose -> K -> S * update_result) (s : S) (l : seq (bool * pose * K)) : S * seq update_result :=
  match l with
  | [::] => (s, [::])
  | (m, v, k) :: l => let: (s', r) := update s m v k in let: (s'', rs) := updates update s' l in (s'', r :: rs)
  end.
End MapUpdate.

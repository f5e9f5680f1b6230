(** Model of the spherical and inverse depth coordinates, and of the changes of covariances.
    Source: /repo/src/coordinates/inverse_depth_coordinates.cpp, basis_changes.cpp,
    /repo/src/utils/covariances.cpp, line.hpp, distance_utils.cpp. Numbers are reals:
    rounding is not modelled. *)
From Verif Require Export GeometryModel Atan2.
From Verif Require Import PlaneSegmentModel.
Local Open Scope R_scope.

(** ** Spherical coordinates: a vector of the radius, theta and phi *)

(** [Cartesian::from], basis_changes.cpp:5-10 *)
Definition cartesian_from (s : vec) : vec :=
  let sin_theta := sin (vy s) in
  mkV (vx s * sin_theta * cos (vz s)) (vx s * sin_theta * sin (vz s)) (vx s * cos (vy s)).
(** Its jacobian, basis_changes.cpp:12-28 *)
Definition cartesian_jacobian (s : vec) : mat :=
  let sin_theta := sin (vy s) in let cos_theta := cos (vy s) in
  let sin_phi := sin (vz s) in let cos_phi := cos (vz s) in
  let d := vx s in
  let theta1 := sin_phi * sin_theta in
  let theta2 := cos_phi * sin_theta in
  mkM3 (mkV theta2 (d * cos_theta * cos_phi) (- d * theta1))
       (mkV theta1 (d * cos_theta * sin_phi) (d * theta2))
       (mkV cos_theta (- d * sin_theta) 0).
(** [Spherical::from], basis_changes.cpp:30-33 *)
Definition spherical_from (c : vec) : vec :=
  mkV (norm c) (atan2 (sqrt (vx c * vx c + vy c * vy c)) (vz c)) (atan2 (vy c) (vx c)).
(** Its jacobian, basis_changes.cpp:35-54 *)
Definition spherical_jacobian (c : vec) : mat :=
  let x := vx c in let y := vy c in let z := vz c in
  let theta1 := x * x + y * y + z * z in
  let theta2 := x * x + y * y in
  let sqrt1 := sqrt theta1 in
  let sqrt2 := sqrt theta2 in
  let inverse := 1 / (sqrt2 * theta1) in
  mkM3 (mkV (x / sqrt1) (y / sqrt1) (z / sqrt1))
       (mkV (x * z * inverse) (y * z * inverse) (- sqrt2 / theta1))
       (mkV (- y / theta2) (x / theta2) 0).

(** ** Inverse depth points *)

(** [InverseDepthWorldPoint]; the bearing vector is a function of the angles *)
Record idp := mkIdp { first : vec; inverse_depth : R; theta : R; phi : R }.
(** [_bearingVector], inverse_depth_coordinates.cpp:23 *)
Definition bearing (p : idp) : vec := cartesian_from (mkV 1 (theta p) (phi p)).
(** A construction gives a point, or throws; [Infinite]: its inverse depth is infinite *)
Inductive outcome := Built (p : idp) | Refused | Infinite.
(** The constructor, inverse_depth_coordinates.cpp:15-31 *)
Definition make_idp (first_pose : vec) (inverse t f : R) : outcome :=
  if Rlt_dec inverse 0 then Refused
  else if Rlt_dec t 0 then Refused else if Rlt_dec PI t then Refused
  else if Rlt_dec f (- PI) then Refused else if Rlt_dec PI f then Refused
  else Built (mkIdp first_pose inverse t f).
(** [from_cartesian], inverse_depth_coordinates.cpp:70-77. It cannot let an exception out:
    [Refused] would end the program *)
Definition from_cartesian (point origin : vec) : outcome :=
  let s := spherical_from (vsub point origin) in
  if Req_EM_T (vx s) 0 then Infinite else make_idp origin (1 / vx s) (vy s) (vz s).
(** The second block of the jacobian of [from_cartesian], 79-104; the first block is null *)
Definition from_cartesian_jacobian (point origin : vec) : mat :=
  let v := vsub point origin in
  let x := vx v in let y := vy v in let z := vz v in
  let theta1 := x * x + y * y in
  let theta5 := theta1 + z * z in
  let theta4 := 1 / (theta5 * sqrt theta5) in
  let over1 := 1 / theta1 in
  let sqrt1 := sqrt theta1 in
  let sqrt15 := 1 / (sqrt1 * theta5) in
  mkM3 (mkV (- x * theta4) (- y * theta4) (- z * theta4))
       (mkV (x * z * sqrt15) (y * z * sqrt15) (- sqrt1 / theta5))
       (mkV (- y * over1) (x * over1) 0).
(** [to_world_coordinates], 106-110; [None]: at infinity (the assertion is for debug builds) *)
Definition to_world (p : idp) : option vec :=
  if Req_EM_T (inverse_depth p) 0 then None
  else Some (vadd (first p) (vscal (/ inverse_depth p) (bearing p))).
(** The second block of the jacobian of [to_world_coordinates], 112-140; the first block is
    the identity *)
Definition to_world_jacobian (p : idp) : mat :=
  let sin_theta := sin (theta p) in let cos_theta := cos (theta p) in
  let sin_phi := sin (phi p) in let cos_phi := cos (phi p) in
  let d := 1 / inverse_depth p in
  let d_sqr := 1 / (inverse_depth p * inverse_depth p) in
  let theta1 := sin_phi * sin_theta in
  let theta2 := cos_phi * sin_theta in
  let cos_over := cos_theta * d in
  mkM3 (mkV (- theta2 * d_sqr) (cos_phi * cos_over) (- theta1 * d))
       (mkV (- theta1 * d_sqr) (sin_phi * cos_over) (theta2 * d))
       (mkV (- cos_theta * d_sqr) (- sin_theta * d) 0).
(** [ScreenCoordinate2D::to_camera_coordinates], point_coordinates.cpp:80-98 *)
Definition screen_direction (ki : mat) (x y : R) : vec :=
  let h := mvmul ki (mkV x y 1) in mkV (vx h) (vy h) 1.
(** [inverseDepthBaseline], parameters.hpp:64 *)
Definition inverse_depth_baseline : R := 1 / 1000.
(** The constructor from a pixel, 33-45 *)
Definition from_screen (ki : mat) (c2w : m4) (x y : R) : outcome :=
  match from_cartesian (point_to_world c2w (screen_direction ki x y)) (col c2w) with
  | Built p => Built (mkIdp (first p) (inverse_depth_baseline / 2) (theta p) (phi p))
  | o => o
  end.
(** [get_furthest_estimation], 142-147 and [get_closest_estimation], 149-154; [None]: at
    infinity *)
Definition estimation (p : idp) (inverse : R) : option vec :=
  if Req_EM_T inverse 0 then None else Some (vadd (first p) (vscal (/ inverse) (bearing p))).
Definition furthest_estimation (p : idp) (deviation : R) : option vec :=
  estimation p (Rmin (inverse_depth p - deviation * 3) (1 / 10 ^ 9)).
Definition closest_estimation (p : idp) (deviation : R) : option vec :=
  estimation p (Rmin (inverse_depth p + deviation * 3) (1 / 10 ^ 9)).

(** ** Angles and segments *)

(** [angle_distance], distance_utils.cpp:6-9 *)
Definition angle_distance (a b : R) : R := atan2 (sin (a - b)) (cos (a - b)).
(** [Segment::compute_normal], line.hpp:93-97 *)
Definition segment_normal (start stop : vec) : vec := vnormalized (vsub stop start).
(** [ILine::get_closest_point_on_line], line.hpp:26-32, of a segment *)
Definition closest_on_segment (start stop point : vec) : vec :=
  let n := segment_normal start stop in vadd start (vscal (dot (vsub point start) n) n).
(** [ILine::distance], line.hpp:37-40 *)
Definition segment_distance (start stop point : vec) : vec := vsub point (closest_on_segment start stop point).

(** ** Changes of covariances *)

(** [propagate_covariance], covariances.hpp:55-64, from 3 to 3 dimensions, for a symmetric
    covariance: then the two symmetric views change nothing *)
Definition propagate (cov jacobian : mat) : mat := mmul jacobian (mmul cov (mT jacobian)).
(** The jacobian of [get_screen_point_covariance], covariances.cpp:21-32 *)
Definition screen_jacobian (fx fy : R) (p : vec) : mat :=
  mkM3 (mkV (fx / vz p) 0 (- fx * vx p / (vz p * vz p)))
       (mkV 0 (fy / vz p) (- fy * vy p / (vz p * vz p)))
       (mkV 0 0 1).
Definition screen_covariance (fx fy : R) (p : vec) (cov : mat) : mat := propagate cov (screen_jacobian fx fy p).
(** The overload for a world point, 34-38, takes the world coordinates as camera coordinates *)
Definition screen_covariance_of_world (fx fy : R) (world : vec) (cov : mat) : mat :=
  screen_covariance fx fy world cov.
(** The jacobian of [get_camera_point_covariance] of a screen point, 80-94 *)
Definition camera_jacobian (fx fy cx cy : R) (s : vec) : mat :=
  mkM3 (mkV (vz s / fx) 0 (Rabs (vx s - cx) / fx))
       (mkV 0 (vz s / fy) (Rabs (vy s - cy) / fy))
       (mkV 0 0 1).
Definition camera_covariance (fx fy cx cy : R) (s : vec) (cov : mat) : mat := propagate cov (camera_jacobian fx fy cx cy s).
(** [get_depth_quantization], covariances.cpp:12-19, for the three parameters, and
    [ScreenCoordinate::get_covariance], point_coordinates.cpp:123-143 *)
Definition depth_quantization (margin multiplier sigma depth : R) : R :=
  Rmax (margin + multiplier / 1000 * depth + sigma * (1 / 1000 * (1 / 1000)) * (depth * depth)) (1 / 2).
Definition screen_point_covariance (margin multiplier sigma : R) (s : vec) (depth_valid : bool) : mat :=
  let q := if depth_valid then depth_quantization margin multiplier sigma (vz s) else 1000 in
  mkM3 (mkV (1 / 100) 0 0) (mkV 0 (1 / 100) 0) (mkV 0 0 q).
(** [get_world_point_covariance] and [get_camera_point_covariance] between the camera and the
    world, 46-66: the linear part, for a rigid transformation, and the covariance of the pose *)
Definition move_covariance (m : m4) (cov pose_cov : mat) : mat := madd (propagate cov (lin m)) pose_cov.

(** The jacobian of [compute_plane_covariance], 115-136: 4 rows of 3 *)
Record mat43 := mkM43 { upper : mat; lower : vec }.
Definition plane_jacobian (p : plane) : mat43 :=
  let v := vscal (pl_d p) (pl_normal p) in
  let a := vx v in let b := vy v in let c := vz v in
  let s := a * a + b * b + c * c in
  let divider := s * sqrt s in
  let common := 1 / sqrt s in
  mkM43 (mkM3 (mkV (common - a * a / divider) (- (a * b) / divider) (- (a * c) / divider))
              (mkV (- (a * b) / divider) (common - b * b / divider) (- (b * c) / divider))
              (mkV (- (a * c) / divider) (- (b * c) / divider) (common - c * c / divider)))
        (mkV (- a / divider) (- b / divider) (- c / divider)).
(** The jacobian of [compute_reduced_plane_point_cloud_covariance], 176-181: 3 rows of 4, as
    its first three columns and its last one *)
Definition reduced_jacobian (p : plane) : mat * vec :=
  (mscal (pl_d p) mid, pl_normal p).
(** [propagate_covariance] with these, with an epsilon on the diagonal; a covariance of the
    four parameters of a plane is a symmetric 4 x 4 matrix by blocks *)
Definition plane_covariance (p : plane) (cov : mat) (epsilon : R) : m4 :=
  let j := plane_jacobian p in
  mkM4 (madd (propagate cov (upper j)) (mscal epsilon mid))
       (mvmul (upper j) (mvmul cov (lower j)))
       (mvmul (upper j) (mvmul cov (lower j)))
       (quad cov (lower j) + epsilon).
Definition reduced_covariance (p : plane) (cov : m4) (epsilon : R) : mat :=
  let '(a, n) := reduced_jacobian p in
  madd (madd (madd (mmul a (mmul (lin cov) (mT a))) (outer (mvmul a (col cov)) n))
             (madd (outer n (mvmul a (row cov))) (mscal (corner cov) (outer n n))))
       (mscal epsilon mid).

(** Model of the coordinate systems: screen, camera, world, and of the planes.
    Source: /repo/src/coordinates/point_coordinates.cpp, plane_coordinates.cpp,
    /repo/src/utils/camera_transformation.cpp, angle_utils.cpp, distance_utils.cpp.
    Numbers are reals: rounding is not modelled. The inverses computed by Eigen are
    relations (the inverse of a matrix, when it has one). *)
From Verif Require Export Vec3 RotationModel.
From Verif Require Import PlaneSegmentModel.
Local Open Scope R_scope.

(** ** Rotations *)

(** Eigen's quaternion product *)
Definition qmul (a b : quat) : quat :=
  mkQuat (q_w a * q_w b - q_x a * q_x b - q_y a * q_y b - q_z a * q_z b)
         (q_w a * q_x b + q_x a * q_w b + q_y a * q_z b - q_z a * q_y b)
         (q_w a * q_y b + q_y a * q_w b + q_z a * q_x b - q_x a * q_z b)
         (q_w a * q_z b + q_z a * q_w b + q_x a * q_y b - q_y a * q_x b).
(** Eigen's [AngleAxisd] as a quaternion *)
Definition angle_axis (angle : R) (axis : vec) : quat :=
  mkQuat (cos (angle / 2)) (sin (angle / 2) * vx axis) (sin (angle / 2) * vy axis) (sin (angle / 2) * vz axis).
(** [get_quaternion_from_euler_angles], angle_utils.cpp:6-11 *)
Definition quaternion_from_euler (yaw pitch roll : R) : quat :=
  qmul (qmul (angle_axis roll (mkV 1 0 0)) (angle_axis pitch (mkV 0 1 0))) (angle_axis yaw (mkV 0 0 1)).
(** Eigen's [toRotationMatrix] *)
Definition rotation_matrix (q : quat) : mat :=
  let tx := 2 * q_x q in let ty := 2 * q_y q in let tz := 2 * q_z q in
  let twx := tx * q_w q in let twy := ty * q_w q in let twz := tz * q_w q in
  let txx := tx * q_x q in let txy := ty * q_x q in let txz := tz * q_x q in
  let tyy := ty * q_y q in let tyz := tz * q_y q in let tzz := tz * q_z q in
  mkM3 (mkV (1 - (tyy + tzz)) (txy - twz) (txz + twy))
       (mkV (txy + twz) (1 - (txx + tzz)) (tyz - twx))
       (mkV (txz - twy) (tyz + twx) (1 - (txx + tyy))).

(** ** 4 x 4 matrices, by blocks *)
Record m4 := mkM4 { lin : mat; col : vec; row : vec; corner : R }.
Record v4 := mkV4 { hd4 : vec; tl4 : R }.
Definition mul4 (a b : m4) : m4 :=
  mkM4 (madd (mmul (lin a) (lin b)) (outer (col a) (row b)))
       (vadd (mvmul (lin a) (col b)) (vscal (corner b) (col a)))
       (vadd (mvmul (mT (lin b)) (row a)) (vscal (corner a) (row b)))
       (dot (row a) (col b) + corner a * corner b).
Definition mulv4 (a : m4) (v : v4) : v4 :=
  mkV4 (vadd (mvmul (lin a) (hd4 v)) (vscal (tl4 v) (col a))) (dot (row a) (hd4 v) + corner a * tl4 v).
Definition id4 : m4 := mkM4 mid v0 v0 1.
(** [b] is [a.inverse()] *)
Definition is_inverse4 (a b : m4) : Prop := mul4 a b = id4 /\ mul4 b a = id4.
(** [homogeneous()] *)
Definition homogeneous (v : vec) : v4 := mkV4 v 1.

(** [get_transformation_matrix], camera_transformation.hpp:8-19 *)
Definition transformation (r : mat) (position : vec) : m4 := mkM4 r position v0 1.

(** [CameraToWorld], camera_transformation.cpp:11-13; [EulerToRadian] is [M_PI / 180] *)
Definition euler_to_radian : R := PI / 180.
Definition axes : m4 :=
  transformation (rotation_matrix (quaternion_from_euler 0 (90 * euler_to_radian) (- 90 * euler_to_radian))) v0.
(** [compute_camera_to_world_transform], camera_transformation.cpp:15-18 *)
Definition camera_to_world (rotation : quat) (position : vec) : m4 :=
  mul4 axes (transformation (rotation_matrix rotation) position).
(** [compute_world_to_camera_transform], camera_transformation.cpp:34-44: an inverse *)
Definition world_to_camera (c2w w2c : m4) : Prop := is_inverse4 c2w w2c.

(** [CameraCoordinate::to_world_coordinates], point_coordinates.cpp:196-199 *)
Definition point_to_world (c2w : m4) (p : vec) : vec := hd4 (mulv4 c2w (homogeneous p)).
(** [WorldCoordinate::to_camera_coordinates], point_coordinates.cpp:292-297, with the
    constructor of point_coordinates.hpp:128-131 *)
Definition point_to_camera (w2c : m4) (p : vec) : vec :=
  let h := mulv4 w2c (homogeneous p) in
  mkV (vx (hd4 h) / tl4 h) (vy (hd4 h) / tl4 h) (vz (hd4 h) / tl4 h).

(** ** Screen *)

(** [get_camera_1_intrinsics], parameters.hpp:144-149 *)
Definition intrinsics (fx fy cx cy : R) : mat := mkM3 (mkV fx 0 cx) (mkV 0 fy cy) (mkV 0 0 1).
(** [b] is [a.inverse()] *)
Definition is_inverse3 (a b : mat) : Prop := mmul a b = mid /\ mmul b a = mid.
(** [std::numeric_limits<double>::epsilon()]; [double_equal], distance_utils.cpp:11 *)
Definition machine_epsilon : R := / 2 ^ 52.
Definition double_equal (a b : R) : bool := if Rle_dec (Rabs (a - b)) machine_epsilon then true else false.

Inductive result (A : Type) := Value (a : A) | Throws.
Arguments Value {A} a.
Arguments Throws {A}.

(** [ScreenCoordinate::to_camera_coordinates], point_coordinates.cpp:150-167; [ki] is the
    inverse of the intrinsics, [transform_screen_to_camera], 80-84 *)
Definition screen_to_camera (ki : mat) (s : vec) : result vec :=
  if Rlt_dec (vx s) 0 then Throws
  else if Rlt_dec (vy s) 0 then Throws
  else if double_equal (vz s) 0 then Throws
  else let h := mvmul ki (mkV (vx s) (vy s) 1) in
       Value (mkV (vz s * vx h) (vz s * vy h) (vz s)).
(** [CameraCoordinate::to_screen_coordinates], point_coordinates.cpp:201-210; [false] when a
    coordinate is not a number: for reals, only the depth zero is excluded *)
Definition camera_to_screen (k : mat) (p : vec) : option vec :=
  if Req_EM_T (vz p) 0 then None
  else let h := mvmul k p in Some (mkV (1 / vz p * vx h) (1 / vz p * vy h) (vz p)).
(** [ScreenCoordinate::is_in_screen_boundaries], point_coordinates.cpp:169-180 *)
Definition in_screen (width height : R) (s : vec) : Prop :=
  0 <= vx s <= width /\ 0 <= vy s <= height /\ 0 < vz s.
(** [ScreenCoordinate2D::is_in_screen_boundaries], point_coordinates.cpp:113-121 *)
Definition in_screen_2d (width height : R) (s : vec) : Prop := 0 <= vx s <= width /\ 0 <= vy s <= height.

(** ** Residuals of points *)

(** [get_signed_distance_2D_px], point_coordinates.cpp:245-260, with the 2D point as the
    first two parts; [None]: the largest double, when the point cannot be projected *)
Definition pixel_residual (k : mat) (w2c : m4) (world : vec) (x y : R) : option (R * R) :=
  match camera_to_screen k (point_to_camera w2c world) with
  | Some s => Some (x - vx s, y - vy s)
  | None => None
  end.
(** [get_distance_px], 262-278: the sum of the absolute values *)
Definition pixel_distance (k : mat) (w2c : m4) (world : vec) (x y : R) : option R :=
  match pixel_residual k w2c world x y with
  | Some (a, b) => Some (Rabs a + Rabs b)
  | None => None
  end.
(** [get_signed_distance_mm], 280-284 *)
Definition metric_residual (ki : mat) (c2w : m4) (world screen : vec) : result vec :=
  match screen_to_camera ki screen with
  | Value c => Value (vsub world (point_to_world c2w c))
  | Throws => Throws
  end.

(** ** Planes *)

(** [compute_plane_camera_to_world_matrix], camera_transformation.cpp:53-61 *)
Definition plane_camera_to_world (c2w : m4) : m4 :=
  mkM4 (lin c2w) v0 (vneg (mvmul (mT (lin c2w)) (col c2w))) 1.
(** [compute_plane_world_to_camera_matrix], camera_transformation.cpp:63-71: the inverse of
    the above for the inverse of the argument *)
Definition plane_world_to_camera (w2c w2c_plane : m4) : Prop :=
  exists c2w, is_inverse4 w2c c2w /\ is_inverse4 (plane_camera_to_world c2w) w2c_plane.
(** [to_world_coordinates], [to_camera_coordinates] of planes, plane_coordinates.cpp:14-24,
    with the constructor of plane_coordinates.hpp:21-24 that normalises the normal *)
Definition transform_plane (m : m4) (p : plane) : plane :=
  let h := mulv4 m (mkV4 (pl_normal p) (pl_d p)) in make_plane (hd4 h) (tl4 h).
(** [get_reduced_signed_distance], plane_coordinates.cpp:49-56 *)
Definition plane_residual (w2c_plane : m4) (world camera : plane) : vec :=
  let projected := transform_plane w2c_plane world in
  vsub (vscal (pl_d camera) (pl_normal camera)) (vscal (pl_d projected) (pl_normal projected)).

(** ** Lines *)

Definition vec_eq_dec (a b : vec) : {a = b} + {a <> b}.
Proof.
  destruct a as [a1 a2 a3], b as [b1 b2 b3].
  destruct (Req_EM_T a1 b1) as [->|N]; [|right; now intros [= ]].
  destruct (Req_EM_T a2 b2) as [->|N]; [|right; now intros [= ]].
  destruct (Req_EM_T a3 b3) as [->|N]; [now left|right; now intros [= ]].
Defined.
(** [compute_closest_points], distance_utils.hpp:35-63; [n.isApproxToConstant(0.0)] compares
    each part with zero exactly. [None]: the lines are parallel *)
Definition closest_points (p1 d1 p2 d2 : vec) : option (vec * vec) :=
  let n := cross d1 d2 in
  if vec_eq_dec n v0 then None
  else
    let n1 := cross d1 n in
    let n2 := cross d2 n in
    let t1 := dot (vsub p2 p1) n2 / dot d1 n2 in
    let t2 := dot (vsub p1 p2) n1 / dot d2 n1 in
    Some (vadd p1 (vscal t1 d1), vadd p2 (vscal t2 d2)).
(** [signed_line_distance], distance_utils.hpp:70-84 *)
Definition signed_line_distance (p1 d1 p2 d2 : vec) : vec :=
  match closest_points p1 d1 p2 d2 with
  | Some (a, b) => vsub a b
  | None => cross d1 (vsub p1 p2)
  end.

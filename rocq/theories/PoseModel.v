(** Model of the poses and of the angles.
    Source: /repo/src/utils/pose.cpp, pose.hpp, /repo/src/utils/angle_utils.cpp,
    /repo/src/parameters.cpp:37-49. Numbers are reals: rounding is not modelled.
    Eigen's extraction of the angles of a rotation matrix is an argument. *)
From Verif Require Export GeometryModel PoseVarianceModel.
Local Open Scope R_scope.

(** [PoseBase] *)
Record pose_base := mkPB { b_position : vec; b_orientation : quat }.
(** constructor without argument, pose.cpp:10-14 *)
Definition origin : pose_base := mkPB v0 (mkQuat 1 0 0 0).
(** [set_parameters], 18-22, and the constructor with arguments, 16 *)
Definition set_pose (p : vec) (q : quat) : pose_base := mkPB p (normalized q).
(** [update], 24-28 *)
Definition update_pose (b : pose_base) (p : vec) (q : quat) : pose_base :=
  mkPB (vadd (b_position b) p) (qmul (b_orientation b) q).
(** what can be done to a pose *)
Inductive pose_op := SetPose (p : vec) (q : quat) | UpdatePose (p : vec) (q : quat).
Definition pose_step (b : pose_base) (o : pose_op) : pose_base :=
  match o with SetPose p q => set_pose p q | UpdatePose p q => update_pose b p q end.

(** [get_position_error], 43-46 *)
Definition position_error (a b : pose_base) : R := norm (vsub (b_position b) (b_position a)).
(** [std::atan2], for two numbers that are not negative *)
Definition atan2 (y x : R) : R :=
  if Rlt_dec 0 x then atan (y / x) else if Rlt_dec 0 y then PI / 2 else 0.
Definition conjugate (q : quat) : quat := mkQuat (q_w q) (- q_x q) (- q_y q) (- q_z q).
(** Eigen's [angularDistance]: twice the arc tangent of the norm of the vector part over the
    absolute value of the scalar part of [a * b.conjugate()] *)
Definition angular_distance (a b : quat) : R :=
  let d := qmul a (conjugate b) in
  2 * atan2 (norm (mkV (q_x d) (q_y d) (q_z d))) (Rabs (q_w d)).
(** [get_rotation_error], 48-52 *)
Definition rotation_error (a b : pose_base) : R :=
  angular_distance (b_orientation a) (b_orientation b) / euler_to_radian.

(** ** Angles *)

(** [EulerAngles], types.hpp:72-81; the constructor takes them in this order *)
Record euler := mkEuler { yaw : R; pitch : R; roll : R }.
(** [get_rotation_matrix_from_euler_angles], angle_utils.cpp:19-22 *)
Definition matrix_from_euler (e : euler) : mat := rotation_matrix (quaternion_from_euler (yaw e) (pitch e) (roll e)).
Section Angles.
(** the three angles that Eigen extracts from a rotation matrix for the axes x, y, z:
    [Eigen::EulerAngles<double, Eigen::EulerSystemXYZ>(m).angles()] *)
Variable angles_of : mat -> vec.
(** [get_euler_angles_from_quaternion], 13-17 *)
Definition euler_from_quaternion (q : quat) : euler :=
  let a := angles_of (rotation_matrix q) in mkEuler (vz a) (vy a) (vx a).
(** [display], pose.cpp:30-35: the numbers written after the position *)
Definition displayed (b : pose_base) : list R :=
  let e := euler_from_quaternion (b_orientation b) in
  [yaw e / euler_to_radian; pitch e / euler_to_radian; roll e / euler_to_radian].
End Angles.
Section Vector.
(** [eulerAngles(0, 1, 2)] *)
Variable angles_012 : mat -> vec.
(** [get_vector], pose.hpp:31-36 *)
Definition pose_vector (b : pose_base) : vec6 :=
  let p := b_position b in let a := angles_012 (rotation_matrix (b_orientation b)) in
  fun k => nth k [vx p; vy p; vz p; vx a; vy a; vz a] 0.
End Vector.

(** the transformation of camera 2 to camera 1, parameters.cpp:37-49; the arguments are the
    values of the configuration file *)
Definition camera_2_to_1 (translation rotation : vec) : m4 :=
  let e := mkEuler (vx rotation) (vy rotation) (vz rotation) in
  transformation (rotation_matrix (quaternion_from_euler (yaw e) (pitch e) (roll e))) translation.

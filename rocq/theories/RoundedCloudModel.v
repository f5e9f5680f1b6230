(** Model of the organised point cloud with the rounding of the machine: the camera coordinates that
    DepthMapModel has as oracles.
    Source: /repo/src/features/primitives/depth_map_transformation.cpp:89-142,
    /repo/src/coordinates/point_coordinates.cpp:79-84 and 150-167.
    Depths and the cloud are [float]s, the camera coordinates are [double]s. Simplified as in
    RoundedCameraModel: overflow is not modelled. *)
From Verif Require Export RoundedDepthMapModel.
Local Open Scope R_scope.

(** the camera coordinates of a pixel, 113-118: [to_camera_coordinates] then [static_cast<float>]. It throws
    for a depth that is almost zero (the function is [noexcept]: the program ends); the model then has a null coordinate *)
Definition cloud_coordinate (axis : vec -> R) (k : mat) (column row : Z) (z : R) : R :=
  match rscreen_to_camera k (mkV (IZR column) (IZR row) z) with Value c => to_float (axis c) | _ => 0 end.
(** [z > 0], 108 *)
Definition measured_depth (z : R) : bool := if Rlt_dec 0 z then true else false.
(** [get_organized_cloud_array], 89-142: the tasks of the rows *)
Definition rcloud_tasks (k : mat) (depth : Z -> Z -> R) : Z -> Z -> Z -> list (list (store R)) :=
  cloud_tasks depth measured_depth (cloud_coordinate vx k) (cloud_coordinate vy k).

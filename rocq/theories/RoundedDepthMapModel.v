(** Model of the rectification of the depth image with the rounding of the machine: the projection that
    DepthMapModel has as an oracle.
    Source: /repo/src/features/primitives/depth_map_transformation.cpp:23-87 and 147-173,
    /repo/src/coordinates/point_coordinates.cpp:79-97 and 201-221, parameters.hpp:144-149 and 166-176.
    Depths and the precomputed directions are [float]s (24 bits), the rest are [double]s; each operation
    is rounded to nearest even. Simplified as in RoundedCameraModel: overflow is not modelled, and the
    terms of a product of matrices are added from left to right. *)
From Verif Require Export RoundedCameraModel DepthMapModel.
From Verif Require RoundedSegmentModel.
From Flocq Require Import Core.
Local Open Scope R_scope.

(** rounding to a [float] *)
Definition to_float (x : R) : R := RoundedSegmentModel.rf x.

(** [_Xpre(row, column)] and [_Ypre(row, column)], depth_map_transformation.cpp:155-163, with
    [ScreenCoordinate2D::to_camera_coordinates] (point_coordinates.cpp:79-83 and 94-97): the intrinsics
    are the ones of the first camera *)
Definition precomputed (k : mat) (row column : Z) : R * R :=
  let h := rmvmul (rinverse k) (mkV (IZR column) (IZR row) 1) in
  (to_float (vx h), to_float (vy h)).
(** the point of the pixel, depth_map_transformation.cpp:52-53: products of [float]s *)
Definition undistorted (k : mat) (row column : Z) (z : R) : vec :=
  let '(x, y) := precomputed k row column in
  mkV (to_float (x * z)) (to_float (y * z)) z.
(** the first three lines of the product of the transformation and of the point, 55-57 *)
Definition rtransformed (t : m4) (p : vec) : vec :=
  mkV (rdot4 (r0 (lin t)) p (vx (col t)) 1) (rdot4 (r1 (lin t)) p (vy (col t)) 1) (rdot4 (r2 (lin t)) p (vz (col t)) 1).
(** the projection of a depth pixel in the first camera, 59-74: [floor] of the coordinates of the
    screen, and the depth stored as a [float]. At a null depth the coordinates are infinite, or not a
    number when they are zero over zero. *)
Definition rproject (k : mat) (t : m4) (row column : Z) (z : R) : projection (V := R) :=
  let p := rtransformed t (undistorted k row column z) in
  match rcamera_to_screen k p with
  | Some s => Projects (Finite (Zfloor (vx s))) (Finite (Zfloor (vy s))) (to_float (vz s))
  | None =>
    let h := rmvmul k p in
    if Req_EM_T (vx h) 0 then Fails else if Req_EM_T (vy h) 0 then Fails else Projects Infinite Infinite 0
  end.
(** [originalZ <= 0] is false, 46 *)
Definition rpositive (z : R) : bool := if Rle_dec z 0 then false else true.

(** [rectify_depth], 23-87: the tasks of the rows *)
Definition rrectify_pixel (k : mat) (t : m4) (depth : Z -> Z -> R) : Z -> Z -> Z -> Z -> action (V := R) :=
  rectify_pixel depth rpositive (rproject k t).
Definition rrectify_tasks (k : mat) (t : m4) (depth : Z -> Z -> R) : Z -> Z -> list (list (store R)) :=
  rectify_tasks depth rpositive (rproject k t).

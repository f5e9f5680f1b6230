(** Model of the features given to the pose optimisation: inlier tests and random variations,
    of the random draws, and of the choice of the points to follow.
    Source: /repo/src/map_management/map_features/map_point.cpp:10-70, 117-140,
    map_point2d.cpp:9-81, map_primitive.cpp:11-85, /repo/src/utils/random.hpp.
    Numbers are reals (rounding is not modelled), except where Flocq's rounding is used. A
    random draw is an argument. *)
From Verif Require Export GeometryModel InverseDepthModel.
From Verif Require Export PlaneSegmentModel.
From Flocq Require Import Core.
Local Open Scope bool_scope.
Local Open Scope R_scope.

(** Thresholds, parameters.hpp:23-30; 0.2 is a [float] *)
Definition point_threshold : R := 3.
Definition point2d_threshold : R := 3.
Definition plane_distance_threshold : R := 50.
Definition plane_normal_threshold : R := 13421773 / 67108864.

Definition rle (a b : R) : bool := if Rle_dec a b then true else false.

(** ** 3D points: [PointOptimizationFeature] *)
Record point_feature := mkPointF { pf_x : R; pf_y : R; pf_point : vec; pf_deviation : vec; pf_id : nat; pf_detected : nat }.
(** [is_inlier], map_point.cpp:34-38; the largest double is over the threshold *)
Definition point_inlier (k : mat) (w2c : m4) (f : point_feature) : bool :=
  match pixel_distance k w2c (pf_point f) (pf_x f) (pf_y f) with
  | Some d => rle d point_threshold
  | None => false
  end.
(** [compute_random_variation], 49-57, for three draws *)
Definition cwise (a b : vec) : vec := mkV (vx a * vx b) (vy a * vy b) (vz a * vz b).
Definition point_variation (draws : vec) (f : point_feature) : point_feature :=
  mkPointF (pf_x f) (pf_y f) (vadd (pf_point f) (cwise draws (pf_deviation f))) (pf_deviation f) (pf_id f) (pf_detected f).

(** ** Planes: [PlaneOptimizationFeature] *)
Record plane_feature := mkPlaneF { lf_matched : plane; lf_plane : plane; lf_deviation : v4; lf_id : nat; lf_detected : nat }.
(** [get_signed_distance], plane_coordinates.cpp:26-37 *)
Definition plane_signed_distance (w2c_plane : m4) (world camera : plane) : v4 :=
  let projected := transform_plane w2c_plane world in
  let a := pl_normal camera in let b := pl_normal projected in
  mkV4 (mkV (angle_distance (vx a) (vx b)) (angle_distance (vy a) (vy b)) (angle_distance (vz a) (vz b)))
       (pl_d camera - pl_d projected).
(** [is_inlier], map_primitive.cpp:33-49 *)
Definition plane_inlier (w2c_plane : m4) (f : plane_feature) : bool :=
  let e := plane_signed_distance w2c_plane (lf_plane f) (lf_matched f) in
  rle (Rabs (vx (hd4 e))) plane_normal_threshold && rle (Rabs (vy (hd4 e))) plane_normal_threshold &&
  rle (Rabs (vz (hd4 e))) plane_normal_threshold && rle (Rabs (tl4 e)) plane_distance_threshold.
(** [compute_random_variation], 66-77 *)
Definition plane_variation (draws : vec) (draw : R) (f : plane_feature) : plane_feature :=
  let n := vadd (pl_normal (lf_plane f)) (cwise draws (hd4 (lf_deviation f))) in
  mkPlaneF (lf_matched f) (mkPlane (vnormalized n) (pl_d (lf_plane f) + draw * tl4 (lf_deviation f)))
           (lf_deviation f) (lf_id f) (lf_detected f).

(** ** 2D points: [Point2dOptimizationFeature]; of the six deviations, the ones of the inverse
    depth and of the two angles are used *)
Record point2d_feature := mkPoint2F { tf_x : R; tf_y : R; tf_point : idp; tf_deviation : vec; tf_id : nat; tf_detected : nat }.
(** [InverseDepthWorldPoint::to_screen_coordinates], inverse_depth_coordinates.cpp:156-174: a
    segment, the third part of its ends is null; [None]: [false], or an infinite estimation *)
Definition screen_segment (k : mat) (w2c : m4) (p : idp) (variance : R) : option (vec * vec) :=
  let deviation := sqrt variance in
  match furthest_estimation p deviation, closest_estimation p deviation with
  | Some a, Some b =>
    match camera_to_screen k (point_to_camera w2c a), camera_to_screen k (point_to_camera w2c b) with
    | Some a', Some b' => Some (mkV (vx a') (vy a') 0, mkV (vx b') (vy b') 0)
    | _, _ => None
    end
  | _, _ => None
  end.
(** [compute_signed_screen_distance], 59-69, and [get_distance], map_point2d.cpp:40-45, which
    gives the deviation as the variance; [None]: the largest double *)
Definition point2d_distance (k : mat) (w2c : m4) (f : point2d_feature) : option vec :=
  match screen_segment k w2c (tf_point f) (vx (tf_deviation f)) with
  | Some (a, b) => Some (segment_distance a b (mkV (tf_x f) (tf_y f) 0))
  | None => None
  end.
(** [is_inlier], map_point2d.cpp:33-38 *)
Definition point2d_inlier (k : mat) (w2c : m4) (f : point2d_feature) : bool :=
  match point2d_distance k w2c f with
  | Some d => rle (vx d) point2d_threshold && rle (vy d) point2d_threshold
  | None => false
  end.
(** [std::clamp] *)
Definition clamp (x lo hi : R) : R := if Rlt_dec x lo then lo else if Rlt_dec hi x then hi else x.
(** [compute_random_variation], map_point2d.cpp:49-74; [None]: the constructor throws in a
    [noexcept] function *)
Definition point2d_variation (draw_theta draw_phi : R) (f : point2d_feature) : option point2d_feature :=
  let p := tf_point f in
  match make_idp (first p) (inverse_depth p)
          (clamp (theta p + draw_theta * vy (tf_deviation f)) 0 PI)
          (clamp (phi p + draw_phi * vz (tf_deviation f)) (- PI) PI) with
  | Built q => Some (mkPoint2F (tf_x f) (tf_y f) q (tf_deviation f) (tf_id f) (tf_detected f))
  | _ => None
  end.

(** ** Random draws, random.hpp *)

(** the real value of the binary64 number closest to [x] *)
Definition rounded (x : R) : R := round radix2 (FLT_exp (-1074) 53) ZnearestE x.
(** [get_random_uint], 52-58, for the draw of [get_random_double]: the difference of the
    unsigned numbers is converted to a double without rounding *)
Definition random_uint (draw : R) (low high : Z) : Z := (low + Zfloor (rounded (draw * IZR (high - low))))%Z.

(** [MapPoint::add_to_tracked], map_point.cpp:117-140; the point followed, if it is *)
Definition add_to_tracked (k : mat) (w2c : m4) (draw : R) (drop_chance : Z) (point : vec) : option (R * R) :=
  if (drop_chance =? 0)%Z || negb (random_uint draw 0 drop_chance =? 0)%Z then
    match camera_to_screen k (point_to_camera w2c point) with
    | Some s => Some (vx s, vy s)
    | None => None
    end
  else None.

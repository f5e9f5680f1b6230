(** Model of the visibility of the map features from a camera.
    Source: /repo/src/utils/line.cpp:15-70, /repo/src/utils/polygon.cpp:24-46,
    /repo/src/map_management/map_features/map_point.cpp:166-174, map_point2d.cpp:152-199,
    map_primitive.cpp:186-189, /repo/src/coordinates/polygon_coordinates.cpp:77-127.
    Numbers are reals. The intersections computed by boost are arguments. *)
From Verif Require Export PolygonModel OptFeatureModel.
From Coq Require Import List.
Import ListNotations.
From Verif Require Import Vec3.
Local Open Scope bool_scope.
Local Open Scope R_scope.

(** ** Points with a depth *)

(** [x >= 0 and x <= size] *)
Definition inside (x size : R) : bool := rle 0 x && rle x size.
(** [ScreenCoordinate2D::is_in_screen_boundaries], point_coordinates.cpp:113-121 *)
Definition in_screen_2d_b (width height : R) (q : point2) : bool := inside (fst q) width && inside (snd q) height.
(** [ScreenCoordinate::is_in_screen_boundaries], point_coordinates.cpp:169-180 *)
Definition in_screen_b (width height : R) (s : vec) : bool :=
  inside (vx s) width && inside (vy s) height && (if Rlt_dec 0 (vz s) then true else false).
(** [MapPoint::is_visible], map_point.cpp:166-174, with [WorldCoordinate::to_screen_coordinates],
    point_coordinates.cpp:227-231 *)
Definition point_visible (k : mat) (width height : R) (w2c : m4) (p : vec) : bool :=
  match camera_to_screen k (point_to_camera w2c p) with
  | Some s => in_screen_b width height s
  | None => false
  end.

(** ** The boundary of the screen *)

(** [get_static_screen_boundary_polygon], polygon.cpp:24-46: one pixel is removed on each side.
    The sizes are integers and the rounding changes nothing; the wrap of the unsigned
    subtraction for an empty image is not modelled *)
Definition boundary_size : R := 1.
Definition screen_boundary (width height : R) : list point2 :=
  let sx := width - boundary_size in
  let sy := height - boundary_size in
  correct [(boundary_size, boundary_size); (sx, boundary_size); (sx, sy); (boundary_size, sy); (boundary_size, boundary_size)].

Section BOOST.
(** [boost::geometry::intersection] of a segment and a polygon, as points: [None] is [false] *)
Variable crossings : point2 -> point2 -> list point2 -> option (list point2).
(** [boost::geometry::intersection] of two polygons is not empty *)
Variable overlap : list point2 -> list point2 -> bool.

(** [clamp_to_screen], line.cpp:15-70; [None] is [false] *)
Definition clamp_to_screen (width height : R) (a b : point2) : option (point2 * point2) :=
  match crossings a b (screen_boundary width height) with
  | Some [] => if negb (in_screen_2d_b width height a) || negb (in_screen_2d_b width height b) then None else Some (a, b)
  | Some [p] => if in_screen_2d_b width height p then Some (p, p) else Some (p, p)
  | Some [p; q] => Some (p, q)
  | Some _ => None
  | None => None
  end.

(** [MapPoint2D::is_visible], map_point2d.cpp:187-199 *)
Definition point2d_visible (k : mat) (width height : R) (w2c : m4) (p : idp) (variance : R) : bool :=
  match screen_segment k w2c p variance with
  | Some (a, b) =>
    match clamp_to_screen width height (vx a, vy a) (vx b, vy b) with Some _ => true | None => false end
  | None => false
  end.

(** [CameraPolygon::get_screen_points], polygon_coordinates.cpp:77-100: no point when one of them
    cannot be projected *)
Fixpoint screen_points (k : mat) (p : polygon) (boundary : list point2) : result (option (list vec)) :=
  match boundary with
  | [] => Value (Some [])
  | q :: boundary =>
    bind (unproject_point q (center p) (x_axis p) (y_axis p)) (fun v =>
      match camera_to_screen k v with
      | None => Value None
      | Some s => bind (screen_points k p boundary) (fun r => Value (option_map (cons s) r))
      end)
  end.
(** [CameraPolygon::to_screen_space], 102-118 *)
Definition to_screen_space (k : mat) (p : polygon) : result (list point2) :=
  bind (screen_points k p (outline p)) (fun r =>
    Value (correct (map (fun s => (vx s, vy s)) (match r with Some l => l | None => [] end)))).
(** [MapPlane::is_visible], map_primitive.cpp:186-189, with [is_visible_in_screen_space],
    polygon_coordinates.cpp:120-127. It cannot let an exception out: [Throws] ends the program *)
Definition plane_visible (k : mat) (width height : R) (w2c : m4) (p : polygon) : result bool :=
  bind (to_camera_space w2c p) (fun q =>
    bind (to_screen_space k q) (fun r => Value (overlap r (screen_boundary width height)))).
End BOOST.

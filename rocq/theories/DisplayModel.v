(** Model of the debug image: the frame rate, the counts, the features and the overlay.
    Source: /repo/src/rgbd_slam.cpp:127-160, /repo/src/map_management/local_map.hpp:212-226 and
    268-299, /repo/src/map_management/feature_map.hpp:554-582, map_features/map_point.cpp:138-165,
    map_point2d.cpp:154-186, map_primitive.cpp:175-184,
    /repo/src/coordinates/polygon_coordinates.cpp:27-46 and 170-175.
    The image is the list of what is drawn on the copy of the camera image, first to last: what
    the drawing functions of OpenCV do to the pixels is not modelled. Numbers are reals, and the
    conversion of a number to an integer out of the range of [int] is undefined. The fonts and
    the colour of the texts are not modelled. *)
From Verif Require Export VisibilityModel.
From Coq Require Import String DecimalString Ascii.
From Coq Require Import List ZArith Reals.
Import ListNotations.
From Verif Require Import Vec3.
Local Open Scope bool_scope.
Local Open Scope R_scope.

(** blue, green, red *)
Definition color : Type := (Z * Z * Z)%type.
Definition black : color := (0, 0, 0)%Z.
Definition red : color := (0, 0, 255)%Z.
Definition blue : color := (255, 0, 0)%Z.
Definition orange : color := (0, 200, 255)%Z.
Inductive stroke :=
| Rectangle (x0 y0 x1 y1 : Z) (c : color)          (* filled, both corners included *)
| Text (content : string) (x y : Z)                (* the bottom left corner of the text *)
| Disc (x y radius : Z) (c : color)                (* filled *)
| Line (x0 y0 x1 y1 : Z) (c : color) (thickness : Z)
| Overlay (c : color).                             (* the whole image, one fifth of this colour *)
(** [Undefined]: a number is converted to an integer that does not hold it; [Terminates]: an
    exception leaves a function that lets none out; the logs are not modelled *)
Inductive drawing := Draws (l : list stroke) | Undefined | Terminates.
Definition after (a b : drawing) : drawing :=
  match a with
  | Draws l => match b with Draws r => Draws (l ++ r) | _ => b end
  | _ => a
  end.

(** [static_cast<int>]: towards zero *)
Definition to_int (x : R) : option Z :=
  let z := if rle 0 x then Int_part x else (- Int_part (- x))%Z in
  if ((-2147483648 <=? z) && (z <=? 2147483647))%Z then Some z else None.
(** [round]: the halves away from zero *)
Definition round (x : R) : Z := if rle 0 x then Int_part (x + / 2) else (- Int_part (- x + / 2))%Z.

(** ** The features *)

(** What of a feature is drawn: a 3D point; an inverse depth point and its depth variance; the
    boundary of a plane *)
Inductive shape := PointShape (p : vec) | RayShape (p : idp) (variance : R) | PlaneShape (p : polygon).
Record item := mkItem { f_shape : shape; f_matched : bool; f_color : color }.

(** [MapPoint::draw], map_point.cpp:138-165 *)
Definition draw_point (k : mat) (width height : R) (w2c : m4) (matched : bool) (c : color) (p : vec) : drawing :=
  match camera_to_screen k (point_to_camera w2c p) with
  | Some s =>
    if (if Rlt_dec 0 (vz s) then true else false) && in_screen_b width height s then
      match to_int (vx s), to_int (vy s) with
      | Some x, Some y => Draws (Disc x y 3 c :: (if matched then [] else [Disc x y 1 red]))
      | _, _ => Undefined
      end
    else Draws []
  | None => Draws []
  end.
(** a line between two pixels, with [static_cast<int>] of their coordinates *)
Definition line_to (a b : point2) (c : color) (thickness : Z) : option stroke :=
  match to_int (fst a), to_int (snd a), to_int (fst b), to_int (snd b) with
  | Some x0, Some y0, Some x1, Some y1 => Some (Line x0 y0 x1 y1 c thickness)
  | _, _, _, _ => None
  end.
Section BOOST.
(** the intersection of boost, as in [clamp_to_screen] *)
Variable crossings : point2 -> point2 -> list point2 -> option (list point2).
(** [MapPoint2D::draw], map_point2d.cpp:154-186 *)
Definition draw_ray (k : mat) (width height : R) (w2c : m4) (matched : bool) (c : color) (p : idp) (variance : R) : drawing :=
  match screen_segment k w2c p variance with
  | None => Draws []
  | Some (a, b) =>
    match clamp_to_screen crossings width height (vx a, vy a) (vx b, vy b) with
    | None => Draws []
    | Some (a, b) =>
      if in_screen_2d_b width height a && in_screen_2d_b width height b then
        match line_to a b (if matched then blue else red) 5, line_to a b c 3 with
        | Some border, Some middle => Draws [border; middle]
        | _, _ => Undefined
        end
      else Draws []
    end
  end.
(** the loop of [CameraPolygon::display], polygon_coordinates.cpp:27-46, with its previous point *)
Fixpoint display_loop (c : color) (previous : option vec) (points : list vec) : drawing :=
  match points with
  | [] => Draws []
  | s :: points =>
    after
      (match previous with
       | Some p =>
         if (if Rlt_dec 0 (vz p) then true else false) && (if Rlt_dec 0 (vz s) then true else false) then
           match line_to (vx p, vy p) (vx s, vy s) c 2 with Some l => Draws [l] | None => Undefined end
         else Draws []
       | None => Draws []
       end)
      (display_loop c (Some s) points)
  end.
(** [MapPlane::draw], map_primitive.cpp:175-184, with [WorldPolygon::display],
    polygon_coordinates.cpp:170-175 *)
Definition draw_plane (k : mat) (w2c : m4) (matched : bool) (c : color) (p : polygon) : drawing :=
  if negb matched then Draws []
  else match bind (to_camera_space w2c p) (fun q => screen_points k q (outline q)) with
       | Throws => Terminates
       | Value r => display_loop c None (match r with Some l => l | None => [] end)
       end.
Definition draw (k : mat) (width height : R) (w2c : m4) (c : color) (f : item) : drawing :=
  match f_shape f with
  | PointShape p => draw_point k width height w2c (f_matched f) c p
  | RayShape p variance => draw_ray k width height w2c (f_matched f) c p variance
  | PlaneShape p => draw_plane k w2c (f_matched f) c p
  end.

(** ** The maps *)

(** A map of features: the staged ones and the others, in the order of their containers *)
Record shown_map := mkShown { s_name : string; s_activated : bool; s_staged : list item; s_local : list item }.
(** [draw_on_image], feature_map.hpp:554-582 *)
Definition draw_all (k : mat) (width height : R) (w2c : m4) (color_of : item -> color) (l : list item) : drawing :=
  fold_right (fun f d => after (draw k width height w2c (color_of f) f) d) (Draws []) l.
Definition staged_color (f : item) : color := if f_matched f then orange else red.
Definition draw_on_image (k : mat) (width height : R) (w2c : m4) (with_staged : bool) (m : shown_map) : drawing :=
  if negb (s_activated m) then Draws []
  else after (if with_staged then draw_all k width height w2c staged_color (s_staged m) else Draws [])
             (draw_all k width height w2c f_color (s_local m)).

(** [std::format("{: >3}", n)]: at least three characters, spaces first *)
Definition decimal (n : N) : string := NilEmpty.string_of_uint (N.to_uint n).
Fixpoint spaces (n : nat) : string := match n with O => "" | S n => String " " (spaces n) end%string.
Definition padded (s : string) : string := (spaces (3 - String.length s) ++ s)%string.
(** one map of the band, local_map.hpp:282-286 *)
Definition label (m : shown_map) : string :=
  ("    | " ++ s_name m ++ ":" ++ padded (decimal (N.of_nat (List.length (s_staged m)))) ++ ":" ++
   padded (decimal (N.of_nat (List.length (s_local m)))))%string.
(** [draw_image_head_band], local_map.hpp:268-299; [imageWidth * 0.15] is truncated *)
Definition head_band (width : Z) (maps : list shown_map) : stroke :=
  Text (fold_right (fun m s => label m ++ s)%string ""%string maps) (width * 15 / 100) 15.
(** [Local_Map::get_debug_image], local_map.hpp:212-226 *)
Definition draw_maps (k : mat) (width height : Z) (w2c : m4) (with_staged : bool) (maps : list shown_map) : drawing :=
  after (Draws [head_band width maps])
    (fold_right (fun m d => after (draw_on_image k (IZR width) (IZR height) w2c with_staged m) d) (Draws []) maps).

(** ** The debug image *)

(** The number of the label of the frame rate, rgbd_slam.cpp:147; it is written as an integer,
    the exponents of the great ones are not modelled *)
Definition shown_rate (elapsed : R) : Z := round (1 / elapsed + / 2).
Definition rate_text (elapsed : R) : list stroke :=
  if Rlt_dec 0 elapsed then [Text (padded (decimal (Z.to_N (shown_rate elapsed))) ++ " fps")%string 15 15] else [].
(** [RGBD_SLAM::get_debug_image], rgbd_slam.cpp:127-160; the sizes are those given to the
    constructor *)
Definition get_debug_image (k : mat) (width height : Z) (lost : bool) (maps : list shown_map) (w2c : m4) (elapsed : R)
    (with_staged : bool) : drawing :=
  after (Draws (Rectangle 0 0 width (height / 25) black :: rate_text elapsed))
    (after (draw_maps k width height w2c with_staged maps) (Draws (if lost then [Overlay red] else []))).
End BOOST.

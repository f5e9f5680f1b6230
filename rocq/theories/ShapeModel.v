(** Model of the polygons with holes: fit to points, common areas, merge.
    Source: /repo/src/utils/polygon.cpp, polygon.hpp:83-100.
    Numbers are reals. The algorithms of boost (hulls, validity, simplification, union and
    intersection) and [geometry::correct] of the third party are arguments. A polygon without
    holes is the one of PolygonModel.v. *)
From Verif Require Export PolygonModel.
From Coq Require Import List.
Import ListNotations.
Local Open Scope R_scope.

(** [boost::geometry::model::polygon]: an outer ring and inner rings, counter clockwise *)
Record shape := mkShape { outer_ring : list point2; inner_rings : list (list point2) }.
Definition sum (l : list R) : R := fold_right Rplus 0 l.
(** [boost::geometry::area] of a polygon: the area of an inner ring is negative *)
Definition shape_area (s : shape) : R := ring_area (outer_ring s) + sum (map ring_area (inner_rings s)).
(** [Polygon::area], polygon.cpp:453-461 *)
Definition area_of (s : shape) : R := if (length (outer_ring s) <? 3)%nat then 0 else shape_area s.

Record hpolygon := mkH { h_shape : shape; h_center : vec; h_x : vec; h_y : vec; h_area : R }.
(** the outer boundary only *)
Definition flat (p : hpolygon) : polygon := mkPolygon (outer_ring (h_shape p)) (h_center p) (h_x p) (h_y p) (h_area p).
Definition without_hole (p : polygon) : hpolygon := mkH (mkShape (outline p) []) (center p) (x_axis p) (y_axis p) (stored_area p).
(** the constructor from a boundary, 236-266: no inner ring *)
Definition make_h (boundary : list point2) (x y c : vec) : result hpolygon :=
  bind (make_polygon boundary x y c) (fun p => Value (without_hole p)).
(** [boundary_length], polygon.hpp:96-100 *)
Definition boundary_length (p : hpolygon) : nat := length (outer_ring (h_shape p)) - 1.

(** [project] to axes, 349-382: the inner rings are not projected *)
Definition h_project (p : hpolygon) (x y c : vec) : result hpolygon :=
  check (unit_norm x) (check (unit_norm x) (check (nearly_orthogonal x y)
    (if same_frame (flat p) x y c then Value p
     else bind (each (fun q => bind (unproject_point q (h_center p) (h_x p) (h_y p))
                                    (fun v => project_point v c x y)) (outer_ring (h_shape p)))
               (fun boundary => make_h boundary x y c)))).
(** [CameraPolygon::to_world_space], polygon_coordinates.cpp:48-75, and
    [WorldPolygon::to_camera_space], 135-162 *)
Definition h_move (m : m4) (new_center : vec) (p : hpolygon) : result hpolygon :=
  let x := vnormalized (mvmul (lin m) (h_x p)) in
  let y := vnormalized (mvmul (lin m) (h_y p)) in
  check (unit_norm x) (check (unit_norm y) (check (nearly_orthogonal y x)
    (bind (transform_boundary (flat p) m x y new_center) (fun boundary => make_h boundary x y new_center)))).
Definition h_to_world_space (c2w : m4) (p : hpolygon) : result hpolygon := h_move c2w (point_to_world c2w (h_center p)) p.
Definition h_to_camera_space (w2c : m4) (p : hpolygon) : result hpolygon := h_move w2c (point_to_camera w2c (h_center p)) p.

Section Boost.
(** [boost::geometry::simplify], [is_valid], [union_] and [intersection]; the last one can fail *)
Variable simplified : shape -> R -> shape.
Variable valid : shape -> bool.
Variable union : shape -> shape -> list shape.
Variable intersection : shape -> shape -> option (list shape).

(** [simplify], polygon.cpp:578-602 *)
Definition h_simplify (p : hpolygon) : hpolygon :=
  let a := area_of (h_shape p) in
  let out := simplified (h_shape p) (Rmax (a / 10 ^ 5) 10) in
  if valid out then
    if Rlt_dec (a * (3 / 4)) (shape_area out) then mkH out (h_center p) (h_x p) (h_y p) (shape_area out)
    else mkH (h_shape p) (h_center p) (h_x p) (h_y p) a
  else mkH (h_shape p) (h_center p) (h_x p) (h_y p) a.

(** ** Fit *)

(** [compute_concave_hull], 283-320 (see ConcaveHullModel.v), [geometry::correct], and
    [compute_convex_hull], 268-281 *)
Variable concave_hull : list point2 -> list point2.
Variable corrected : shape -> list shape.
Variable convex_hull : list point2 -> list point2.
(** the choice of the boundary, 188-221 *)
Definition fitted_shape (points : list point2) : shape :=
  let concave := mkShape (concave_hull points) [] in
  if valid concave then concave
  else match corrected concave with
       | [] => mkShape (convex_hull points) []
       | s :: _ => s
       end.
(** the constructor from points, 168-229 *)
Definition fit (points : list vec) (normal center : vec) : result hpolygon :=
  check (unit_norm normal) (check (negb (length points <? 3)%nat)
    (bind (plane_axes normal) (fun a =>
     bind (each (fun p => project_point p center (fst a) (snd a)) (rev points)) (fun boundary =>
     let s := fitted_shape boundary in
     Value (h_simplify (mkH s center (fst a) (snd a) (area_of s))))))).

(** ** Overlaps *)

(** the loops of [union_one] and [inter_one], 476-486 and 507-517 *)
Fixpoint biggest_shape (best : R * shape) (l : list shape) : R * shape :=
  match l with
  | [] => best
  | s :: l => biggest_shape (if Rlt_dec (fst best) (shape_area s) then (shape_area s, s) else best) l
  end.
Definition no_shape : shape := mkShape [] [].
Definition select_shape (l : list shape) : result shape :=
  match l with
  | [] => Value no_shape
  | [s] => Value s
  | s :: _ => let b := biggest_shape (0, s) l in if Rle_dec (fst b) 0 then Throws else Value (snd b)
  end.
(** [union_one], 463-493 *)
Definition h_union_one (p q : hpolygon) : result shape :=
  bind (h_project q (h_x p) (h_y p) (h_center p)) (fun q' => select_shape (union (h_shape p) (h_shape q'))).
(** [inter_one], 495-523: a failure gives no part *)
Definition h_inter_one (p q : hpolygon) : result shape :=
  bind (h_project q (h_x p) (h_y p) (h_center p)) (fun q' =>
    select_shape (match intersection (h_shape p) (h_shape q') with Some l => l | None => [] end)).
(** [merge_union], 325-336 *)
Definition h_merge_union (p q : hpolygon) : result hpolygon :=
  bind (h_project q (h_x p) (h_y p) (h_center p)) (fun q' =>
  bind (h_union_one p q') (fun s =>
  match outer_ring s with
  | [] => Value p
  | _ => Value (h_simplify (mkH s (h_center p) (h_x p) (h_y p) (h_area p)))
  end)).
(** [inter_over_union], 525-540 *)
Definition inter_over_union (p q : hpolygon) : result R :=
  bind (h_project q (h_x p) (h_y p) (h_center p)) (fun q' =>
  bind (h_union_one p q') (fun un =>
    if (length (outer_ring un) <? 3)%nat then Value 0
    else if Rle_dec (shape_area un) 0 then Value 0
    else bind (h_inter_one p q') (fun inter =>
      if Rle_dec (shape_area inter) 0 then Value 0 else Value (shape_area inter / shape_area un)))).
(** [inter_area], 542-561 *)
Definition inter_area (p q : hpolygon) : result R :=
  bind (h_project q (h_x p) (h_y p) (h_center p)) (fun q' =>
    match intersection (h_shape p) (h_shape q') with
    | None => Value 0
    | Some l => Value (sum (map shape_area l))
    end).
(** [union_area], 563-576 *)
Definition union_area (p q : hpolygon) : result R :=
  bind (h_project q (h_x p) (h_y p) (h_center p)) (fun q' => Value (sum (map shape_area (union (h_shape p) (h_shape q'))))).
End Boost.

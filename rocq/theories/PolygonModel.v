(** Model of the polygons: a boundary in the coordinates of a plane.
    Source: /repo/src/utils/polygon.cpp, /repo/src/coordinates/polygon_coordinates.cpp,
    /repo/src/coordinates/point_coordinates.cpp:24-70.
    Numbers are reals. The set operations of boost (union, simplification, validity) are
    arguments; its area and orientation correction are modelled. *)
From Verif Require Export GeometryModel.
From Coq Require Import List.
Import ListNotations.
Local Open Scope R_scope.

Definition point2 : Type := R * R.

Definition bind {A B} (r : result A) (f : A -> result B) : result B :=
  match r with Value a => f a | Throws => Throws end.
Fixpoint each {A B} (f : A -> result B) (l : list A) : result (list B) :=
  match l with
  | [] => Value []
  | a :: l => bind (f a) (fun b => bind (each f l) (fun l' => Value (b :: l')))
  end.
(** a check of the code: throws when the condition does not hold *)
Definition check {A} (c : bool) (r : result A) : result A := if c then r else Throws.

(** ** Axes of a plane *)

Definition within (a b tolerance : R) : bool := if Rle_dec (Rabs (a - b)) tolerance then true else false.
(** [double_equal(v.norm(), 1.0)] *)
Definition unit_norm (v : vec) : bool := double_equal (norm v) 1.
(** [abs(a.dot(b)) > .01] is false *)
Definition nearly_orthogonal (a b : vec) : bool := if Rle_dec (Rabs (dot a b)) (1 / 100) then true else false.

(** [select_correct_transform], polygon.cpp:51-68 *)
Definition select_axis (n : vec) : vec :=
  let dx := Rabs (dot n (mkV 1 0 0)) in
  let dy := Rabs (dot n (mkV 0 1 0)) in
  let dz := Rabs (dot n (mkV 0 0 1)) in
  let res := Rmin dx (Rmin dy dz) in
  if within res dx (1 / 10) then mkV 1 0 0
  else if within res dy (1 / 10) then mkV 0 1 0
  else if within res dz (1 / 10) then mkV 0 0 1
  else vnormalized (mkV (vz n) (vx n) (vy n)).
(** [get_plane_coordinate_system], 74-115 *)
Definition plane_axes (n : vec) : result (vec * vec) :=
  check (unit_norm n)
    (let r := select_axis n in
     check (unit_norm r)
       (let x := vnormalized (cross n r) in
        let y := vnormalized (cross n x) in
        check (unit_norm x) (check (unit_norm y)
          (check (nearly_orthogonal x n) (check (nearly_orthogonal y x) (check (nearly_orthogonal y n)
            (Value (x, y)))))))).
(** [get_projected_plan_coordinates], 125-145 *)
Definition project_point (p center x y : vec) : result point2 :=
  check (unit_norm x) (check (unit_norm y) (check (nearly_orthogonal y x)
    (Value (dot x (vsub p center), dot y (vsub p center))))).
(** [get_point_from_plane_coordinates], 147-166 *)
Definition unproject_point (q : point2) (center x y : vec) : result vec :=
  check (unit_norm x) (check (unit_norm y) (check (nearly_orthogonal y x)
    (Value (vadd (vadd center (vscal (fst q) x)) (vscal (snd q) y))))).

(** ** Rings: boost::geometry *)

(** sum of [(x1 + x2) * (y1 - y2)] on the edges *)
Fixpoint edges (r : list point2) : R :=
  match r with
  | a :: ((b :: _) as r') => (fst a + fst b) * (snd a - snd b) + edges r'
  | _ => 0
  end.
(** [boost::geometry::area] of a closed clockwise ring; a ring of less than 4 points has none *)
Definition ring_area (r : list point2) : R := if (length r <? 4)%nat then 0 else edges r / 2.
Definition point2_eq_dec (a b : point2) : {a = b} + {a <> b}.
Proof.
  destruct a as [a1 a2], b as [b1 b2].
  destruct (Req_EM_T a1 b1) as [->|N]; [|right; now intros [= ]].
  destruct (Req_EM_T a2 b2) as [->|N]; [now left|right; now intros [= ]].
Defined.
(** [boost::geometry::correct] of a ring: close it, then turn it clockwise. The tolerance of
    the comparison of its ends is not modelled *)
Definition close_ring (r : list point2) : list point2 :=
  match r with
  | a :: _ => if (2 <? length r)%nat then if point2_eq_dec a (List.last r a) then r else r ++ [a] else r
  | [] => r
  end.
Definition correct (r : list point2) : list point2 :=
  let c := close_ring r in if Rlt_dec (ring_area c) 0 then rev c else c.

(** ** Polygons, polygon.hpp:26-219 *)
Record polygon := mkPolygon { outline : list point2; center : vec; x_axis : vec; y_axis : vec; stored_area : R }.

(** [get_normal], polygon.hpp:196 *)
Definition polygon_normal (p : polygon) : vec := cross (x_axis p) (y_axis p).
(** [area], polygon.cpp:453-461 *)
Definition area (r : list point2) : R := if (length r <? 3)%nat then 0 else ring_area r.
(** the constructor from a boundary, 236-266 *)
Definition make_polygon (boundary : list point2) (x y c : vec) : result polygon :=
  check (unit_norm x) (check (unit_norm y) (check (nearly_orthogonal y x)
    (Value (mkPolygon (correct boundary) c x y (area (correct boundary)))))).
(** Eigen's [isApprox], with its default precision *)
Definition is_approx (a b : vec) : bool :=
  if Rle_dec (sqn (vsub a b)) ((1 / 10 ^ 12) * (1 / 10 ^ 12) * Rmin (sqn a) (sqn b)) then true else false.
Definition same_frame (p : polygon) (x y c : vec) : bool :=
  is_approx (center p) c && is_approx (x_axis p) x && is_approx (y_axis p) y.
(** [get_unprojected_boundary], 604-617 *)
Definition unprojected (p : polygon) : result (list vec) :=
  each (fun q => unproject_point q (center p) (x_axis p) (y_axis p)) (outline p).
(** [project] to axes, 349-382; the first axis is checked twice, the second one is not *)
Definition project (p : polygon) (x y c : vec) : result polygon :=
  check (unit_norm x) (check (unit_norm x) (check (nearly_orthogonal x y)
    (if same_frame p x y c then Value p
     else bind (each (fun q => bind (unproject_point q (center p) (x_axis p) (y_axis p))
                                    (fun v => project_point v c x y)) (outline p))
               (fun boundary => make_polygon boundary x y c)))).
(** [project] to a normal, 338-347 *)
Definition project_normal (p : polygon) (n c : vec) : result polygon :=
  check (unit_norm n) (bind (plane_axes n) (fun a => project p (fst a) (snd a) c)).
(** [transform_boundary], 431-451 *)
Definition transform_boundary (p : polygon) (m : m4) (x y c : vec) : result (list point2) :=
  each (fun q => bind (unproject_point q (center p) (x_axis p) (y_axis p))
                      (fun v => project_point (point_to_world m v) c x y)) (outline p).
(** the matrix of columns [x], [y], [x.cross(y)] *)
Definition frame_matrix (x y : vec) : mat := mT (mkM3 x y (cross x y)).
(** [get_transformation_matrix] of point_coordinates.cpp:24-70; the rotation part of an
    orthonormal frame is its matrix, and its inverse the transposed one *)
Definition frame_change (x y c x' y' c' : vec) : result m4 :=
  check (unit_norm x) (check (unit_norm y) (check (nearly_orthogonal y x)
    (check (unit_norm x') (check (unit_norm y') (check (nearly_orthogonal y' x')
      (Value (mkM4 (mmul (frame_matrix x' y') (mT (frame_matrix x y))) (vsub c' c) v0 1))))))).
(** [transform] to axes, 402-429 *)
Definition transform (p : polygon) (x y c : vec) : result polygon :=
  check (unit_norm x) (check (unit_norm x) (check (nearly_orthogonal x y)
    (if same_frame p x y c then Value p
     else bind (frame_change (x_axis p) (y_axis p) (center p) x y c)
          (fun m => bind (transform_boundary p m x y c)
          (fun boundary => make_polygon boundary x y c))))).
(** [transform] to a normal, 384-400 *)
Definition transform_normal (p : polygon) (n c : vec) : result polygon :=
  check (unit_norm n) (bind (plane_axes n) (fun a =>
    if same_frame p (fst a) (snd a) c then Value p else transform p (fst a) (snd a) c)).
(** [CameraPolygon::to_world_space], polygon_coordinates.cpp:48-75; [WorldPolygon::to_camera_space],
    135-162, is the same with the other matrix and the division of the center by its last part *)
Definition move (m : m4) (new_center : vec) (p : polygon) : result polygon :=
  let x := vnormalized (mvmul (lin m) (x_axis p)) in
  let y := vnormalized (mvmul (lin m) (y_axis p)) in
  check (unit_norm x) (check (unit_norm y) (check (nearly_orthogonal y x)
    (bind (transform_boundary p m x y new_center) (fun boundary => make_polygon boundary x y new_center)))).
Definition to_world_space (c2w : m4) (p : polygon) : result polygon := move c2w (point_to_world c2w (center p)) p.
Definition to_camera_space (w2c : m4) (p : polygon) : result polygon := move w2c (point_to_camera w2c (center p)) p.

(** ** Simplification and union *)
Section Boost.
(** [boost::geometry::simplify] with a distance, [is_valid] and [union_] of boost *)
Variable simplified : list point2 -> R -> list point2.
Variable valid : list point2 -> bool.
Variable union : list point2 -> list point2 -> list (list point2).

(** [simplify], polygon.cpp:578-602 *)
Definition simplify (p : polygon) : polygon :=
  let a := area (outline p) in
  let out := simplified (outline p) (Rmax (a / 10 ^ 5) 10) in
  if valid out then
    if Rlt_dec (a * (3 / 4)) (ring_area out) then mkPolygon out (center p) (x_axis p) (y_axis p) (ring_area out)
    else mkPolygon (outline p) (center p) (x_axis p) (y_axis p) a
  else mkPolygon (outline p) (center p) (x_axis p) (y_axis p) a.
(** the loop of [union_one] and [inter_one], 476-486 and 507-517 *)
Fixpoint biggest (best : R * list point2) (l : list (list point2)) : R * list point2 :=
  match l with
  | [] => best
  | r :: l => biggest (if Rlt_dec (fst best) (ring_area r) then (ring_area r, r) else best) l
  end.
Definition select_one (l : list (list point2)) : result (list point2) :=
  match l with
  | [] => Value []
  | [r] => Value r
  | r :: _ => let b := biggest (0, r) l in if Rle_dec (fst b) 0 then Throws else Value (snd b)
  end.
(** [union_one], 463-493 *)
Definition union_one (p q : polygon) : result (list point2) :=
  bind (project q (x_axis p) (y_axis p) (center p)) (fun q' => select_one (union (outline p) (outline q'))).
(** [merge_union], 325-336 *)
Definition merge_union (p q : polygon) : result polygon :=
  bind (project q (x_axis p) (y_axis p) (center p)) (fun q' =>
  bind (union_one p q') (fun r =>
  match r with
  | [] => Value p
  | _ => Value (simplify (mkPolygon r (center p) (x_axis p) (y_axis p) (stored_area p)))
  end)).
End Boost.

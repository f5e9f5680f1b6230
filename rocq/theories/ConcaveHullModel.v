(** Model of the concave hull of a set of points of a plane.
    Source: /repo/third_party/concave_fitting.cpp, /repo/src/utils/polygon.cpp:283-320.
    Numbers are reals: rounding is not modelled. Oracles: the search of the neighbours (FLANN
    is randomised and approximate) and the sort by angle ([std::sort] with a comparison with a
    tolerance). Only the overload called by the project is modelled: it does not remove the
    duplicates. *)
From Coq Require Export Reals List Bool Arith.
From Verif Require Export Atan2.
Export ListNotations.
Local Open Scope R_scope.

(** [Point], concave_fitting.hpp:16-25 *)
Record pt := mkPt { px : R; py : R; pid : nat }.

(** [DBL_EPSILON] *)
Definition tolerance : R := / 2 ^ 52.
(** comparisons, concave_fitting.cpp:185-198 *)
Definition rle (a b : R) : bool := if Rle_dec a b then true else false.
Definition rlt (a b : R) : bool := if Rlt_dec a b then true else false.
Definition equal (a b : R) : bool := rle (Rabs (a - b)) tolerance.
Definition zero (a : R) : bool := rle (Rabs a) tolerance.
Definition less_than (a b : R) : bool := rlt a (b - tolerance).
Definition less_than_or_equal (a b : R) : bool := rle a (b + tolerance).
Definition greater_than (a b : R) : bool := rlt (b + tolerance) a.
(** [PointsEqual], 201 *)
Definition points_equal (a b : pt) : bool := equal (px a) (px b) && equal (py a) (py b).

(** the comparison of [FindMinYPoint], 235-240, and [std::min_element] *)
Definition lower (a b : pt) : bool :=
  if equal (py a) (py b) then greater_than (px a) (px b) else less_than (py a) (py b).
Definition find_min_y (first : pt) (rest : list pt) : pt :=
  fold_left (fun smallest p => if lower p smallest then p else smallest) rest first.

(** [NormaliseAngle], 321-327; [Angle], 313-318 *)
Definition normalise_angle (a : R) : R := if rlt a 0 then a + PI + PI else a.
Definition angle (a b : pt) : R := normalise_angle (- atan2 (py b - py a) (px b - px a)).

(** [Intersects], 433-470 *)
Definition intersects (a1 a2 b1 b2 : pt) : bool :=
  let da := py a2 - py a1 in
  let ea := px a1 - px a2 in
  let ca := da * px a1 + ea * py a1 in
  let db := py b2 - py b1 in
  let eb := px b1 - px b2 in
  let cb := db * px b1 + eb * py b1 in
  let det := da * eb - db * ea in
  if zero det then false
  else
    let x := (eb * ca - ea * cb) / det in
    let y := (da * cb - db * ca) / det in
    less_than_or_equal (Rmin (px a1) (px a2)) x && less_than_or_equal x (Rmax (px a1) (px a2)) &&
    less_than_or_equal (Rmin (py a1) (py a2)) y && less_than_or_equal y (Rmax (py a1) (py a2)) &&
    less_than_or_equal (Rmin (px b1) (px b2)) x && less_than_or_equal x (Rmax (px b1) (px b2)) &&
    less_than_or_equal (Rmin (py b1) (py b2)) y && less_than_or_equal y (Rmax (py b1) (py b2)).

(** the test of an edge by [PointInPolygon], 414-421 *)
Definition edge_on_the_right (p v0 v1 : pt) : bool :=
  ((less_than_or_equal (py v0) (py p) && less_than (py p) (py v1)) ||
   (less_than_or_equal (py v1) (py p) && less_than (py p) (py v0))) &&
  negb (zero (py v1 - py v0)) &&
  less_than (px p) (px v0 + (px v1 - px v0) * (py p - py v0) / (py v1 - py v0)).
(** [inout], 408-424 *)
Fixpoint edges_on_the_right (p : pt) (list : list pt) : nat :=
  match list with
  | v0 :: (v1 :: _) as rest =>
    ((if edge_on_the_right p v0 v1 then 1 else 0) + edges_on_the_right p rest)%nat
  | _ => 0%nat
  end.
(** [PointInPolygon], 399-430 *)
Definition point_in_polygon (p : pt) (polygon : list pt) : bool :=
  if (length polygon <=? 2)%nat then false
  else let n := edges_on_the_right p polygon in (n =? 0)%nat || negb (Nat.even n).

(** [RemoveHull], 330-343: the points which are not, by their id, in the hull *)
Definition remove_hull (points hull : list pt) : list pt :=
  filter (fun p => negb (existsb (fun h => (pid h =? pid p)%nat) hull)) points.
(** [MultiplePointInPolygon], 373-397 *)
Definition multiple_point_in_polygon (points hull : list pt) : bool :=
  match points with
  | [] => true
  | _ => negb (existsb (fun p => negb (point_in_polygon p hull)) points)
  end.

Inductive outcome := Accepted (hull : list pt) | Rejected | Out_of_bounds | Out_of_fuel.

(** the inner loop on the edges of the hull, 144-154: the edge from the last point of the hull
    to the candidate against the edges [j] before; [None]: an index is out of the hull *)
Fixpoint crosses (hull : list pt) (candidate : pt) (js : list nat) : option bool :=
  match js with
  | [] => Some false
  | j :: js' =>
    let step := length hull in
    match nth_error hull (step - 1), nth_error hull (step - j - 1), nth_error hull (step - j) with
    | Some last, Some b1, Some b2 => if intersects last candidate b1 b2 then Some true else crosses hull candidate js'
    | _, _, _ => None
    end
  end.
(** the values of [j], 144-147 *)
Definition js (hull : list pt) (first candidate : pt) : list nat :=
  let stop := (length hull - (if points_equal candidate first then 1 else 0))%nat in
  seq 2 (stop - 2).
(** the loop on the candidates, 130-155: the first one without intersection; [Some None]: all
    of them intersect, or there is none *)
Fixpoint choose (hull : list pt) (first : pt) (candidates : list pt) : option (option pt) :=
  match candidates with
  | [] => Some None
  | c :: rest =>
    match crosses hull c (js hull first c) with
    | None => None
    | Some false => Some (Some c)
    | Some true => choose hull first rest
    end
  end.

Section Hull.
(** [NearestNeighboursFlann], 263-291, for the points of the index; [SortByAngle] after the
    computation of the angles, 300-307 *)
Variable nearest : list pt -> pt -> nat -> list pt.
Variable sort : list (R * pt) -> list (R * pt).

(** [SortByAngle], 294-310 *)
Definition sort_by_angle (values : list pt) (from : pt) (previous : R) : list pt :=
  map snd (sort (map (fun to => (normalise_angle (angle from to - previous), to)) values)).
(** [removePoint] of the index *)
Definition remove_point (index : list pt) (id : nat) : list pt := filter (fun p => negb (pid p =? id)%nat) index.

(** the loop of [ConcaveHull], 118-175; [step] is the size of the hull; [index]: the points in
    the FLANN index *)
Fixpoint walk (fuel : nat) (points : list pt) (k : nat) (hull : list pt) (first current : pt) (previous : R)
    (index : list pt) : outcome :=
  if (negb (points_equal current first) || (length hull =? 1)%nat) && negb (length hull =? length points)%nat then
    match fuel with
    | O => Out_of_fuel
    | S fuel' =>
      let step := length hull in
      let '(first, index) :=
        if (step =? 4)%nat
        then let first := mkPt (px first) (py first) (length points) in (first, index ++ [first])
        else (first, index) in
      match choose hull first (sort_by_angle (nearest index current k) current previous) with
      | None => Out_of_bounds
      | Some None => Rejected
      | Some (Some c) =>
        let hull' := hull ++ [c] in
        match nth_error hull' step, nth_error hull' (step - 1) with
        | Some a, Some b => walk fuel' points k hull' first c (angle a b) (remove_point index (pid c))
        | _, _ => Out_of_bounds
        end
      end
    end
  else if multiple_point_in_polygon (remove_hull points hull) hull then Accepted hull else Rejected.

(** [ConcaveHull], 93-183 *)
Definition concave_hull (points : list pt) (k : nat) : outcome :=
  match points with
  | [] | [_] | [_; _] => Accepted []
  | [_; _; _] => Accepted points
  | p :: rest =>
    let first := find_min_y p rest in
    walk (length points) points k [first] first first 0 (remove_point points (pid first))
  end.
End Hull.

Section Search.
(** the oracles of each attempt *)
Variable nearest : nat -> list pt -> pt -> nat -> list pt.
Variable sort : nat -> list (R * pt) -> list (R * pt).

(** [possibleNeigborsValues], 72-73 *)
Definition possible_neighbours : list nat :=
  [3; 5; 7; 11; 13; 17; 21; 23; 29; 31; 37; 41; 43; 47; 53; 59; 61; 67; 71; 73; 79; 83; 89; 97]%nat.
(** the loop of [compute_concave_hull], 79-88, on the values left: the numbers of neighbours
    tried, and the result ([Rejected]: [false]) *)
Fixpoint retry (points : list pt) (iteration k : nat) (values : list nat) : list nat * outcome :=
  match values with
  | [] => ([], Rejected)
  | v :: values' =>
    match concave_hull (nearest iteration) (sort iteration) points k with
    | Rejected =>
      if (length points <? v)%nat then ([k], Rejected)
      else let '(tried, r) := retry points (S iteration) v values' in (k :: tried, r)
    | o => ([k], o)
    end
  end.
(** [compute_concave_hull], 69-90 *)
Definition compute_concave_hull (points : list pt) (max_iterations : nat) : list nat * outcome :=
  retry points 0 (nth 0 possible_neighbours 0%nat) (firstn max_iterations possible_neighbours).

(** the ids given by [Polygon::compute_concave_hull], polygon.cpp:296-301 *)
Fixpoint identify (id : nat) (points : list (R * R)) : list pt :=
  match points with
  | [] => []
  | (x, y) :: rest => mkPt x y id :: identify (S id) rest
  end.
(** [Polygon::compute_concave_hull], polygon.cpp:283-320: the numbers tried and the boundary,
    empty on failure; the other outcomes are kept *)
Inductive boundary_outcome := Boundary (l : list (R * R)) | Misbehaves.
Definition boundary (points : list (R * R)) : list nat * boundary_outcome :=
  if (length points <? 3)%nat then ([], Boundary [])
  else match compute_concave_hull (identify 0 points) 8 with
       | (tried, Accepted hull) => (tried, Boundary (map (fun p => (px p, py p)) hull))
       | (tried, Rejected) => (tried, Boundary [])
       | (tried, _) => (tried, Misbehaves)
       end.
End Search.

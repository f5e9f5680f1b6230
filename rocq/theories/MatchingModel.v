(** Model of the similarity of two planes.
    Source: /repo/src/features/primitives/shape_primitives.cpp:70-88,
    /repo/src/map_management/map_features/map_primitive.cpp:98-141. Numbers are rational;
    [cosine] is the cosine of the greatest angle, [overlap] the least overlap and [inter] the
    common areas with the detected planes (oracle). *)
From Coq Require Export QArith List Bool.
Export ListNotations.

(** the parametrization and the area of a plane in the camera space *)
Record plane_view := mkPlaneView { pv_normal : Q * Q * Q; pv_d : Q; pv_area : Q }.
Definition qabs (x : Q) : Q := if Qle_bool 0 x then x else (- x)%Q.
(** [get_cos_angle], plane_coordinates.hpp:58-61 *)
Definition pv_dot (a b : plane_view) : Q :=
  let '(x, y, z) := pv_normal a in let '(x', y', z') := pv_normal b in (x * x' + y * y' + z * z')%Q.
(** [maximumDistanceForPlaneMatch_mm], parameters.hpp:94 *)
Definition maximum_distance : Q := 100.
(** [is_distance_similar], shape_primitives.cpp:84-88 *)
Definition is_distance_similar (plane other : plane_view) : bool :=
  negb (Qle_bool maximum_distance (qabs (pv_d plane - pv_d other))).
(** [is_normal_similar], shape_primitives.cpp:72-77 *)
Definition is_normal_similar (cosine : Q) (plane other : plane_view) : bool :=
  negb (Qle_bool (qabs (pv_dot plane other)) (qabs cosine)).
(** the tests of a detected plane, map_primitive.cpp:124-141: its common area when it passes *)
Definition plane_similarity (cosine overlap : Q) (advanced : bool) (projected : plane_view) (inter : nat -> Q)
    (detected : list plane_view) (i : nat) : option Q :=
  match nth_error detected i with
  | None => None
  | Some plane =>
    if is_distance_similar plane projected && is_normal_similar cosine plane projected &&
       Qle_bool (if advanced then overlap / 2 else overlap) (inter i / pv_area plane)
    then Some (inter i) else None
  end.

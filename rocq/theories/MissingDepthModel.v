(** Model of what the program reads in a depth image, with the values that are not numbers.
    Source: /repo/src/features/primitives/depth_map_transformation.cpp:23-142,
    /repo/src/coordinates/point_coordinates.cpp:19-22, 79-92, 149-167 and 200-222,
    /repo/src/features/primitives/primitive_detection.cpp:660-675,
    /repo/src/features/keypoints/keypoint_handler.cpp:17-26,
    /repo/src/features/lines/line_detection.cpp:44,
    /repo/src/map_management/map_features/map_point.{hpp,cpp} and map_point2d.{hpp,cpp}.
    A floating point number is not a number, an infinity or a rational number; the results of the
    operations are rounded by an arbitrary function. Simplified: the two zeros are the same (the
    inverse of zero is the positive infinity: only the sign of an infinity depends on it).
    C38, C39, C54 and C80 are about the same functions, for depths that are numbers. *)
From Coq Require Import QArith Qround Qabs ZArith List Bool.
From Verif Require Import DetectionModel.
Import ListNotations.
Local Open Scope Z_scope.

Inductive num := NaN | Infinite (negative : bool) | Finite (v : Q).
Definition is_nan (a : num) : bool := match a with NaN => true | _ => false end.
(** [a < b] and [a <= b]: false when one is not a number *)
Definition less (a b : num) : bool :=
  match a, b with
  | NaN, _ | _, NaN => false
  | Infinite n, Infinite m => n && negb m
  | Infinite n, Finite _ => n
  | Finite _, Infinite m => negb m
  | Finite p, Finite q => Qltb p q
  end.
Definition less_eq (a b : num) : bool :=
  match a, b with
  | NaN, _ | _, NaN => false
  | Infinite n, Infinite m => n || negb m
  | Infinite n, Finite _ => n
  | Finite _, Infinite m => negb m
  | Finite p, Finite q => Qle_bool p q
  end.
Definition zero : num := Finite 0.
Definition magnitude (a : num) : num :=
  match a with NaN => NaN | Infinite _ => Infinite false | Finite q => Finite (Qabs q) end.

Section Arithmetic.
Variable round : Q -> num.
Definition is_negative (q : Q) : bool := Qltb q 0.
Definition mul (a b : num) : num :=
  match a, b with
  | NaN, _ | _, NaN => NaN
  | Infinite n, Infinite m => Infinite (xorb n m)
  | Infinite n, Finite q | Finite q, Infinite n => if Qeq_bool q 0 then NaN else Infinite (xorb n (is_negative q))
  | Finite p, Finite q => round (p * q)
  end.
Definition add (a b : num) : num :=
  match a, b with
  | NaN, _ | _, NaN => NaN
  | Infinite n, Infinite m => if Bool.eqb n m then Infinite n else NaN
  | Infinite n, Finite _ | Finite _, Infinite n => Infinite n
  | Finite p, Finite q => round (p + q)
  end.
(** [1.0 / a] *)
Definition inverse (a : num) : num :=
  match a with
  | NaN => NaN
  | Infinite _ => Finite 0
  | Finite q => if Qeq_bool q 0 then Infinite false else round (/ q)
  end.
(** a row of a matrix times a vector, from the first term *)
Definition dot3 (r : num * num * num) (x y z : num) : num :=
  let '(a, b, c) := r in add (add (mul a x) (mul b y)) (mul c z).
End Arithmetic.

(** [is_depth_valid], point_coordinates.cpp:15-22 *)
Definition is_depth_valid (depth : num) : bool := less (Finite 40) depth && less_eq depth (Finite 6000).
(** the test of [double_equal] with zero, point_coordinates.cpp:160 and distance_utils.cpp:11 *)
Definition epsilon : Q := 1 # (2 ^ 52).
Definition is_null (z : num) : bool := less_eq (magnitude z) (Finite epsilon).

(** ** The readers of the image *)
Section Image.
Variables (width height : nat).
(** row then column *)
Definition image := nat -> nat -> num.
Definition pixels : list (nat * nat) := list_prod (seq 0 height) (seq 0 width).

(** What a call does: it ends the program, behaves in an undefined way, or gives a result. *)
Inductive result (A : Type) := Ended | Undefined | Gives (a : A).
Arguments Ended {A}. Arguments Undefined {A}. Arguments Gives {A}.
(** What a pixel does. *)
Inductive action (A : Type) := Nothing | Stores (a : A) | Exits | Misbehaves.
Arguments Nothing {A}. Arguments Stores {A}. Arguments Exits {A}. Arguments Misbehaves {A}.
(** All the pixels, in any order: the program ends when one ends it (unless another one
    misbehaves before) *)
Definition all_pixels {A} (act : nat -> nat -> action A) : result (list A) :=
  let actions := map (fun p => act (fst p) (snd p)) pixels in
  if existsb (fun a => match a with Exits => true | _ => false end) actions then Ended
  else if existsb (fun a => match a with Misbehaves => true | _ => false end) actions then Undefined
  else Gives (flat_map (fun a => match a with Stores s => [s] | _ => [] end) actions).

(** *** The cloud of points, depth_map_transformation.cpp:89-142 *)
Section Cloud.
Variable round : Q -> num.
(** [transform_screen_to_camera], point_coordinates.cpp:79-83, of a column and a row, and the
    conversion to single precision *)
Variables (camera_x camera_y : nat -> nat -> num) (as_float : num -> num).
(** [_cellMap] *)
Variable cell_map : nat -> nat -> Z.
(** [ScreenCoordinate::to_camera_coordinates], point_coordinates.cpp:149-167: [None] is the
    exception (the coordinates of a pixel are not negative) *)
Definition to_camera (row column : nat) (z : num) : option (num * num * num) :=
  if is_null z then None
  else Some (mul round z (camera_x column row), mul round z (camera_y column row), z).
(** 103-119: the exception leaves a function that is [noexcept] *)
Definition cloud_pixel (img : image) (row column : nat) : action (Z * (num * num * num)) :=
  let z := img row column in
  if less zero z then
    match to_camera row column z with
    | None => Exits
    | Some (x, y, _) => Stores (cell_map row column, (as_float x, as_float y, z))
    end
  else Nothing.
Definition organized_cloud (img : image) : result (list (Z * (num * num * num))) := all_pixels (cloud_pixel img).

(** *** The boundary of a plane, primitive_detection.cpp:660-675: what a pixel of the boundary
    gives, for a distance to the plane and the largest one *)
Definition add_point_if_in_plane (img : image) (distance : num * num * num -> num) (largest : num) (row column : nat)
  : action (num * num * num) :=
  let depth := img row column in
  if less zero depth then
    match to_camera row column depth with
    | None => Exits
    | Some p => if less (magnitude (distance p)) largest then Stores p else Nothing
    end
  else Nothing.
End Cloud.

(** *** The rectification, depth_map_transformation.cpp:23-87 *)
Section Rectify.
Variables (round round_float : Q -> num).
(** [_Xpre] and [_Ypre]; the rows of the matrix of the change of camera; the two first rows of the
    intrinsic matrix *)
Variables (pre_x pre_y : nat -> nat -> num).
Variables (m0 m1 m2 : (num * num * num) * num) (k0 k1 : num * num * num).
Definition moved (m : (num * num * num) * num) (x y z : num) : num :=
  add round (dot3 round (fst m) x y z) (mul round (snd m) (Finite 1)).
(** [static_cast<uint>(floor(x))]: undefined out of the range of the type *)
Definition floor_uint (x : num) : option Z :=
  match x with
  | Finite q => if (0 <=? Qfloor q) && (Qfloor q <? 2 ^ 32) then Some (Qfloor q) else None
  | _ => None
  end.
(** 44-80, with [CameraCoordinate::to_screen_coordinates], point_coordinates.cpp:200-222 *)
Definition rectify_pixel (img : image) (row column : nat) : action (Z * Z * num) :=
  let original := img row column in
  if less_eq original zero then Nothing
  else
    let x := mul round_float (pre_x row column) original in
    let y := mul round_float (pre_y row column) original in
    let px := moved m0 x y original in
    let py := moved m1 x y original in
    let pz := moved m2 x y original in
    let u := mul round (inverse round pz) (dot3 round k0 px py pz) in
    let v := mul round (inverse round pz) (dot3 round k1 px py pz) in
    if is_nan u || is_nan v then Exits
    else match floor_uint u, floor_uint v with
         | Some c, Some r =>
           if (0 <? c) && (0 <? r) && (c <? Z.of_nat width) && (r <? Z.of_nat height) then Stores (r, c, pz) else Nothing
         | _, _ => Misbehaves
         end.
Definition rectify (img : image) : result (list (Z * Z * num)) := all_pixels (rectify_pixel img).
End Rectify.

(** *** The depth of a keypoint, keypoint_handler.cpp:17-26 *)
Definition get_depth (img : image) (p : pt) : num :=
  if in_border border_size (Z.of_nat width) (Z.of_nat height) p
  then img (Z.to_nat (std_round (snd p))) (Z.to_nat (std_round (fst p)))
  else zero.
(** *** The mask of the displayed lines, line_detection.cpp:44 *)
Definition has_depth (img : image) (row column : nat) : bool := less zero (img row column).
End Image.
Arguments Ended {A}. Arguments Undefined {A}. Arguments Gives {A}.
Arguments Nothing {A}. Arguments Stores {A}. Arguments Exits {A}. Arguments Misbehaves {A}.

(** ** The uses of a detected point *)
Record detected := mkDetected { seen_at : pt; depth : num; has_descriptor : bool }.
(** [set], keypoint_handler.cpp:66-127 *)
Definition detect (width height : nat) (img : image) (p : pt) (descriptor : bool) : detected :=
  mkDetected p (get_depth width height img p) descriptor.
(** [StagedMapPoint::can_add_to_map], map_point.hpp:130-133, and that of [StagedMapPoint2D], map_point2d.hpp:125-128 *)
Definition can_add_point (d : detected) : bool := has_descriptor d && is_depth_valid (depth d).
Definition can_add_point2d (d : detected) : bool := has_descriptor d && negb (is_depth_valid (depth d)).
(** What a map feature is updated with: [MapPoint::update_with_match], map_point.cpp:198-239, and
    that of [MapPoint2D], map_point2d.cpp:253-259, which then call the two [track] *)
Inductive measure := Point (p : pt) (z : num) | Ray (p : pt).
Definition measure_of (d : detected) : measure :=
  if is_depth_valid (depth d) then Point (seen_at d) (depth d) else Ray (seen_at d).
(** What is given to the optimisation, map_point.cpp:106 and map_point2d.cpp:133 *)
Definition matched_at (d : detected) : pt := seen_at d.

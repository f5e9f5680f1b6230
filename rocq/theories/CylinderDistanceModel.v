(** Model of the distance of a point to a detected cylinder, and of what a copy keeps.
    Source: /repo/src/features/primitives/cylinder_segment.cpp:7-33, 196-224, 324-401,
    cylinder_segment.hpp:127-150. Numbers are reals: rounding is not modelled. The cells, the
    inliers and the errors of the parts are in CylinderModel and CylinderGeometryModel. *)
From Verif Require Export Vec3.
From Coq Require Import Bool.
Local Open Scope R_scope.

(** The members, cylinder_segment.hpp:127-138. The vectors are filled by different functions. *)
Record segment := mkSegment { axis : vec; centers : list vec; points1 : list vec; points2 : list vec; lengths : list R; radii : list R; count : nat }.
(** before the loop of the constructor, 35-40 and 103: an axis, and no part *)
Definition no_part (a : vec) : segment := mkSegment a [] [] [] [] [] 0.
(** what the loop stores of a part, 196-224; [radius] is not rectified yet *)
Definition add_part (s : segment) (center : vec) (radius : R) : segment :=
  let radius := if Rlt_dec radius 0 then - radius else radius in
  let p1 := center in
  let p2 := vadd center (axis s) in
  mkSegment (axis s) (centers s ++ [center]) (points1 s ++ [p1]) (points2 s ++ [p2]) (lengths s ++ [norm (vsub p2 p1)]) (radii s ++ [radius]) (S (count s)).
Definition detected (a : vec) (parts : list (vec * R)) : segment := fold_left (fun s p => add_part s (fst p) (snd p)) parts (no_part a).
(** the copy constructors, 22-33 and 7-18; [None]: an element that does not exist is read *)
Definition copy (s : segment) : segment := mkSegment (axis s) (centers s) [] [] [] (radii s) 0.
Definition copy_part (s : segment) (i : nat) : option segment :=
  match nth_error (radii s) i, nth_error (centers s) i with
  | Some r, Some c => Some (mkSegment (axis s) [c] [] [] [] [r] 0)
  | _, _ => None
  end.

(** [get_distance(point, segmentId)], 337-343; [None]: as above *)
Definition part_distance (s : segment) (p : vec) (i : nat) : option R :=
  match nth_error (points1 s) i, nth_error (points2 s) i, nth_error (lengths s) i, nth_error (radii s) i with
  | Some p1, Some p2, Some l, Some r => Some (norm (cross (vsub p2 p1) (vsub p p2)) / l - r)
  | _, _, _, _ => None
  end.
(** the loop of 328-333; [n] parts from [i] *)
Fixpoint nearest (s : segment) (p : vec) (n i : nat) (best : R) : option R :=
  match n with
  | O => Some best
  | S n => match part_distance s p i with
           | Some d => nearest s p n (S i) (if Rlt_dec d best then d else best)
           | None => None
           end
  end.
(** [get_distance(point)], 324-335 *)
Definition get_distance (s : segment) (p : vec) : option R :=
  match part_distance s p 0 with
  | Some d => nearest s p (length (points1 s) - 1) 1 d
  | None => None
  end.
(** [get_normal_similarity], 394-397 *)
Definition similarity (s t : segment) : R := Rabs (dot (axis s) (axis t)).

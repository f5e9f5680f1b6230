(** Model of the lines and segments: closest points, distances, intersections.
    Source: /repo/src/utils/line.hpp:12-172, /repo/src/utils/line.cpp:72-140.
    One model for all dimensions up to 3: the other coordinates are null. Numbers are reals.
    The intersection of boost is an argument. *)
From Verif Require Export InverseDepthModel.
From Coq Require Import List Reals.
Import ListNotations.
From Verif Require Import Vec3.
Local Open Scope R_scope.

(** An object of a class derived from [ILine]: [Segment], line.hpp:76-107, with its end point, or
    [Line], 139-169, with its normal *)
Inductive iline := Seg (start stop : vec) | Dir (start normal : vec).
Definition start_point (l : iline) : vec := match l with Seg s _ => s | Dir s _ => s end.
(** [Line::Line], line.hpp:144-148 *)
Definition make_line (start normal : vec) : iline := Dir start (vnormalized normal).
(** [compute_normal], line.hpp:92-96 and 155 *)
Definition compute_normal (l : iline) : vec := match l with Seg s e => segment_normal s e | Dir _ n => n end.
(** [get_closest_point_on_line], line.hpp:26-32 *)
Definition closest_point (l : iline) (point : vec) : vec :=
  let normal := compute_normal l in
  let distance := dot (vsub point (start_point l)) normal in
  vadd (start_point l) (vscal distance normal).
(** [distance], line.hpp:37-40 *)
Definition line_distance (l : iline) (point : vec) : vec := vsub point (closest_point l point).

(** the functions that change an object: [set_start_point], line.hpp:48, [set_end_point] and
    [set_points], 99-104, [set_normal] and [set_point_and_normal], 158-164 *)
Inductive change := SetStart (p : vec) | SetEnd (p : vec) | SetPoints (s e : vec) | SetNormal (n : vec) | SetPointAndNormal (s n : vec).
Definition apply (l : iline) (c : change) : iline :=
  match l, c with
  | Seg s e, SetStart p => Seg p e
  | Dir s n, SetStart p => Dir p n
  | Seg s e, SetEnd p => Seg s p
  | Seg s e, SetPoints a b => Seg a b
  | Dir s n, SetNormal m => Dir s m
  | Dir s n, SetPointAndNormal p m => Dir p m
  | l, _ => l    (* no such function in this class *)
  end.

(** ** Intersections *)
Section BOOST.
(** [boost::geometry::intersection] of two segments, as points; [None] is [false] *)
Variable crossings : vec -> vec -> vec -> vec -> option (list vec).
(** [Missing]: the first element of an empty vector is read *)
Inductive crossing := Crosses (p : vec) | Apart | Missing.
(** [intersects] of segments, line.cpp:94-140 *)
Definition intersects_segments (a b c d : vec) : crossing :=
  match crossings a b c d with
  | Some (p :: _) => Crosses p
  | Some [] => Missing
  | None => Apart
  end.
(** [intersects] of lines, line.cpp:72-92 *)
Definition projection_distance : R := 100.
Definition intersects_lines (l m : iline) : crossing :=
  intersects_segments (start_point l) (vadd (start_point l) (vscal projection_distance (compute_normal l)))
                      (start_point m) (vadd (start_point m) (vscal projection_distance (compute_normal m))).
End BOOST.

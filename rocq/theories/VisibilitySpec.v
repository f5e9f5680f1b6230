(** What the visibility of the map features is expected to satisfy. *)
From Verif Require Export VisibilityModel OptFeatureSpec PolygonSpec InverseDepthSpec.
From Coq Require Import List.
Import ListNotations.
From Verif Require Import Vec3.
Local Open Scope R_scope.

(** The point of parameter [t] from [a] to [b]. *)
Definition at_param (a b : point2) (t : R) : point2 := (fst a + t * (fst b - fst a), snd a + t * (snd b - snd a)).
(** A point of the segment from [a] to [b]. *)
Definition on_seg (a b q : point2) : Prop := exists t, 0 <= t <= 1 /\ q = at_param a b t.
(** A pixel of an image of this size. *)
Definition in_image (width height : R) (q : point2) : Prop := 0 <= fst q <= width /\ 0 <= snd q <= height.
(** A pixel of the image at one pixel or more of its border. *)
Definition in_frame (width height : R) (q : point2) : Prop := 1 <= fst q <= width - 1 /\ 1 <= snd q <= height - 1.
(** On the border of this frame. *)
Definition on_border (width height : R) (q : point2) : Prop :=
  in_frame width height q /\ (fst q = 1 \/ fst q = width - 1 \/ snd q = 1 \/ snd q = height - 1).
(** A point of the closed line by the points of a list. *)
Fixpoint on_ring (r : list point2) (q : point2) : Prop :=
  match r with
  | a :: ((b :: _) as r') => on_seg a b q \/ on_ring r' q
  | _ => False
  end.
(** The points where a segment meets a ring, when they are a finite number. *)
Definition crossing_points (r : list point2) (a b : point2) (l : list point2) : Prop :=
  NoDup l /\ forall q, In q l <-> on_seg a b q /\ on_ring r q.
(** A function that gives these points. *)
Definition gives_crossings (crossings : point2 -> point2 -> list point2 -> option (list point2))
    (r : list point2) (a b : point2) : Prop :=
  exists l, crossings a b r = Some l /\ crossing_points r a b l.
(** The world point [w] is in front of the camera and seen in the part [area] of the image. *)
Definition seen_in (fx fy cx cy : R) (w2c : m4) (w : vec) (area : point2 -> Prop) : Prop :=
  0 < vz (point_to_camera w2c w) /\ exists u v, seen_at fx fy cx cy (point_to_camera w2c w) u v /\ area (u, v).

(** What the polygons are expected to satisfy. *)
From Verif Require Export PolygonModel.
From Coq Require Import List.
Import ListNotations.
Local Open Scope R_scope.

(** Two unit vectors at a right angle. *)
Definition frame (x y : vec) : Prop := dot x x = 1 /\ dot y y = 1 /\ dot x y = 0.
(** The point of the plane by [c] of unit normal [n] below [p]. *)
Definition foot (n c p : vec) : vec := vsub p (vscal (dot (vsub p c) n) n).
Definition on_plane (n c p : vec) : Prop := dot (vsub p c) n = 0.
(** A boundary that ends where it starts. *)
Definition closed (r : list point2) : Prop := forall d, hd d r = List.last r d.
(** A boundary as the polygons keep it. *)
Definition proper_ring (r : list point2) : Prop := closed r /\ 0 <= ring_area r.
(** A polygon with orthonormal axes, a proper boundary and the area of this boundary. *)
Definition sound (p : polygon) : Prop :=
  frame (x_axis p) (y_axis p) /\ proper_ring (outline p) /\ stored_area p = ring_area (outline p).
Definition same_or_reversed {A} (l l' : list A) : Prop := l' = l \/ l' = rev l.

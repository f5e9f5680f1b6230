(** What the fit and the overlaps of polygons are expected to satisfy. *)
From Verif Require Export ShapeModel PolygonSpec.
From Coq Require Import List.
Import ListNotations.
Local Open Scope R_scope.

(** The area of the holes of a shape. *)
Definition holes_area (s : shape) : R := - sum (map ring_area (inner_rings s)).
(** A polygon with orthonormal axes, a proper outer boundary, holes turning the other way, and
    the area of its boundary. *)
Definition hsound (p : hpolygon) : Prop :=
  frame (h_x p) (h_y p) /\ proper_ring (outer_ring (h_shape p)) /\
  (forall r, In r (inner_rings (h_shape p)) -> closed r /\ ring_area r <= 0) /\ h_area p = shape_area (h_shape p).
Definition total (l : list shape) : R := sum (map shape_area l).
(** What the areas of the intersection [i] and of the union [u] of two shapes satisfy: the
    intersection is in both, what is in the two is counted once in the union, and a part of the
    intersection is in a part of the union. *)
Record overlaps (a b : shape) (i u : list shape) : Prop := {
  positive : forall s, In s i \/ In s u -> 0 < shape_area s;
  in_first : total i <= shape_area a;
  in_second : total i <= shape_area b;
  counted_once : total u = shape_area a + shape_area b - total i;
  nested : forall s, In s i -> exists t, In t u /\ shape_area s <= shape_area t;
  drawn : forall s, In s u -> (3 <= length (outer_ring s))%nat }.
(** The boundary a fit starts from: the concave hull when it is valid, else the first part of
    its correction, else the convex hull. *)
Inductive chosen (valid : shape -> bool) (concave convex : list point2) (corrected : list shape) : shape -> Prop :=
| chosen_concave : valid (mkShape concave []) = true -> chosen valid concave convex corrected (mkShape concave [])
| chosen_corrected s l : valid (mkShape concave []) = false -> corrected = s :: l -> chosen valid concave convex corrected s
| chosen_convex : valid (mkShape concave []) = false -> corrected = [] -> chosen valid concave convex corrected (mkShape convex []).
(** The vertices given are among the ones received. *)
Definition picks (hull : list point2 -> list point2) : Prop := forall l q, In q (hull l) -> In q l.
Definition keeps_vertices (simplified : shape -> R -> shape) : Prop :=
  forall s d q, In q (outer_ring (simplified s d)) -> In q (outer_ring s).

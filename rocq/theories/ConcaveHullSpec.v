(** What is expected of a hull. *)
From Coq Require Import Permutation Sorted.
From Verif Require Import ConcaveHullModel.
Local Open Scope R_scope.

(** a point of the plane is on the segment between two others *)
Definition on_segment (x y : R) (a b : pt) : Prop :=
  exists t, 0 <= t <= 1 /\ x = px a + t * (px b - px a) /\ y = py a + t * (py b - py a).
(** two segments have a common point *)
Definition touch (a1 a2 b1 b2 : pt) : Prop := exists x y, on_segment x y a1 a2 /\ on_segment x y b1 b2.
(** twice the area of the parallelogram of two segments: almost null for almost parallel ones *)
Definition almost_parallel (a1 a2 b1 b2 : pt) : Prop :=
  Rabs ((px a2 - px a1) * (py b2 - py b1) - (py a2 - py a1) * (px b2 - px b1)) <= tolerance.

(** a polygon is the list of its vertices; edge [i] joins the vertices [i] and [i + 1] *)
Definition edge (polygon : list pt) (i : nat) (a b : pt) : Prop :=
  nth_error polygon i = Some a /\ nth_error polygon (S i) = Some b.
(** two edges of a polygon are adjacent when one follows the other, or are the first and the
    last one of a closed polygon *)
Definition adjacent (polygon : list pt) (i j : nat) : Prop :=
  i = j \/ j = S i \/ i = S j \/
  (exists a b, nth_error polygon 0 = Some a /\ nth_error polygon (length polygon - 1) = Some b /\ points_equal b a = true) /\
  (i = 0%nat /\ S (S j) = length polygon \/ j = 0%nat /\ S (S i) = length polygon).

(** the half line from a point to the right crosses a segment, out of its ends *)
Definition crosses_on_the_right (x y : R) (a b : pt) : Prop :=
  exists t, 0 < t < 1 /\ y = py a + t * (py b - py a) /\ x < px a + t * (px b - px a).
(** the number of crossed edges *)
Inductive crossings (x y : R) : list pt -> nat -> Prop :=
| crossings_nil : crossings x y [] 0
| crossings_one v : crossings x y [v] 0
| crossings_yes a b l n : crosses_on_the_right x y a b -> crossings x y (b :: l) n -> crossings x y (a :: b :: l) (S n)
| crossings_no a b l n : ~ crosses_on_the_right x y a b -> crossings x y (b :: l) n -> crossings x y (a :: b :: l) n.

(** ** The oracles *)

(** some of the points of the index, none twice *)
Definition takes_from_the_index (nearest : list pt -> pt -> nat -> list pt) : Prop :=
  forall index from k, exists others, Permutation index (nearest index from k ++ others).
(** the exact search *)
Definition distance2 (a b : pt) : R := (px a - px b) * (px a - px b) + (py a - py b) * (py a - py b).
Definition exact_search (nearest : list pt -> pt -> nat -> list pt) : Prop :=
  forall index from k, exists others, Permutation index (nearest index from k ++ others) /\
    length (nearest index from k) = min k (length index) /\
    forall a b, In a (nearest index from k) -> In b others -> distance2 a from <= distance2 b from.
Definition permutes (sort : list (R * pt) -> list (R * pt)) : Prop := forall l, Permutation l (sort l).
(** greatest angles first, up to the tolerance *)
Definition sorts (sort : list (R * pt) -> list (R * pt)) : Prop :=
  permutes sort /\ forall l, StronglySorted (fun a b => ~ fst a + tolerance < fst b) (sort l).

(** ** The choice of the next vertex *)

(** the lines of two segments meet in the boxes of the segments, up to the tolerance *)
Definition almost_touch (a1 a2 b1 b2 : pt) : Prop :=
  exists x y,
    (px a2 - px a1) * (y - py a1) = (py a2 - py a1) * (x - px a1) /\
    (px b2 - px b1) * (y - py b1) = (py b2 - py b1) * (x - px b1) /\
    (Rmin (px a1) (px a2) - tolerance <= x <= Rmax (px a1) (px a2) + tolerance) /\
    (Rmin (py a1) (py a2) - tolerance <= y <= Rmax (py a1) (py a2) + tolerance) /\
    (Rmin (px b1) (px b2) - tolerance <= x <= Rmax (px b1) (px b2) + tolerance) /\
    (Rmin (py b1) (py b2) - tolerance <= y <= Rmax (py b1) (py b2) + tolerance).
(** the clockwise angle from a direction to another one *)
Definition clockwise (dx dy ex ey t : R) : Prop :=
  0 <= t < 2 * PI /\ exists r, 0 < r /\ ex = r * (cos t * dx + sin t * dy) /\ ey = r * (cos t * dy - sin t * dx).
(** the direction of the vertex before vertex [i], seen from it: for the first vertex, the first axis *)
Definition backwards (hull : list pt) (i : nat) (dx dy : R) : Prop :=
  match i with
  | O => dx = 1 /\ dy = 0
  | S j => exists before here, nth_error hull j = Some before /\ nth_error hull i = Some here /\
             dx = px before - px here /\ dy = py before - py here
  end.

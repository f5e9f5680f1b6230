(** What the filling of rings is expected to give: the points of a polygon, off the outlines. *)
From Verif Require Export FillModel.
From Coq Require Import List ZArith Bool Arith Permutation.
Import ListNotations.
Local Open Scope Z_scope.

(** What the operations on polygons do to the points which are on no outline, when the outlines
    are in clockwise order. *)
Record polygon_laws (polygon point : Type) (inside : polygon -> point -> bool) (clockwise : polygon -> Prop)
  (intersects : polygon -> polygon -> bool) (union : polygon -> polygon -> list polygon)
  (covered_by : polygon -> polygon -> bool) (difference : list polygon -> list polygon -> list polygon)
  (reversed : polygon -> polygon) : Prop := {
  apart_law : forall a b, clockwise a -> clockwise b -> intersects a b = false -> forall p, inside a p = true -> inside b p = false;
  union_law : forall a b, clockwise a -> clockwise b ->
    Forall clockwise (union a b) /\ forall p, existsb (fun u => inside u p) (union a b) = inside a p || inside b p;
  (** two polygons with a common part have a union in one piece *)
  pieces_law : forall a b p, clockwise a -> clockwise b -> inside a p = true -> inside b p = true -> length (union a b) = 1%nat;
  covered_law : forall a b, clockwise a -> clockwise b -> covered_by a b = true <-> forall p, inside a p = true -> inside b p = true;
  difference_law : forall a b, Forall clockwise a -> Forall clockwise b ->
    Forall clockwise (difference a b) /\
    forall p, existsb (fun u => inside u p) (difference a b) = existsb (fun u => inside u p) a && negb (existsb (fun u => inside u p) b);
  reversed_law : forall a, ~ clockwise a -> clockwise (reversed a) /\ forall p, inside (reversed a) p = inside a p }.

Section meaning.
  Context {polygon point : Type}.
  Variable inside : polygon -> point -> bool.
  Variable clockwise : polygon -> Prop.
  (** A ring of positive area is in clockwise order, a ring of negative area is not. *)
  Definition ring_area (r : polygon * Z) : Prop := (0 < snd r /\ clockwise (fst r)) \/ (snd r < 0 /\ ~ clockwise (fst r)).
  Definition inside_any (l : list polygon) (p : point) : bool := existsb (fun u => inside u p) l.
  (** The number of turns of all the rings around a point: a ring of positive area turns once
      around its points, one of negative area once the other way. *)
  Fixpoint turns (rings : list (polygon * Z)) (p : point) : Z :=
    match rings with
    | [] => 0
    | (r, area) :: rings => (if inside r p then (if 0 <? area then 1 else -1) else 0) + turns rings p
    end.
  (** The number of rings around a point. *)
  Fixpoint depth (rings : list (polygon * Z)) (p : point) : nat :=
    match rings with
    | [] => 0
    | (r, _) :: rings => (if inside r p then 1 else 0) + depth rings p
    end.
  (** Two rings have no common point, or the points of the smaller one are all in the other. *)
  Definition nested (a b : polygon * Z) : Prop :=
    (forall p, inside (fst a) p = true -> inside (fst b) p = false) \/
    (Z.abs (snd a) < Z.abs (snd b) /\ forall p, inside (fst a) p = true -> inside (fst b) p = true) \/
    (Z.abs (snd b) < Z.abs (snd a) /\ forall p, inside (fst b) p = true -> inside (fst a) p = true).
  (** [sorted] is the rings from the largest to the smallest. *)
  Definition by_area (rings sorted : list (polygon * Z)) : Prop :=
    Permutation rings sorted /\ ForallOrdPairs (fun a b => Z.abs (snd b) <= Z.abs (snd a)) sorted.
  (** No two polygons of the list have a common point. *)
  Definition separate (l : list polygon) : Prop :=
    ForallOrdPairs (fun a b => forall p, inside a p = true -> inside b p = false) l.
  (** Whether the two largest rings around a point turn the same way; true with one ring. *)
  Definition two_largest_agree (sorted : list (polygon * Z)) (p : point) : bool :=
    match map (fun r => 0 <? snd r) (filter (fun r => inside (fst r) p) sorted) with
    | [] => false
    | [_] => true
    | a :: b :: _ => Bool.eqb a b
    end.
End meaning.

(** What the odd-even correction of polygons is expected to give. *)
From Verif Require Export OddEvenModel.
From Coq Require Import List ZArith Bool Arith.
Import ListNotations.

Section Meaning.
  Context {polygon point : Type}.
  (** the points of a polygon, off the outlines *)
  Variable inside : polygon -> point -> bool.
  Variable clockwise : polygon -> Prop.
  (** the multi polygons the operations are made for *)
  Variable valid : list polygon -> Prop.
  Definition covers (m : list polygon) (p : point) : bool := existsb (fun u => inside u p) m.

  (** What the operations do to the points which are on no outline. *)
  Record odd_even_laws (sym_difference : list polygon -> list polygon -> list polygon) (reversed : polygon -> polygon) : Prop := {
    empty_law : valid [];
    single_law : forall a, clockwise a -> valid [a];
    difference_law : forall a b, valid a -> valid b ->
      valid (sym_difference a b) /\ forall p, covers (sym_difference a b) p = xorb (covers a p) (covers b p);
    reversed_law : forall a, ~ clockwise a -> clockwise (reversed a) /\ forall p, inside (reversed a) p = inside a p }.

  (** A ring of positive area is in clockwise order, a ring of negative area is not. *)
  Definition oriented (r : polygon * Z) : Prop := ((0 <= snd r)%Z /\ clockwise (fst r)) \/ ((snd r < 0)%Z /\ ~ clockwise (fst r)).
  (** The number of rings around a point. *)
  Definition around (rings : list (polygon * Z)) (p : point) : nat := length (filter (fun r => inside (fst r) p) rings).
  (** The number of rings around a point, of a polygon with holes: without a ring of the outline, no
      ring counts. *)
  Definition around_polygon (poly : list (polygon * Z) * list (list (polygon * Z))) (p : point) : nat :=
    match fst poly with
    | [] => 0
    | outer => around outer p + around (concat (snd poly)) p
    end.
  Definition around_all (input : list (list (polygon * Z) * list (list (polygon * Z)))) (p : point) : nat :=
    fold_right (fun poly n => around_polygon poly p + n) 0 input.
  Definition all_oriented (poly : list (polygon * Z) * list (list (polygon * Z))) : Prop :=
    Forall oriented (fst poly) /\ Forall (Forall oriented) (snd poly).
End Meaning.

(** What a missing measure is, independently of the readers of the image. *)
From Coq Require Import QArith.
From Verif Require Import MissingDepthModel.
Local Open Scope Q_scope.

(** A pixel without a measure: not a number, negative infinity, or a number that is not positive. *)
Definition missing (z : num) : Prop :=
  match z with
  | NaN => True
  | Infinite negative => negative = true
  | Finite q => q <= 0
  end.
(** Two images with the same measures: they can only differ in how they write the missing ones. *)
Definition same_measures (width height : nat) (a b : image) : Prop :=
  forall row column, (row < height)%nat -> (column < width)%nat ->
  a row column = b row column \/ (missing (a row column) /\ missing (b row column)).
(** A depth too near of zero to be used *)
Definition null_measure (z : num) : Prop := exists q, z = Finite q /\ 0 < q /\ q <= 1 # (2 ^ 52).
(** A value that is not a number or is the positive infinity *)
Definition not_a_depth (z : num) : Prop := z = NaN \/ z = Infinite false.
(** A depth in the range of the camera, in millimeters *)
Definition in_range (z : num) : Prop := exists q, z = Finite q /\ 40 < q /\ q <= 6000.

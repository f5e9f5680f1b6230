(** The grid and the distance without rounding. *)
From Coq Require Import ZArith Reals.
From Flocq Require Import Core.
From Verif Require Import RoundedGridModel.
Local Open Scope R_scope.

(** the numbers of the machine *)
Definition double (x : R) : Prop := generic_format radix2 (FLT_exp (-1074) 53) x.
(** [c] is the cell of 31 pixels where [v] is, the first or the last of [count] when it is outside *)
Definition in_cell (count c : Z) (v : R) : Prop :=
  (0 <= c < count)%Z /\ (c = 0%Z \/ 31 * IZR c <= v) /\ (c = (count - 1)%Z \/ v < 31 * (IZR c + 1)).
(** [c] is the smallest number of cells of 31 pixels that cover [n] pixels *)
Definition covers (c n : Z) : Prop := (31 * (c - 1) < n <= 31 * c)%Z.
Definition exact_distance2 (k : keypoint) (x y : R) : R := (kx k - x) * (kx k - x) + (ky k - y) * (ky k - y).
(** the relative size of the accumulated rounding errors *)
Definition tiny : R := / 2 ^ 49.

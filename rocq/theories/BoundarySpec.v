(** What is expected of the boundary of a plane and of the selection of the cylinders. *)
From Verif Require Import BoundaryModel.
Local Open Scope Z_scope.

Definition in_grid (rows cols : Z) (cell : Z * Z) : Prop := 0 <= fst cell < rows /\ 0 <= snd cell < cols.
(** the same cell or one of its eight, or four, neighbours *)
Definition near8 (a b : Z * Z) : Prop := Z.abs (fst a - fst b) <= 1 /\ Z.abs (snd a - snd b) <= 1.
Definition near4 (a b : Z * Z) : Prop := Z.abs (fst a - fst b) + Z.abs (snd a - snd b) <= 1.
(** the cells of a set are in the grid *)
Definition region (rows cols : Z) (m : image) (cell : Z * Z) : Prop := in_grid rows cols cell /\ m (fst cell) (snd cell) = true.

(** cells at the border of a region: in it or next to it, and next to (or) out of it; out of
    the grid is out of the region *)
Definition at_border (rows cols : Z) (m : image) (cell : Z * Z) : Prop :=
  (exists a, near8 cell a /\ region rows cols m a) /\
  (exists b, near4 cell b /\ ~ region rows cols m b).

(** what the centre of a cell gives: the measured point, when there is one and it is close to
    the plane: at less than three standard deviations *)
Definition center_point (depth : Z -> Z -> R) (side : Z) (ki : mat) (pl : plane) (mse : R) (cell : Z * Z) (p : vec) : Prop :=
  let x := snd cell * side + side / 2 in let y := fst cell * side + side / 2 in
  (0 < depth y x)%R /\ screen_to_camera ki (mkV (IZR x) (IZR y) (depth y x)) = Value p /\
  (Rabs (dot (pl_normal pl) p + pl_d pl) < 3 * sqrt mse)%R.

(** cells which stay in the region when its small holes are filled *)
Definition filled (rows cols : Z) (m : image) (cell : Z * Z) : Prop :=
  forall a, in_grid rows cols a -> near4 cell a -> exists b, near4 a b /\ region rows cols m b.
(** interior of the filled region *)
Definition interior (rows cols : Z) (m : image) (cell : Z * Z) : Prop :=
  in_grid rows cols cell /\ forall a, in_grid rows cols a -> near4 cell a -> filled rows cols m a.

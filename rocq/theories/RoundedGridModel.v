(** Model of the search of candidates in the grid of keypoints, with the rounding of the machine.
    Source: /repo/src/features/keypoints/keypoint_handler.cpp:28-52, 123-192 and 247-250.
    A [double] is a real number of the format of 53 bits; each operation is rounded to nearest
    even. Simplified: overflow to infinity is not modelled (the positions are bounded in the
    theorems); operations are not fused; the content of the cells is computed from the positions
    (each detected keypoint is in the cell of its coordinates, C14_set_never_out_of_range).
    C14 and C15 are about the same functions, on rational numbers without rounding. *)
From Coq Require Import ZArith Reals List Bool.
From Flocq Require Import Core.
Import ListNotations.
Local Open Scope Z_scope.

Definition rounded (x : R) : R := round radix2 (FLT_exp (-1074) 53) ZnearestE x.
(** [cellSize], keypoint_handler.cpp:41, 133 and 248: [matchSearchRadius_px + 1.0] *)
Definition cell_size : R := 31%R.
(** [_cellCountX] and [_cellCountY], 44-45 *)
Definition cell_count (n : Z) : Z := Zceil (rounded (IZR n / cell_size)).
(** one coordinate of [get_search_space_coordinates], 130-138 *)
Definition cell_of (count : Z) (v : R) : Z := Z.max 0 (Z.min (count - 1) (Zfloor (rounded (v / cell_size)))).
(** the number of cells to look in around, 247-250 *)
Definition cell_radius (radius : R) : Z := Zceil (rounded (radius / cell_size)).
(** [get_search_space_index], 128 *)
Definition index (count_y x y : Z) : Z := y * count_y + x.

(** the cells of a search in one direction, 146-150, in unsigned integers of 32 bits *)
Definition unsigned (z : Z) : Z := z mod 2 ^ 32.
Definition range (first last : Z) : list Z := map (fun i => first + Z.of_nat i) (seq 0 (Z.to_nat (last - first))).
Definition searched (count coordinate radius : Z) : list Z :=
  range (Z.max 0 (unsigned (coordinate - radius))) (Z.min count (unsigned (coordinate + radius + 1))).

Record keypoint := mkKeypoint { kx : R; ky : R; is_matched : bool }.
(** [squaredNorm] of the difference, 181-182 *)
Definition squared_distance (k : keypoint) (x y : R) : R :=
  let dx := rounded (kx k - x) in
  let dy := rounded (ky k - y) in
  rounded (rounded (dx * dx) + rounded (dy * dy)).
(** [compute_key_point_mask] and [fill_keypoint_mask], 140-192: the value of the mask for a keypoint *)
Definition candidate (cols rows : Z) (k : keypoint) (x y : R) (radius : Z) : bool :=
  let count_x := cell_count cols in
  let count_y := cell_count rows in
  let mine := index count_y (cell_of count_x (kx k)) (cell_of count_y (ky k)) in
  existsb (fun i => existsb (fun j =>
      (index count_y j i =? mine) && negb (is_matched k) &&
      if Rle_dec (squared_distance k x y) 900 then true else false)
    (searched count_x (cell_of count_x x) radius)) (searched count_y (cell_of count_y y) radius).

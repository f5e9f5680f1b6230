(** Model of the boundary of the detected planes and of the selection of the cylinders.
    Source: /repo/src/features/primitives/primitive_detection.cpp:39-55, 564-735.
    Images of the grid of cells are functions of a row and a column, in a grid of [rows] x
    [cols] cells. Numbers are reals: rounding is not modelled. *)
From Verif Require Export GeometryModel.
From Verif Require Export PlaneSegmentModel.
Export ListNotations.
Local Open Scope bool_scope.
Local Open Scope Z_scope.

(** the kernels, primitive_detection.cpp:48-54: offsets of the ones from the center *)
Definition cross_kernel : list (Z * Z) := [(-1, 0); (0, -1); (0, 0); (0, 1); (1, 0)].
Definition square_kernel : list (Z * Z) := [(-1, -1); (-1, 0); (-1, 1); (0, -1); (0, 0); (0, 1); (1, -1); (1, 0); (1, 1)].

Definition image := Z -> Z -> bool.

Section Grid.
Variables rows cols : Z.
Definition inside (r c : Z) : bool := (0 <=? r) && (r <? rows) && (0 <=? c) && (c <? cols).

(** [cv::erode]: minimum over the kernel; [border] is the value out of the image. The default
    border never changes the minimum: 1 *)
Definition erode (kernel : list (Z * Z)) (border : bool) (m : image) : image := fun r c =>
  forallb (fun o => if inside (r + fst o) (c + snd o) then m (r + fst o) (c + snd o) else border) kernel.
(** [cv::dilate]: maximum over the kernel, the default border never changes the maximum *)
Definition dilate (kernel : list (Z * Z)) (m : image) : image := fun r c =>
  existsb (fun o => inside (r + fst o) (c + snd o) && m (r + fst o) (c + snd o)) kernel.

(** the boundary cells, primitive_detection.cpp:677-682: the difference of the unsigned images
    saturates at 0 *)
Definition boundary_cell (m : image) : image := fun r c =>
  dilate square_kernel m r c && negb (erode cross_kernel false m r c).

Definition upto (n : Z) : list Z := map Z.of_nat (seq 0 (Z.to_nat n)).
(** the cells, row by row *)
Definition cells : list (Z * Z) := flat_map (fun r => map (fun c => (r, c)) (upto cols)) (upto rows).

(** [compute_plane_segment_boundary], 650-703. [depth row column] is the depth image, [side]
    the number of pixels of the side of a cell, [ki] the inverse of the intrinsics. *)
Variable depth : Z -> Z -> R.
Variable side : Z.
Variable ki : mat.

(** [add_point_if_in_plane], 660-675: [None] when the conversion throws (the function is
    [noexcept]: the program terminates) *)
Definition add_point_if_in_plane (plane : plane) (mse : R) (x y : Z) : option (list vec) :=
  if Rlt_dec 0 (depth y x) then
    match screen_to_camera ki (mkV (IZR x) (IZR y) (depth y x)) with
    | Throws => None
    | Value p => Some (if Rlt_dec (Rabs (point_distance plane p)) (3 * sqrt mse) then [p] else [])
    end
  else Some [].
(** body of the [forEach], 691-700 *)
Definition boundary_of_cell (m : image) (plane : plane) (mse : R) (cell : Z * Z) : option (list vec) :=
  if boundary_cell m (fst cell) (snd cell)
  then add_point_if_in_plane plane mse (snd cell * side + side / 2) (fst cell * side + side / 2)
  else Some [].
(** the [forEach] runs the cells in any order: [order]. The points are added under a lock. *)
Fixpoint boundary_points (m : image) (plane : plane) (mse : R) (order : list (Z * Z)) : option (list vec) :=
  match order with
  | [] => Some []
  | cell :: order' =>
    match boundary_of_cell m plane mse cell, boundary_points m plane mse order' with
    | Some l, Some l' => Some (l ++ l')
    | _, _ => None
    end
  end.

(** ** Planes reported, [add_planes_to_primitives], 562-638. [polygon] is the boundary polygon
    built from the points: [None] when it is not valid or has less than 3 points. *)
Definition plane_reported {Polygon : Type} (polygon : list vec -> option Polygon) (points : list vec) : option Polygon :=
  if (length points <? 3)%nat then None else polygon points.

(** ** Cylinders reported, [add_cylinders_to_primitives], 705-734 *)
Definition closed (m : image) : image := erode cross_kernel true (dilate cross_kernel m).
Definition eroded_cells (m : image) : list bool :=
  map (fun cell => erode cross_kernel true (closed m) (fst cell) (snd cell)) cells.
(** [cv::minMaxLoc] and the test of line 726 *)
Definition cylinder_kept (m : image) : bool :=
  let max := existsb (fun b => b) (eroded_cells m) in
  let min := forallb (fun b => b) (eroded_cells m) in
  negb (negb max || (implb max min)).
(** [labels] is the grid of the cylinders, [segments] the cylinder segments: [None] is an
    access out of range *)
Fixpoint cylinders_reported {Cylinder : Type} (labels : Z -> Z -> Z) (segments : list Cylinder) (index : Z)
    (region_map : list nat) : option (list Cylinder) :=
  match region_map with
  | [] => Some []
  | region :: region_map' =>
    match cylinders_reported labels segments (index + 1) region_map' with
    | None => None
    | Some l =>
      if cylinder_kept (fun r c => labels r c =? index + 1)
      then match nth_error segments region with Some s => Some (s :: l) | None => None end
      else Some l
    end
  end.
End Grid.

(** Model of the transformation of the depth image.
    Source: /repo/src/features/primitives/depth_map_transformation.cpp.
    The parallel loops over the rows are lists of tasks, one by row, each the list of
    the stores it performs in order; DepthMapSpec.v says how tasks may interleave.
    Oracles: the conversion of a pixel to the space of the camera, the projection of a
    depth pixel in the screen of the first camera. Simplified: a store of a float is
    atomic, a value of depth is any type with a test for being positive. *)
From Coq Require Export ZArith List Bool Lia.
Export ListNotations.
Local Open Scope Z_scope.

(** [uint] arithmetic *)
Definition u32 (z : Z) : Z := z mod 2 ^ 32.

(** outcome of a computation with an undefined behaviour *)
Inductive outcome (A : Type) := Done (a : A) | Undefined.
Arguments Done {A} a.
Arguments Undefined {A}.

(** [_cellMap(row, column)], depth_map_transformation.cpp:147-173. The size of the cells
    divides: zero is undefined. [floor] does nothing to an integer. The conversion of the
    [double] it returns to [int] (line 169) is undefined when it does not fit. *)
Definition cell_map (width cell_size row column : Z) : outcome Z :=
  if cell_size =? 0 then Undefined
  else
    let horizontal := width / cell_size in
    let cell_r := row / cell_size in
    let local_r := row mod cell_size in
    let cell_c := column / cell_size in
    let local_c := column mod cell_size in
    let id := u32 (u32 (u32 (u32 (u32 (cell_r * horizontal) + cell_c) * u32 (cell_size * cell_size))
                        + u32 (local_r * cell_size)) + local_c) in
    if id <? 2 ^ 31 then Done id else Undefined.

(** 0, 1, ..., n - 1: the values of a loop counter *)
Definition upto (n : Z) : list Z := map Z.of_nat (seq 0 (Z.to_nat n)).

(** one store in the array of points: line, column (0: x, 1: y, 2: z), value *)
Record store (V : Type) := mkStore { st_at : Z * Z; st_value : V }.
Arguments mkStore {V}.
Arguments st_at {V}.
Arguments st_value {V}.

(** execution of stores in an array *)
Definition array (V : Type) := Z * Z -> V.
Definition write {V} (a : array V) (s : store V) : array V :=
  fun i => if (fst i =? fst (st_at s)) && (snd i =? snd (st_at s)) then st_value s else a i.
Definition execute {V} (zero : V) (trace : list (store V)) : array V :=
  fold_left write trace (fun _ => zero).

Section Cloud.
Context {V : Type}.
(** [depthImage(row, column)], the test [z > 0], [x] and [y] of the pixel in the space of
    the camera *)
Variable depth : Z -> Z -> V.
Variable positive : V -> bool.
Variable camera_x camera_y : Z -> Z -> V -> V.

(** slot of a pixel; the address is meaningful only when the map is defined *)
Definition slot (width cell_size row column : Z) : Z :=
  match cell_map width cell_size row column with Done id => id | Undefined => -1 end.

(** body of the loop over the columns, depth_map_transformation.cpp:103-119 *)
Definition cloud_pixel (width cell_size row column : Z) : list (store V) :=
  let z := depth row column in
  if positive z then
    let id := slot width cell_size row column in
    [mkStore (id, 0) (camera_x column row z); mkStore (id, 1) (camera_y column row z); mkStore (id, 2) z]
  else [].
(** the task of a row *)
Definition cloud_row (width cell_size row : Z) : list (store V) :=
  flat_map (cloud_pixel width cell_size row) (upto width).
(** the tasks of [get_organized_cloud_array], depth_map_transformation.cpp:89-142 *)
Definition cloud_tasks (width height cell_size : Z) : list (list (store V)) :=
  map (cloud_row width cell_size) (upto height).

(** ** Rectification, depth_map_transformation.cpp:23-87 *)

(** [floor] of a coordinate of the screen: an integer, or an infinity when the projected
    point is at the depth of the center *)
Inductive floored := Finite (z : Z) | Infinite.
(** the projection of a depth pixel: not a number (the program exits), or the two
    coordinates and the depth seen by the first camera *)
Inductive projection := Fails | Projects (x y : floored) (z : V).
Variable project : Z -> Z -> V -> projection.

(** [static_cast<uint>] of a [double]: undefined out of the range *)
Definition to_uint (f : floored) : outcome Z :=
  match f with
  | Finite z => if (0 <=? z) && (z <? 2 ^ 32) then Done z else Undefined
  | Infinite => Undefined
  end.

(** what a pixel does *)
Inductive action := Nothing | Stores (s : store V) | Exits | Misbehaves.
(** body of the loop, depth_map_transformation.cpp:44-80 *)
Definition rectify_pixel (width height row column : Z) : action :=
  let z := depth row column in
  if positive z then
    match project row column z with
    | Fails => Exits
    | Projects x y v =>
      match to_uint x, to_uint y with
      | Done c, Done r =>
        if (0 <? c) && (0 <? r) && (c <? width) && (r <? height) then Stores (mkStore (r, c) v) else Nothing
      | _, _ => Misbehaves
      end
    end
  else Nothing.
Definition action_stores (a : action) : list (store V) :=
  match a with Stores s => [s] | _ => [] end.
(** the task of a row and the tasks of the call; meaningful when no pixel exits or misbehaves *)
Definition rectify_row (width height row : Z) : list (store V) :=
  flat_map (fun column => action_stores (rectify_pixel width height row column)) (upto width).
Definition rectify_tasks (width height : Z) : list (list (store V)) :=
  map (rectify_row width height) (upto height).
End Cloud.
Arguments Fails {V}.
Arguments Projects {V}.

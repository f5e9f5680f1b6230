(** Model of the morphological operations of /repo/third_party/geodesic_operations.cpp
    (compiled with the library, not called by it). An image is a function on the pixels
    (x, y) of a rectangle, with values 0 to 255. [cv::dilate] and [cv::erode] take the
    greatest and the least value around a pixel, among the pixels of the image, over the
    offsets of the structuring element (border by default). *)
From Coq Require Export ZArith List Bool Lia.
Export ListNotations.
Local Open Scope Z_scope.

Notation pixel := (Z * Z)%type.
Notation image := (pixel -> Z).

Section Size.
Variables cols rows : Z.

Definition in_image (p : pixel) : bool := (0 <=? fst p) && (fst p <? cols) && (0 <=? snd p) && (snd p <? rows).
Definition range (n : Z) : list Z := map Z.of_nat (seq 0 (Z.to_nat n)).
Definition pixels : list pixel := list_prod (range cols) (range rows).

(** the pixels a structuring element covers *)
Definition around (se : list pixel) (p : pixel) : list pixel :=
  filter in_image (map (fun o => (fst p + fst o, snd p + snd o)) se).
(** [cv::dilate], [cv::erode], [cv::min], [cv::max], [cv::bitwise_not] *)
Definition dilate (se : list pixel) (f : image) : image := fun p => fold_right Z.max 0 (map f (around se p)).
Definition erode (se : list pixel) (f : image) : image := fun p => fold_right Z.min 255 (map f (around se p)).
Definition imin (f g : image) : image := fun p => Z.min (f p) (g p).
Definition imax (f g : image) : image := fun p => Z.max (f p) (g p).
Definition inot (f : image) : image := fun p => 255 - f p.
(** [cv::sum] of the [cv::compare] of two images is not null, geodesic_operations.cpp:64-66,114-115 *)
Definition differs (f g : image) : bool := existsb (fun p => negb (f p =? g p)) pixels.

(** one step, geodesic_operations.cpp:112-113 and 62-63 *)
Definition dilate_step (se : list pixel) (mask d : image) : image := imin (dilate se d) mask.
Definition erode_step (se : list pixel) (mask d : image) : image := imax (erode se d) mask.
(** the loops of lines 109-115 and 59-66; [None]: not ended *)
Fixpoint until_stable (step : image -> image) (fuel : nat) (d : image) : option image :=
  match fuel with
  | O => None
  | S fuel => let d' := step d in if differs d d' then until_stable step fuel d' else Some d'
  end.

(** [GeodesicDilation], geodesic_operations.cpp:99-139 *)
Definition geodesic_dilation (fuel : nat) (marker mask : image) (se : list pixel) (iterations : Z) : option image :=
  if iterations <? 0 then until_stable (dilate_step se mask) fuel (dilate_step se mask (imin marker mask))
  else if iterations =? 0 then Some marker
  else Some (Nat.iter (Z.to_nat iterations) (dilate_step se mask) (imin marker mask)).
(** [GeodesicErosion], geodesic_operations.cpp:49-90 *)
Definition geodesic_erosion (fuel : nat) (marker mask : image) (se : list pixel) (iterations : Z) : option image :=
  if iterations <? 0 then until_stable (erode_step se mask) fuel (erode_step se mask (imax marker mask))
  else if iterations =? 0 then Some marker
  else Some (Nat.iter (Z.to_nat iterations) (erode_step se mask) (imax marker mask)).

(** [kernel3], lines 34-35 *)
Definition square : list pixel := list_prod [-1; 0; 1] [-1; 0; 1].
(** the marker of [fillHole], lines 8-29: the first and last lines are those of the negated
    image; the two columns take the negated ends of the last line; the inside, [junk], is not
    written *)
Definition hole_marker (src junk : image) : image := fun p =>
  if snd p =? 0 then 255 - src p
  else if snd p =? rows - 1 then 255 - src p
  else if (fst p =? 0) || (fst p =? cols - 1) then 255 - src (fst p, rows - 1)
  else junk p.
(** [fillHole], lines 6-40 *)
Definition fill_hole (fuel : nat) (src junk : image) : option image :=
  option_map inot (geodesic_dilation fuel (hole_marker src junk) (inot src) square (-1)).
End Size.

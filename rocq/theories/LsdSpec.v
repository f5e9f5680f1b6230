(** What the detection of line segments is expected to satisfy. *)
From Verif Require Export LsdModel.
From Verif Require Import Atan2.
From Coq Require Import Reals ZArith List Bool Permutation Sorted.
Import ListNotations.
Local Open Scope R_scope.

(** Two angles differ by at most [e], up to a number of turns. *)
Definition near_angle (e a b : R) : Prop := exists k : Z, Rabs (a - b + 2 * PI * IZR k) <= e.
(** Two different pixels that share a side or a corner. *)
Definition adjacent (p q : pixel) : Prop :=
  p <> q /\ (-1 <= fst p - fst q <= 1)%Z /\ (-1 <= snd p - snd q <= 1)%Z.

(** The range and the accuracy of the arc tangent: degrees between 0 and 360, at most [e] radians
    from the angle of the vector. *)
Definition in_degrees (fa : R -> R -> R) : Prop := forall y x, 0 <= fa y x < 360.
Definition accurate (e : R) (fa : R -> R -> R) : Prop :=
  forall y x, exists t, Rabs (fa y x * (PI / 180) - t) <= e /\
    x = sqrt (x * x + y * y) * cos t /\ y = sqrt (x * x + y * y) * sin t.

(** A field of gradients: the pixels with an angle are in the image, but in its last row and
    in its last column, their angle is in a turn and their norm is positive. *)
Definition sound_field (f : field) : Prop :=
  forall p a, f_angle f p = Some a ->
    (0 <= fst p < f_cols f - 1)%Z /\ (0 <= snd p < f_rows f - 1)%Z /\ 0 <= a < 2 * PI /\ 0 < f_norm f p.

(** The angle of a region: the one of its pixel, or the one of the sum of the directions of
    its pixels. *)
Definition region_angle (fa : R -> R -> R) (f : field) (reg : list pixel) : R :=
  match reg with
  | [p] => angle_at f p
  | _ => fa (sum (map (fun p => sin (angle_at f p)) reg)) (sum (map (fun p => cos (angle_at f p)) reg)) * (PI / 180)
  end.

(** A region grown from [s] among the pixels that are not [used], with a tolerance [prec]. *)
Record grown (fa : R -> R -> R) (f : field) (used : pixel -> bool) (s : pixel) (prec : R) (reg : list pixel) : Prop := {
  (** it starts from the seed, *)
  grown_seed : exists t, reg = s :: t;
  (** has each pixel once, *)
  grown_once : NoDup reg;
  (** all of them were free and have an angle, *)
  grown_free : forall p, In p reg -> used p = false /\ f_angle f p <> None;
  (** each one but the seed is next to an earlier one, and has the angle of the region at
      that time, *)
  grown_step : forall before q after, reg = before ++ q :: after -> before <> [] ->
    (exists p, In p before /\ adjacent p q) /\ near_angle prec (angle_at f q) (region_angle fa f before);
  (** and a pixel with an angle next to the region is refused only if it was used or if it had
      not the angle of the region at some time. *)
  grown_refused : forall p q, In p reg -> adjacent p q -> f_angle f q <> None -> ~ In q reg ->
    used q = true \/
    exists before after, reg = before ++ after /\ In p before /\
      ~ near_angle prec (angle_at f q) (region_angle fa f before) }.

(** The weighted sum of the squares of the distances of the pixels of a region to the line through
    (x, y) of direction (c, s). *)
Definition scatter (f : field) (reg : list pixel) (x y c s : R) : R :=
  sum (map (fun p => f_norm f p * ((px p - x) * s - (py p - y) * c) * ((px p - x) * s - (py p - y) * c)) reg).
(** The weighted sum of the squares of the distances to a point. *)
Definition spread (f : field) (reg : list pixel) (x y : R) : R :=
  sum (map (fun p => f_norm f p * ((px p - x) * (px p - x) + (py p - y) * (py p - y))) reg).

(** Along and across the axis of a rectangle, from its center. *)
Definition along (r : rect) (p : pixel) : R := (px p - cx r) * cos (theta r) + (py p - cy r) * sin (theta r).
Definition across (r : rect) (p : pixel) : R := (py p - cy r) * cos (theta r) - (px p - cx r) * sin (theta r).
(** The point of the axis at a given distance from the center. *)
Definition on_axis (r : rect) (l : R) : R * R := (cx r + l * cos (theta r), cy r + l * sin (theta r)).

(** A sort of points: the same points, the largest norms first. *)
Definition sorts (sort : list (pixel * Z) -> list (pixel * Z)) : Prop :=
  forall l, Permutation l (sort l) /\ StronglySorted (fun a b => (snd b <= snd a)%Z) (sort l).

(** The regions of an image: they have all the pixels with an angle, each one once. Each region is
    grown from the strongest of the pixels that the earlier regions left, without their pixels. *)
Record segmentation (fa : R -> R -> R) (f : field) (strength : pixel -> Z) (prec : R) (parts : list (list pixel)) : Prop := {
  seg_once : NoDup (concat parts);
  seg_all : forall p, In p (concat parts) <-> f_angle f p <> None;
  seg_grown : forall before reg after, parts = before ++ reg :: after ->
    exists s used, grown fa f used s prec reg /\ (forall q, used q = true <-> In q (concat before)) /\
      forall q, f_angle f q <> None -> ~ In q (concat before) -> (strength q <= strength s)%Z }.

(** The gradient of a block of four pixels: twice the mean difference along each axis. *)
Definition right_minus_left (im : image) (x y : Z) : Z :=
  (at_pixel im (x + 1, y) + at_pixel im (x + 1, y + 1) - at_pixel im (x, y) - at_pixel im (x, y + 1))%Z.
Definition bottom_minus_top (im : image) (x y : Z) : Z :=
  (at_pixel im (x, y + 1) + at_pixel im (x + 1, y + 1) - at_pixel im (x, y) - at_pixel im (x + 1, y))%Z.

(** A mean and a standard deviation. *)
Definition mean (l : list R) : R := sum l / INR (length l).
Definition deviation (l : list R) : R := sqrt (mean (map (fun x => (x - mean l) * (x - mean l)) l)).
(** The rectangle is filled enough by its region. *)
Definition dense (reg : list pixel) (r : rect) (th : R) : Prop :=
  th * (sqrt ((x2 r - x1 r) * (x2 r - x1 r) + (y2 r - y1 r) * (y2 r - y1 r)) * width r) <= INR (length reg).

(** What a refinement leaves. A region is grown again from the same seed. It is kept as it is or
    reduced to the pixels in some distance of the seed, with at least two pixels that fill
    its rectangle enough. The pixels marked as used are then those of the other regions and those of
    the kept region, or the seed if no region is kept. *)
Inductive refinement (fa : R -> R -> R) (f : field) (prec th : R) (s : pixel) (used : pixel -> bool) (reg : list pixel) (g : growth)
  : refined -> Prop :=
| refinement_kept : forall u reg' r',
    NoDup reg' -> hd_error reg' = Some s -> (2 <= length reg')%nat ->
    (reg' = g_reg g \/ exists rad, forall p, In p reg' <->
       In p (g_reg g) /\ (px p - px s) * (px p - px s) + (py p - py s) * (py p - py s) <= rad) ->
    region2rect fa f reg' (g_angle g) prec = Some r' -> dense reg' r' th ->
    (forall q, u q = true <-> (used q = true /\ ~ In q reg) \/ In q reg') ->
    refinement fa f prec th s used reg g (Kept u reg' r')
| refinement_discarded : forall u, (forall q, u q = true <-> (used q = true /\ ~ In q reg) \/ q = s) ->
    refinement fa f prec th s used reg g (Discarded u).

(** The ends of a line are those of its rectangle, from the corner of the image and at its size. *)
Definition ends_of (scale : R) (l : line) (r : rect) : Prop :=
  scale * fst (fst l) = x1 r + / 2 /\ scale * snd (fst l) = y1 r + / 2 /\
  scale * fst (snd l) = x2 r + / 2 /\ scale * snd (snd l) = y2 r + / 2.
(** A coordinate between two others. *)
(** the integer part of a number, towards 0 *)
Definition toward_zero (x : R) (n : Z) : Prop := (0 <= x -> IZR n <= x < IZR n + 1) /\ (x < 0 -> IZR n - 1 < x <= IZR n).
Definition lies_between (a b x : Z) : Prop := (Z.min a b <= x <= Z.max a b)%Z.
(** The exact arc tangent in degrees. *)
Definition exact_atan2 (y x : R) : R :=
  let t := atan2 y x * (180 / PI) in if Rlt_dec t 0 then t + 360 else t.
(** The norm of the strongest gradient of the pixels with an angle. *)
Definition strongest (f : field) (m : R) : Prop :=
  (forall p, f_angle f p <> None -> f_norm f p <= m) /\
  ((exists p, f_angle f p <> None /\ f_norm f p = m) \/ forall p, f_angle f p = None).
(** Its level of strength among [n]. *)
Definition level (f : field) (m : R) (n : Z) (p : pixel) : Z := Int_part (f_norm f p * (IZR (n - 1) / m)).

(** Model of the line segment detector and of the display of its lines.
    Source: /repo/third_party/line_segment_detector.cpp, .hpp and
    /repo/src/features/lines/line_detection.cpp.
    Numbers are reals (the sums of the directions of a region are floats in the code). The
    blur and the change of size of the image, the sort of the points and [cv::fastAtan2] are
    arguments. The advanced refinement is the subject of ImproveModel: the
    detector of [Line_Detection] is built without refinement. *)
From Coq Require Import Reals ZArith List Bool Lia Lra.
Import ListNotations.
Local Open Scope R_scope.

Definition rle (a b : R) : bool := if Rle_dec a b then true else false.
Definition rlt (a b : R) : bool := if Rlt_dec a b then true else false.

(** A pixel: column and row *)
Definition pixel := (Z * Z)%type.
Definition pixel_eqb (p q : pixel) : bool := (fst p =? fst q)%Z && (snd p =? snd q)%Z.
(** A gray image (CV_8UC1): the value of a column and a row *)
Record image := mkImage { cols : Z; rows : Z; at_pixel : pixel -> Z }.
(** the integers from [a], [n] of them; from [a] to [b] both included *)
Fixpoint zseq (a : Z) (n : nat) : list Z := match n with O => [] | S n' => a :: zseq (a + 1) n' end.
Definition zrange (a b : Z) : list Z := zseq a (Z.to_nat (b - a + 1)).
(** two loops, over rows then over columns *)
Definition pixels_of (x0 x1 y0 y1 : Z) : list pixel :=
  flat_map (fun y => map (fun x => (x, y)) (zrange x0 x1)) (zrange y0 y1).

Definition sum (l : list R) : R := fold_right Rplus 0 l.

(** What [ll_angle] computes, 398-458: the angle of the gradient of a pixel ([None] is the
    label [NOTDEF]) and its norm. The norm of the last row and of the last column is not
    initialized. *)
Record field := mkField { f_cols : Z; f_rows : Z; f_angle : pixel -> option R; f_norm : pixel -> R }.

Section Detector.
(** [cv::fastAtan2] of the ordinate and the abscissa, in degrees *)
Variable fast_atan2 : R -> R -> R.
(** [DEG_TO_RADS], 31 *)
Definition to_radians (d : R) : R := d * (PI / 180).

(** the gradient of a pixel, 420-424 *)
Definition gradient (im : image) (p : pixel) : Z * Z :=
  let '(x, y) := p in
  let da := (at_pixel im (x + 1, y + 1) - at_pixel im (x, y))%Z in
  let bc := (at_pixel im (x + 1, y) - at_pixel im (x, y + 1))%Z in
  ((da + bc)%Z, (da - bc)%Z).
Definition gradient_norm (im : image) (p : pixel) : R :=
  let '(gx, gy) := gradient im p in sqrt (IZR (gx * gx + gy * gy) / 4).
(** 407-440: the last row and the last column have no angle, neither do the small gradients *)
Definition pixel_angle (im : image) (threshold : R) (p : pixel) : option R :=
  let '(gx, gy) := gradient im p in
  if (0 <=? fst p)%Z && (fst p <? cols im - 1)%Z && (0 <=? snd p)%Z && (snd p <? rows im - 1)%Z then
    if rle (gradient_norm im p) threshold then None
    else Some (to_radians (fast_atan2 (IZR gx) (- IZR gy)))
  else None.
Definition ll_field (im : image) (threshold : R) : field :=
  mkField (cols im) (rows im) (pixel_angle im threshold) (gradient_norm im).
(** 443-454: the points with their norm as a number of bins; [max_grad] is the largest norm of
    the defined ones, -1 if there is none *)
Definition inner_pixels (im : image) : list pixel := pixels_of 0 (cols im - 2) 0 (rows im - 2).
Definition max_gradient (im : image) (threshold : R) : R :=
  fold_left (fun m p => if rle (gradient_norm im p) threshold then m
                        else if rlt m (gradient_norm im p) then gradient_norm im p else m)
            (inner_pixels im) (-1).
Definition bin_of (im : image) (threshold : R) (n_bins : Z) (p : pixel) : Z :=
  let m := max_gradient im threshold in
  Int_part (gradient_norm im p * (if rlt 0 m then IZR (n_bins - 1) / m else 0)).
Definition binned_points (im : image) (threshold : R) (n_bins : Z) : list (pixel * Z) :=
  map (fun p => (p, bin_of im threshold n_bins p)) (inner_pixels im).

(** [isAligned], 962-978 *)
Definition is_aligned (f : field) (q : pixel) (theta prec : R) : bool :=
  if (fst q <? 0)%Z || (snd q <? 0)%Z || (f_cols f <=? fst q)%Z || (f_rows f <=? snd q)%Z then false
  else match f_angle f q with
       | None => false
       | Some a =>
           let n := theta - a in
           let n := if rlt n 0 then - n else n in
           let n := if rlt (3 * PI / 2) n
                    then let m := n - 2 * PI in if rlt m 0 then - m else m
                    else n in
           rle n prec
       end.

(** [region_grow], 460-514. The map of the used pixels, the region in the order of its
    growth, its angle and the sums of its directions. The angle and the norm of a region point are
    those of its pixel. *)
Record growth := mkGrowth { g_used : pixel -> bool; g_reg : list pixel; g_angle : R; g_dx : R; g_dy : R }.
Definition mark (used : pixel -> bool) (p : pixel) (b : bool) : pixel -> bool :=
  fun q => if pixel_eqb q p then b else used q.
(** the angle of a pixel that has one *)
Definition angle_at (f : field) (p : pixel) : R := match f_angle f p with Some a => a | None => -1024 end.
(** 491-510 *)
Definition try_pixel (f : field) (prec : R) (st : growth) (q : pixel) : growth :=
  if negb (g_used st q) && is_aligned f q (g_angle st) prec then
    let a := angle_at f q in
    let dx := g_dx st + cos a in
    let dy := g_dy st + sin a in
    mkGrowth (mark (g_used st) q true) (g_reg st ++ [q]) (to_radians (fast_atan2 dy dx)) dx dy
  else st.
(** 481-489 *)
Definition neighbours (f : field) (p : pixel) : list pixel :=
  pixels_of (Z.max (fst p - 1) 0) (Z.min (fst p + 1) (f_cols f - 1))
            (Z.max (snd p - 1) 0) (Z.min (snd p + 1) (f_rows f - 1)).
(** 478-513: the loop over a region that grows; [None] is out of fuel *)
Fixpoint grow_loop (fuel : nat) (f : field) (prec : R) (i : nat) (st : growth) : option growth :=
  match fuel with
  | O => None
  | S n => match nth_error (g_reg st) i with
           | None => Some st
           | Some p => grow_loop n f prec (S i) (fold_left (try_pixel f prec) (neighbours f p) st)
           end
  end.
Definition seed_growth (f : field) (used : pixel -> bool) (s : pixel) : growth :=
  let a := angle_at f s in mkGrowth (mark used s true) [s] a (cos a) (sin a).
Definition grow_fuel (f : field) : nat := S (Z.to_nat (f_cols f * f_rows f)).
Definition region_grow (f : field) (used : pixel -> bool) (s : pixel) (prec : R) : option growth :=
  grow_loop (grow_fuel f) f prec 0 (seed_growth f used s).

(** [angle_diff_signed], 58-70: the loops add or remove turns, see [angle_loops] *)
Definition angle_diff_signed (a b : R) : R :=
  let d := a - b in d + 2 * PI * IZR (Int_part ((PI - d) / (2 * PI))).
Definition angle_diff (a b : R) : R := Rabs (angle_diff_signed a b).
(** the two loops of [angle_diff_signed], 61-62; [None] is out of fuel *)
Fixpoint loop_up (fuel : nat) (d : R) : option R :=
  match fuel with O => None | S n => if rle d (- PI) then loop_up n (d + 2 * PI) else Some d end.
Fixpoint loop_down (fuel : nat) (d : R) : option R :=
  match fuel with O => None | S n => if rlt PI d then loop_down n (d - 2 * PI) else Some d end.
Definition angle_loops (fuel : nat) (a b : R) : option R :=
  match loop_up fuel (a - b) with Some d => loop_down fuel d | None => None end.

(** the rectangle of a region, line_segment_detector.hpp:127-136 *)
Record rect := mkRect { x1 : R; y1 : R; x2 : R; y2 : R; width : R; cx : R; cy : R; theta : R; dx : R; dy : R }.
Definition px (p : pixel) : R := IZR (fst p).
Definition py (p : pixel) : R := IZR (snd p).

(** 587-603: the angle of the axis of least inertia, then turned by half a turn if it is not
    close to the angle of the region *)
Definition axis_angle (ixx iyy ixy reg_angle prec : R) : R :=
  let lambda := / 2 * (ixx + iyy - sqrt ((ixx - iyy) * (ixx - iyy) + 4 * ixy * ixy)) in
  let t := to_radians (if rlt (Rabs iyy) (Rabs ixx) then fast_atan2 (lambda - ixx) ixy
                       else fast_atan2 ixy (lambda - iyy)) in
  if rlt prec (angle_diff t reg_angle) then t + PI else t.
(** [get_theta], 572-606; [None]: the inertia matrix is null (assertion). [double_equal] to 0
    is the equality to 0: the denormal numbers are not modelled. *)
Definition get_theta (f : field) (reg : list pixel) (x y reg_angle prec : R) : option R :=
  let ixx := sum (map (fun p => (py p - y) * (py p - y) * f_norm f p) reg) in
  let iyy := sum (map (fun p => (px p - x) * (px p - x) * f_norm f p) reg) in
  let ixy := - sum (map (fun p => (px p - x) * (py p - y) * f_norm f p) reg) in
  if rle ixx 0 && rle 0 ixx && (rle iyy 0 && rle 0 iyy) && (rle ixy 0 && rle 0 ixy) then None
  else Some (axis_angle ixx iyy ixy reg_angle prec).

(** 538-552: least and largest extents along the axis and across it *)
Record extent := mkExtent { l_min : R; l_max : R; w_min : R; w_max : R }.
Definition widen (x y dx dy : R) (e : extent) (p : pixel) : extent :=
  let l := (px p - x) * dx + (py p - y) * dy in
  let w := - (px p - x) * dy + (py p - y) * dx in
  let '(lmin, lmax) := if rlt (l_max e) l then (l_min e, l)
                       else if rlt l (l_min e) then (l, l_max e) else (l_min e, l_max e) in
  let '(wmin, wmax) := if rlt (w_max e) w then (w_min e, w)
                       else if rlt w (w_min e) then (w, w_max e) else (w_min e, w_max e) in
  mkExtent lmin lmax wmin wmax.
(** [region2rect], 516-570; [None] is an assertion: the sum of the weights or the inertia is null *)
Definition region2rect (f : field) (reg : list pixel) (reg_angle prec : R) : option rect :=
  let weight := sum (map (f_norm f) reg) in
  if rle weight 0 then None else
  let x := sum (map (fun p => px p * f_norm f p) reg) / weight in
  let y := sum (map (fun p => py p * f_norm f p) reg) / weight in
  match get_theta f reg x y reg_angle prec with
  | None => None
  | Some t =>
      let dx := cos t in let dy := sin t in
      let e := fold_left (widen x y dx dy) reg (mkExtent 0 0 0 0) in
      let w := w_max e - w_min e in
      Some (mkRect (x + l_min e * dx) (y + l_min e * dy) (x + l_max e * dx) (y + l_max e * dy)
                   (if rlt w 1 then 1 else w) x y t dx dy)
  end.

(** [distSq], [dist], 45-55 *)
Definition dist_sq (xa ya xb yb : R) : R := (xb - xa) * (xb - xa) + (yb - ya) * (yb - ya).
Definition dist (xa ya xb yb : R) : R := sqrt (dist_sq xa ya xb yb).
(** the density of a region in its rectangle is below the threshold, 610-612, 668, 687-688: a
    rectangle of no length has an infinite density *)
Definition too_sparse (reg : list pixel) (r : rect) (density_th : R) : bool :=
  rlt (INR (length reg)) (density_th * (dist (x1 r) (y1 r) (x2 r) (y2 r) * width r)).

(** What remains after a refinement: the used pixels, and the region if it is kept *)
Inductive refined := Kept (used : pixel -> bool) (reg : list pixel) (r : rect)
                   | Discarded (used : pixel -> bool) | Asserts | NoFuel.

(** 670-681: the far points are replaced by the last one of the region; [i] is the index of
    the loop *)
Definition far (s : pixel) (rad_sq : R) (p : pixel) : bool := rlt rad_sq (dist_sq (px s) (py s) (px p) (py p)).
Fixpoint set_nth (i : nat) (q : pixel) (l : list pixel) : list pixel :=
  match l, i with
  | [], _ => []
  | _ :: t, O => q :: t
  | p :: t, S i' => p :: set_nth i' q t
  end.
Definition swap_pop (i : nat) (l : list pixel) : list pixel :=
  match l with
  | [] => []
  | _ => removelast (set_nth i (last l (0, 0)%Z) l)
  end.
Fixpoint remove_far (fuel : nat) (s : pixel) (rad_sq : R) (i : nat) (reg : list pixel) (used : pixel -> bool)
  : option (list pixel * (pixel -> bool)) :=
  match fuel with
  | O => None
  | S n => match nth_error reg i with
           | None => Some (reg, used)
           | Some p => if far s rad_sq p then remove_far n s rad_sq i (swap_pop i reg) (mark used p false)
                       else remove_far n s rad_sq (S i) reg used
           end
  end.
(** [reduce_region_radius], 656-692 *)
Fixpoint reduce_loop (fuel : nat) (f : field) (s : pixel) (reg_angle prec density_th rad_sq : R)
         (used : pixel -> bool) (reg : list pixel) (r : rect) : refined :=
  if too_sparse reg r density_th then
    match fuel with
    | O => NoFuel
    | S n =>
        let rad_sq' := rad_sq * (75 / 100 * (75 / 100)) in
        match remove_far (S (length reg)) s rad_sq' 0 reg used with
        | None => NoFuel
        | Some (reg', used') =>
            if (length reg' <? 2)%nat then Discarded used'
            else match region2rect f reg' reg_angle prec with
                 | None => Asserts
                 | Some r' => reduce_loop n f s reg_angle prec density_th rad_sq' used' reg' r'
                 end
        end
    end
  else Kept used reg r.
Definition reduce_region_radius (fuel : nat) (f : field) (reg_angle prec density_th : R)
           (used : pixel -> bool) (reg : list pixel) (r : rect) : refined :=
  let s := hd (0, 0)%Z reg in
  let a := dist_sq (px s) (py s) (x1 r) (y1 r) in
  let b := dist_sq (px s) (py s) (x2 r) (y2 r) in
  reduce_loop fuel f s reg_angle prec density_th (if rlt b a then a else b) used reg r.
(** 615-638: the tolerance from the angles of the pixels around the seed *)
Definition refined_tolerance (f : field) (reg : list pixel) (r : rect) : R :=
  let s := hd (0, 0)%Z reg in
  let near := filter (fun p => rlt (dist (px s) (py s) (px p) (py p)) (width r)) reg in
  let d p := angle_diff_signed (angle_at f p) (angle_at f s) in
  let total := sum (map d near) in
  let squares := sum (map (fun p => d p * d p) near) in
  let n := INR (length near) in
  let mean := total / n in
  2 * sqrt ((squares - 2 * mean * total) / n + mean * mean).
(** [refine], 608-654 *)
Definition refine (fuel : nat) (f : field) (prec density_th : R)
           (used : pixel -> bool) (reg : list pixel) (r : rect) : refined :=
  if too_sparse reg r density_th then
    let s := hd (0, 0)%Z reg in
    let freed := fold_left (fun u p => mark u p false) reg used in
    match region_grow f freed s (refined_tolerance f reg r) with
    | None => NoFuel
    | Some g =>
        if (length (g_reg g) <? 2)%nat then Discarded (g_used g)
        else match region2rect f (g_reg g) (g_angle g) prec with
             | None => Asserts
             | Some r' =>
                 if too_sparse (g_reg g) r' density_th
                 then reduce_region_radius fuel f (g_angle g) prec density_th (g_used g) (g_reg g) r'
                 else Kept (g_used g) (g_reg g) r'
             end
    end
  else Kept used reg r.

(** [flsd], 346-394: the loop over the ordered points. A found segment is the region, and its
    rectangle; [None] is an assertion or out of fuel. *)
Definition segment := (list pixel * rect)%type.
Record search := mkSearch { s_used : pixel -> bool; s_found : list segment }.
Definition try_seed (fuel : nat) (do_refine : bool) (f : field) (prec density_th : R) (min_size : Z)
           (st : option search) (s : pixel) : option search :=
  match st with
  | None => None
  | Some st =>
      match s_used st s, f_angle f s with
      | false, Some _ =>
          match region_grow f (s_used st) s prec with
          | None => None
          | Some g =>
              if (Z.of_nat (length (g_reg g)) <? min_size)%Z then Some (mkSearch (g_used g) (s_found st))
              else match region2rect f (g_reg g) (g_angle g) prec with
                   | None => None
                   | Some r =>
                       if do_refine then
                         match refine fuel f prec density_th (g_used g) (g_reg g) r with
                         | Kept u reg r' => Some (mkSearch u (s_found st ++ [(reg, r')]))
                         | Discarded u => Some (mkSearch u (s_found st))
                         | _ => None
                         end
                       else Some (mkSearch (g_used g) (s_found st ++ [(g_reg g, r)]))
                   end
          end
      | _, _ => Some st
      end
  end.

(** The parameters of the constructor, 134-146, line_segment_detector.hpp:31-33; the default
    values but the scale *)
Record params := mkParams { p_refine : bool; p_scale : R; p_quant : R; p_angle : R; p_density : R; p_bins : Z }.
(** 316-319 *)
Definition precision (a : params) : R := PI * p_angle a / 180.
Definition gradient_threshold (a : params) : R := p_quant a / sin (precision a).
(** 340-341 *)
Definition log10 (x : R) : R := ln x / ln 10.
Definition log_nt (c r : Z) : R := 5 * (log10 (IZR c) + log10 (IZR r)) / 2 + log10 11.
Definition min_region_size (a : params) (c r : Z) : Z := Int_part (- log_nt c r / log10 (p_angle a / 180)).

(** the coordinates of the ends of a segment, 377-391: those of its rectangle in the image
    before the change of size *)
Definition line := (R * R * (R * R))%type.
Definition to_line (scale : R) (g : segment) : line :=
  let r := snd g in
  if Req_EM_T scale 1 then ((x1 r + / 2, y1 r + / 2), (x2 r + / 2, y2 r + / 2))
  else (((x1 r + / 2) / scale, (y1 r + / 2) / scale), ((x2 r + / 2) / scale, (y2 r + / 2) / scale)).

(** [std::sort] of the points *)
Variable sort_points : list (pixel * Z) -> list (pixel * Z).
(** [GaussianBlur] then [resize], 321-332 *)
Variable rescale : R -> image -> image.

(** [flsd], 311-396, on the object: [ordered_points] is a member of the class *)
Definition scaled_image (a : params) (im : image) : image := if Req_EM_T (p_scale a) 1 then im else rescale (p_scale a) im.
Definition flsd (fuel : nat) (a : params) (points : list (pixel * Z)) (im : image) : option (list segment) * list (pixel * Z) :=
  let sc := scaled_image a im in
  let f := ll_field sc (gradient_threshold a) in
  let ordered := sort_points (points ++ binned_points sc (gradient_threshold a) (p_bins a)) in
  (option_map s_found
     (fold_left (try_seed fuel (p_refine a) f (precision a) (p_density a) (min_region_size a (cols sc) (rows sc)))
                (map fst ordered) (Some (mkSearch (fun _ => false) []))),
   ordered).
(** [detect] of an image, 284-309: the points are cleared at the end. The state is the list of
    points kept by the object. *)
Definition detect (fuel : nat) (a : params) (points : list (pixel * Z)) (im : image) : option (list line) * list (pixel * Z) :=
  let '(found, _) := flsd fuel a points im in
  (option_map (map (to_line (p_scale a))) found, []).
(** a sequence of images given to the same object *)
Fixpoint detect_all (fuel : nat) (a : params) (points : list (pixel * Z)) (ims : list image) : list (option (list line)) :=
  match ims with
  | [] => []
  | im :: t => let '(l, points') := detect fuel a points im in l :: detect_all fuel a points' t
  end.
End Detector.

(** [Line_Detection], line_detection.cpp:7-31: no refinement, the other parameters are the
    default ones *)
Definition line_detection_params (scale : R) : params := mkParams false scale 2 (225 / 10) (7 / 10) 1024.

(** [get_image_with_lines], line_detection.cpp:34-70. [static_cast<int>] of a coordinate
    truncates it; the product of a number and of a point rounds each coordinate to the nearest
    integer, the even one at equal distances. *)
Definition truncate (x : R) : Z := if rle 0 x then Int_part x else (- Int_part (- x))%Z.
(** the nearest integer of [n / 4] *)
Definition round_quarter (n : Z) : Z :=
  let q := (n / 4)%Z in
  match (n mod 4)%Z with
  | 0%Z | 1%Z => q
  | 2%Z => if Z.even q then q else (q + 1)%Z
  | _ => (q + 1)%Z
  end.
Definition quarter_point (a b : pixel) : pixel :=
  ((round_quarter (fst a) + round_quarter (3 * fst b))%Z, (round_quarter (snd a) + round_quarter (3 * snd b))%Z).
Inductive colour := Yellow | Red | Purple.
(** the colour of a line, or the read of a pixel out of the image *)
Inductive drawn := Drawn (a b : pixel) (c : colour) | OutOfImage (p : pixel).
Section Drawing.
Variable mask_cols mask_rows : Z.
(** the pixels that have a depth, after the closing of the mask *)
Variable mask : pixel -> bool.
Definition inside (p : pixel) : bool :=
  (0 <=? fst p)%Z && (fst p <? mask_cols)%Z && (0 <=? snd p)%Z && (snd p <? mask_rows)%Z.
(** a read of the mask, then the rest *)
Definition read (p : pixel) (k : bool -> drawn) : drawn := if inside p then k (mask p) else OutOfImage p.
Definition draw_line (l : line) : drawn :=
  let '((xa, ya), (xb, yb)) := l in
  let a := (truncate xa, truncate ya) in
  let b := (truncate xb, truncate yb) in
  let without_ends :=
    read (quarter_point a b) (fun m =>
      if m then Drawn a b Red
      else read (quarter_point b a) (fun m' => Drawn a b (if m' then Red else Purple))) in
  read a (fun ma =>
    if ma then read b (fun mb => if mb then Drawn a b Yellow else without_ends) else without_ends).
Definition draw_lines (ls : list line) : list drawn := map draw_line ls.
End Drawing.

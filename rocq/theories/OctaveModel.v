(** Model of the detection of lines at several scales and of their mask.
    Source: /repo/third_party/line_segment_detector.cpp. Coordinates are rationals: the rounding
    of floats is not modelled. The detector of one image (modelled in LsdModel) is an argument,
    as are the pixels of the mask. The length, the angle, the number of pixels and the response
    of a line are not modelled. *)
From Coq Require Import ZArith QArith Qround List Bool Arith.
Import ListNotations.
Local Open Scope Z_scope.

(** [cv::Vec4f]: the two extremities *)
Record line := mkLine { x1 : Q; y1 : Q; x2 : Q; y2 : Q }.
(** a comparison of rationals *)
Definition qlt (a b : Q) : bool := negb (Qle_bool b a).
(** [checkLineExtremes], 255-281, for one coordinate and the size of the image in this direction *)
Definition check_extreme (x : Q) (size : Z) : Q :=
  let x := if qlt x 0 then 0%Q else x in
  if Qle_bool (inject_Z size) x then (inject_Z size - 1)%Q else x.
Definition check_extremes (l : line) (w h : Z) : line :=
  mkLine (check_extreme (x1 l) w) (check_extreme (y1 l) h) (check_extreme (x2 l) w) (check_extreme (y2 l) h).

(** How a call ends: an assertion of the code fails (a build of type Debug is the default one,
    CMakeLists.txt:5-7), OpenCV throws, a pixel is read outside of an image or a number is
    divided by 0 ([Undefined]). [Unfinished] is out of fuel. *)
Inductive outcome (A : Type) := Done (a : A) | Aborts | Throws | Undefined | Unfinished.
Arguments Done {A}. Arguments Aborts {A}. Arguments Throws {A}. Arguments Undefined {A}. Arguments Unfinished {A}.

(** [cv::pyrDown] to a given size, called at 249: an empty size stands for the half of the size of
    the image, rounded up; it throws when the size is not about half of that of the image *)
Definition half_size (size new : Z) : bool := (0 <? size) && (Z.abs (new * 2 - size) <=? 2).
Definition pyr_down (w h w' h' : Z) : outcome (Z * Z) :=
  let '(w', h') := if (w' <=? 0) || (h' <=? 0) then ((w + 1) / 2, (h + 1) / 2) else (w', h') in
  if half_size w w' && half_size h h' then Done (w', h') else Throws.
(** [computeGaussianPyramid], 236-253: the sizes of the images. A negative number of octaves is as
    0, for which the image itself, never used, is left out. *)
Fixpoint pyramid (octaves : nat) (scale w h : Z) : outcome (list (Z * Z)) :=
  match octaves with
  | O => Done []
  | S O => Done [(w, h)]
  | S octaves =>
    if scale =? 0 then Undefined
    else match pyr_down w h (Z.quot w scale) (Z.quot h scale) with
    | Done (w', h') => match pyramid octaves scale w' h' with Done l => Done ((w, h) :: l) | r => r end
    | Aborts => Aborts | Throws => Throws | Undefined => Undefined | Unfinished => Unfinished
    end
  end.

(** [KeyLine]: extremities in the image, extremities in the octave, identifier, octave, middle *)
Record key_line := mkKeyLine { start_end : line; in_octave : line; class_id : Z; octave : nat; middle : Q * Q; kl_size : Q }.
Definition scaled (s : Q) (l : line) : line := mkLine (x1 l * s) (y1 l * s) (x2 l * s) (y2 l * s).
(** the body of the loops of 181-216; [s] is [octaveScale] *)
Definition make_key_line (s : Q) (w h : Z) (id : Z) (o : nat) (l : line) : key_line :=
  let e := check_extremes l w h in
  let k := scaled s e in
  mkKeyLine k e id o ((x2 k + x1 k) / 2, (y2 k + y1 k) / 2)%Q ((x2 k - x1 k) * (y2 k - y1 k)).
Fixpoint octave_lines (s : Q) (w h : Z) (counter : Z) (o : nat) (ls : list line) : list key_line :=
  match ls with
  | [] => []
  | l :: ls => make_key_line s w h (counter + 1) o l :: octave_lines s w h (counter + 1) o ls
  end.
Fixpoint all_lines (scale : Z) (counter : Z) (o : nat) (os : list ((Z * Z) * list line)) : list key_line :=
  match os with
  | [] => []
  | ((w, h), ls) :: os =>
    octave_lines (inject_Z (scale ^ Z.of_nat o)) w h counter o ls ++
    all_lines scale (counter + Z.of_nat (length ls)) (S o) os
  end.

(** A mask: its size, and whether a pixel (row, column) is not 0 *)
Record mask := mkMask { m_cols : Z; m_rows : Z; m_white : Z -> Z -> bool }.
(** conversion of a float to [int]: towards 0 *)
Definition to_int (q : Q) : Z := if Qle_bool 0 q then Qfloor q else - Qfloor (- q).
(** [mask.at<uchar>(y, x)] *)
Definition at_mask (m : mask) (y x : Q) : outcome bool :=
  let r := to_int y in let c := to_int x in
  if (0 <=? r) && (r <? m_rows m) && (0 <=? c) && (c <? m_cols m) then Done (m_white m r c) else Undefined.
(** the test of 224: the second pixel is read when the first one is black *)
Definition undesired (m : mask) (k : key_line) : outcome bool :=
  match at_mask m (y1 (start_end k)) (x1 (start_end k)) with
  | Done true => Done false
  | Done false => match at_mask m (y2 (start_end k)) (x2 (start_end k)) with Done b => Done (negb b) | r => r end
  | r => r
  end.
Fixpoint erase {A} (i : nat) (l : list A) : list A :=
  match l, i with
  | [], _ => []
  | _ :: l, O => l
  | a :: l, S i => a :: erase i l
  end.
(** the loop of 221-230; the counter goes back by one when a line is erased: modulo 2^64, the
    increment of the loop compensates it *)
Fixpoint mask_loop (fuel : nat) (m : mask) (i : nat) (ks : list key_line) : outcome (list key_line) :=
  match fuel with
  | O => Unfinished
  | S fuel =>
    match nth_error ks i with
    | None => Done ks
    | Some k =>
      match undesired m k with
      | Done true => mask_loop fuel m i (erase i ks)
      | Done false => mask_loop fuel m (S i) ks
      | Aborts => Aborts | Throws => Throws | Undefined => Undefined | Unfinished => Unfinished
      end
    end
  end.

(** [detect], 149-232. [debug]: the assertions are checked; the image compared with the mask, at
    154, is still empty, so its size never is that of a mask with pixels. [detector o w h] are
    the lines found in the image of the octave [o]. [before] is what the vector given contains. *)
Definition detect (debug : bool) (detector : nat -> Z -> Z -> list line) (octaves : nat) (scale w h : Z)
  (m : option mask) (before : list key_line) : outcome (list key_line) :=
  if debug && negb ((1 <=? octaves)%nat && (0 <? scale) && (match m with Some _ => true | None => false end)) then Aborts
  else match pyramid octaves scale w h with
  | Done sizes =>
    let os := map (fun o => (nth o sizes (0, 0), let (w, h) := nth o sizes (0, 0) in detector o w h)) (seq 0 octaves) in
    let ks := before ++ all_lines scale (-1) 0 os in
    match m with
    | None => Done ks
    | Some m => mask_loop (S (length ks)) m 0 ks
    end
  | Aborts => Aborts | Throws => Throws | Undefined => Undefined | Unfinished => Unfinished
  end.

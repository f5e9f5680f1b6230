(** Model of the advanced validation of the line segment detector.
    Source: /repo/third_party/line_segment_detector.cpp and .hpp. Numbers are reals. The detector
    of [Line_Detection] does not use this validation; a detector built with [LSD_REFINE_ADV] does. *)
From Verif Require Import LsdModel.
From Coq Require Import Reals ZArith List Bool.
Import ListNotations.
Local Open Scope R_scope.

(** [rect], line_segment_detector.hpp:127-136, with its tolerance [prec] and its probability [p];
    the centre, which the functions below never read nor change, is left out *)
Record vrect := mkVrect { vx1 : R; vy1 : R; vx2 : R; vy2 : R; vwidth : R; vtheta : R; vdx : R; vdy : R; vprec : R; vp : R }.

(** *** [rect_improve], 694-796 *)
Section Improve.
Variable score : vrect -> R.
Variable log_eps : R.
(** [delta] and [delta_2], 696-697 *)
Definition delta : R := / 2.
Definition delta_2 : R := delta / 2.
(** 710-711 *)
Definition finer (r : vrect) : vrect :=
  mkVrect (vx1 r) (vy1 r) (vx2 r) (vy2 r) (vwidth r) (vtheta r) (vdx r) (vdy r) (vp r / 2 * PI) (vp r / 2).
(** 725 *)
Definition narrower (r : vrect) : vrect :=
  mkVrect (vx1 r) (vy1 r) (vx2 r) (vy2 r) (vwidth r - delta) (vtheta r) (vdx r) (vdy r) (vprec r) (vp r).
(** 742-746 *)
Definition one_side (r : vrect) : vrect :=
  mkVrect (vx1 r + - vdy r * delta_2) (vy1 r + vdx r * delta_2) (vx2 r + - vdy r * delta_2) (vy2 r + vdx r * delta_2)
    (vwidth r - delta) (vtheta r) (vdx r) (vdy r) (vprec r) (vp r).
(** 763-767 *)
Definition other_side (r : vrect) : vrect :=
  mkVrect (vx1 r - - vdy r * delta_2) (vy1 r - vdx r * delta_2) (vx2 r - - vdy r * delta_2) (vy2 r - vdx r * delta_2)
    (vwidth r - delta) (vtheta r) (vdx r) (vdy r) (vprec r) (vp r).
(** the tests of 723, 740, 761 and 782 *)
Definition wide (r : vrect) : bool := rle (/ 2) (vwidth r - delta).
(** one of the loops: [r] is the rectangle that changes, [(rec, log)] the best one and its score *)
Fixpoint tries (n : nat) (guard : vrect -> bool) (change : vrect -> vrect) (r : vrect) (best : vrect * R) : vrect * R :=
  match n with
  | O => best
  | S n =>
    if guard r then
      let r := change r in
      tries n guard change r (if rlt (snd best) (score r) then (r, score r) else best)
    else tries n guard change r best
  end.
Definition stage (guard : vrect -> bool) (change : vrect -> vrect) (best : vrect * R) : vrect * R :=
  if rlt log_eps (snd best) then best else tries 5 guard change (fst best) best.
(** the rectangle left in [rec], and the score returned *)
Definition rect_improve (rec : vrect) : vrect * R :=
  stage wide finer (stage wide other_side (stage wide one_side (stage wide narrower
    (stage (fun _ => true) finer (rec, score rec))))).
End Improve.

(** *** The pixels of a rectangle, in [rect_nfa], 798-921 *)
(** [AsmallerB_XoverY], 87-91 *)
Definition smaller (a b : pixel) : bool := if (fst a =? fst b)%Z then (snd a <? snd b)%Z else (fst a <? fst b)%Z.
(** [std::sort], 815: by insertion; two equal corners are the same *)
Fixpoint insert_corner (a : pixel) (l : list pixel) : list pixel :=
  match l with
  | [] => [a]
  | b :: l' => if smaller b a then b :: insert_corner a l' else a :: l
  end.
Definition sort_corners (l : list pixel) : list pixel := fold_right insert_corner [] l.
(** 804-813 *)
Definition corners (r : vrect) : list pixel :=
  let hw := vwidth r / 2 in
  let dyhw := vdy r * hw in
  let dxhw := vdx r * hw in
  [(truncate (vx1 r - dyhw), truncate (vy1 r + dxhw)); (truncate (vx2 r - dyhw), truncate (vy2 r + dxhw));
   (truncate (vx2 r + dyhw), truncate (vy2 r - dxhw)); (truncate (vx1 r + dyhw), truncate (vy1 r - dxhw))].
(** the loops that look for a corner (819-822, 828-841, 846-859, 864-877): the first one that no
    other one is better than, and the corners that are left, in the same order *)
Definition best_corner (better : pixel -> pixel -> bool) (b : pixel) (l : list pixel) : pixel :=
  fold_left (fun b a => if better a b then a else b) l b.
Fixpoint remove_corner (c : pixel) (l : list pixel) : list pixel :=
  match l with
  | [] => []
  | a :: l => if pixel_eqb a c then l else a :: remove_corner c l
  end.
Definition take_corner (better : pixel -> pixel -> bool) (l : list pixel) : option (pixel * list pixel) :=
  match l with [] => None | b :: l' => let c := best_corner better b l' in Some (c, remove_corner c l) end.
Definition lower (a b : pixel) : bool := (snd a <? snd b)%Z.
Definition lefter (a b : pixel) : bool := (fst a <? fst b)%Z.
Definition righter (a b : pixel) : bool := (fst b <? fst a)%Z.
(** the division of integers; [None]: a division by zero *)
Definition int_div (a b : Z) : option Z := if (b =? 0)%Z then None else Some (Z.quot a b).
(** the steps, 880-888: the divisions are divisions of integers; [y] is compared with [x] for the
    second ones *)
Definition first_step (a b : pixel) : option Z :=
  if (snd a =? snd b)%Z then Some 0%Z else int_div (fst a - fst b) (snd a - snd b).
Definition second_step (a tail : pixel) : option Z :=
  if (snd a =? fst tail)%Z then Some 0%Z else int_div (fst a - fst tail) (snd a - fst tail).
(** the pixels visited by the loops of 897-919; [n] rows from [y] *)
Section Scan.
Variables (w h : Z).
Variables (left_y right_y sl sr : Z).
Definition row_pixels (y l r : Z) : list pixel :=
  filter (fun q => negb ((fst q <? 0) || (w <=? fst q))%Z) (map (fun x => (x, y)) (zrange l r)).
(** a row outside of the image is left by [continue], without the change of the ends *)
Fixpoint scan (n : nat) (y l r ls rs : Z) : list pixel :=
  match n with
  | O => []
  | S n =>
    if ((y <? 0) || (h <=? y))%Z then scan n (y + 1) l r ls rs
    else
      let ls := if (left_y <=? y)%Z then sl else ls in
      let rs := if (right_y <=? y)%Z then sr else rs in
      row_pixels y l r ++ scan n (y + 1) (l + ls) (r + rs) ls rs
  end.
End Scan.
(** [None]: an assertion of 842, 860 or 878 fails, or a division of 880-888 is by zero *)
Definition scanned (w h : Z) (cs : list pixel) : option (list pixel) :=
  match take_corner lower (sort_corners cs) with
  | None => None
  | Some (bottom, rest) =>
    let top := fold_left Z.max (map snd (sort_corners cs)) (snd bottom) in
    match take_corner lefter rest with
    | None => None
    | Some (lft, rest) =>
      match take_corner righter rest with
      | None => None
      | Some (rgt, rest) =>
        match take_corner lefter rest with
        | None => None
        | Some (tail, _) =>
          match first_step bottom lft, second_step lft tail, first_step bottom rgt, second_step rgt tail with
          | Some fl, Some sl, Some fr, Some sr =>
            Some (scan w h (snd lft) (snd rgt) sl sr (Z.to_nat (top - snd bottom + 1)) (snd bottom) (fst bottom) (fst bottom) fl fr)
          | _, _, _, _ => None
          end
        end
      end
    end
  end.
(** the numbers of pixels and of aligned pixels, 905-910 *)
Definition counts (f : field) (r : vrect) : option (nat * nat) :=
  match scanned (f_cols f) (f_rows f) (corners r) with
  | None => None
  | Some ps => Some (length ps, length (filter (fun q => is_aligned f q (vtheta r) (vprec r)) ps))
  end.

(** *** [nfa], 923-960 *)
Section Nfa.
(** [log_gamma], 31 and 94-122: an argument *)
Variable log_gamma : R -> R.
Variable log_nt : R.
(** [double_equal] of a number and 0, 73-86; the smallest normal number and the machine epsilon *)
Definition dbl_min : R := powerRZ 2 (-1022).
Definition dbl_epsilon : R := powerRZ 2 (-52).
Definition equal_zero (a : R) : bool :=
  if Req_EM_T a 0 then true
  else let m := if rlt (Rabs a) dbl_min then dbl_min else Rabs a in rle (Rabs a / m) (100 * dbl_epsilon).
(** 932-934: [log_gamma] of [n + 1] is missing in the first term *)
Definition log1term (n k : nat) (p : R) : R :=
  INR n + 1 - log_gamma (INR k + 1) - log_gamma (INR (n - k) + 1) + INR k * ln p + INR (n - k) * ln (1 - p).
(** the loop of 946-958: [fuel] terms from [i]; the sum *)
Fixpoint tail_loop (fuel : nat) (n i : nat) (p term tail : R) : R :=
  match fuel with
  | O => tail
  | S fuel =>
    let bin_term := INR (n - i + 1) / INR i in
    let mult := bin_term * (p / (1 - p)) in
    let term := term * mult in
    let tail := tail + term in
    if rlt bin_term 1 && rlt (term * ((1 - mult ^ (n - i + 1)) / (1 - mult) - 1)) (/ 10 * Rabs (- log10 tail - log_nt) * tail)
    then tail
    else tail_loop fuel n (S i) p term tail
  end.
Definition nfa (n k : nat) (p : R) : R :=
  if (n =? 0)%nat || (k =? 0)%nat then - log_nt
  else if (n =? k)%nat then - log_nt - INR n * log10 p
  else
    let term := exp (log1term n k p) in
    if equal_zero term then (if rlt (INR n * p) (INR k) then - log1term n k p / ln 10 - log_nt else - log_nt)
    else - log10 (tail_loop (n - k) n (S k) p term term) - log_nt.
End Nfa.

(** [rect_nfa], 798-921; [None]: as for [scanned] *)
Definition rect_nfa (log_gamma : R -> R) (log_nt : R) (f : field) (r : vrect) : option R :=
  match counts f r with Some (total, aligned) => Some (nfa log_gamma log_nt total aligned (vp r)) | None => None end.

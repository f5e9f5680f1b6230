(** What is expected of the advanced validation of lines. *)
From Verif Require Export ImproveModel.
From Verif Require Import LsdModel.
From Coq Require Import Reals ZArith List Bool.
Import ListNotations.
Local Open Scope R_scope.

(** *** Improvement of a rectangle *)
(** The rectangle moved by [t] to its side, [w] narrower, with a probability 2^j times smaller.
    The tolerance follows the probability once it changed. *)
Definition variant (r : vrect) (t w : R) (j : nat) : vrect :=
  mkVrect (vx1 r - t * vdy r) (vy1 r + t * vdx r) (vx2 r - t * vdy r) (vy2 r + t * vdx r)
    (vwidth r - w) (vtheta r) (vdx r) (vdy r)
    (match j with O => vprec r | S _ => vp r / 2 ^ j * PI end) (vp r / 2 ^ j).
(** A rectangle inside of another one: of the same direction and length, between its sides, and not
    too narrow unless it is as wide. *)
Definition inner (a b : vrect) : Prop :=
  exists t w j, b = variant a t w j /\ Rabs t <= w / 2 /\ (w = 0 \/ / 2 <= vwidth b).
(** The first rectangle of the best score among some. *)
Definition best_of (score : vrect -> R) (l : list vrect) (b : vrect) : Prop :=
  exists before after, l = before ++ b :: after /\
    Forall (fun r => score r < score b) before /\ Forall (fun r => score r <= score b) after.
(** What is tried at each step, the rectangle itself first. *)
Definition by_precision (r : vrect) : list vrect := r :: map (variant r 0 0) [1; 2; 3; 4; 5]%nat.
Definition by_width (r : vrect) : list vrect :=
  r :: filter (fun r => rle (/ 2) (vwidth r)) (map (fun k => variant r 0 (INR k / 2) 0) [1; 2; 3; 4; 5]%nat).
Definition by_one_side (r : vrect) : list vrect :=
  r :: filter (fun r => rle (/ 2) (vwidth r)) (map (fun k => variant r (INR k / 4) (INR k / 2) 0) [1; 2; 3; 4; 5]%nat).
Definition by_other_side (r : vrect) : list vrect :=
  r :: filter (fun r => rle (/ 2) (vwidth r)) (map (fun k => variant r (- (INR k / 4)) (INR k / 2) 0) [1; 2; 3; 4; 5]%nat).
(** The last step is for the rectangles of width at least one. *)
Definition by_precision_again (r : vrect) : list vrect :=
  r :: if rle 1 (vwidth r) then map (variant r 0 0) [1; 2; 3; 4; 5]%nat else [].
(** A step keeps a rectangle of a score above the threshold, and otherwise takes the best. *)
Definition step (score : vrect -> R) (log_eps : R) (candidates : vrect -> list vrect) (r r' : vrect) : Prop :=
  (log_eps < score r /\ r' = r) \/ (score r <= log_eps /\ best_of score (candidates r) r').

(** *** Pixels of a rectangle *)
(** A pixel inside of a rectangle: between its ends, along its direction, and between its sides. *)
Definition inside (r : vrect) (q : pixel) : Prop :=
  let u := IZR (fst q) - vx1 r in
  let v := IZR (snd q) - vy1 r in
  0 <= u * vdx r + v * vdy r <= (vx2 r - vx1 r) * vdx r + (vy2 r - vy1 r) * vdy r /\
  - (vwidth r / 2) <= - u * vdy r + v * vdx r <= vwidth r / 2.

(** *** Number of false alarms *)
(** The probability of exactly [i] successes out of [n]. *)
Definition exactly (n i : nat) (p : R) : R := INR (fact n) / (INR (fact i) * INR (fact (n - i))) * p ^ i * (1 - p) ^ (n - i).
(** The probability of [k] to [j] successes. *)
Definition successes (n k j : nat) (p : R) : R := sum (map (fun i => exactly n i p) (seq k (j - k + 1))).
(** The logarithm of the gamma function, on the integers. *)
Definition is_log_gamma (lg : R -> R) : Prop := forall n, lg (INR n + 1) = ln (INR (fact n)).

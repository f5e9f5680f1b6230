(** Model of the filling of the rings cut in an outline, and of the polygon that is kept.
    Source: /repo/third_party/correct_boost_polygon.hpp:28-58, 366-440, 475-525, and
    /repo/src/utils/polygon.cpp:192-222.
    The operations of boost on polygons are arguments. A multi polygon is a list of polygons. *)
From Coq Require Import List ZArith Bool Arith.
Import ListNotations.
Local Open Scope Z_scope.

Section fill.
  Variable polygon : Type.
  (** [boost::geometry::intersects], [union_], [covered_by], [difference] *)
  Variable intersects : polygon -> polygon -> bool.
  Variable union : polygon -> polygon -> list polygon.
  Variable covered_by : polygon -> polygon -> bool.
  Variable difference : list polygon -> list polygon -> list polygon.
  (** the polygon of the outline in the other order *)
  Variable reversed : polygon -> polygon.

  (** [result_combine], 28-52: [before] are the elements already compared, [after] the next
      ones and [back] the last one *)
  Fixpoint combine_loop (before after : list polygon) (back : polygon) : list polygon :=
    match after with
    | [] => before ++ [back]
    | x :: after =>
      if negb (intersects x back) then combine_loop (before ++ [x]) after back
      else match union x back with
           | [u] => combine_loop before after u
           | _ => combine_loop (before ++ [x]) after back
           end
    end.
  Definition result_combine (result : list polygon) (element : polygon) : list polygon := combine_loop [] result element.
  (** [result_combine_multiple], 54-58 *)
  Definition result_combine_multiple (result elements : list polygon) : list polygon := fold_left result_combine elements result.

  (** [fill_normalize_polygons], 366-382 *)
  Definition normalized (input : list (polygon * Z)) : list (polygon * Z) :=
    map (fun i => if snd i <? 0 then (reversed (fst i), snd i) else i) input.
  (** the scores, 398-418; the [n] first polygons are done *)
  Definition sign (area : Z) : Z := if 0 <? area then 1 else -1.
  Fixpoint add_scores (n : nat) (l : list (polygon * Z)) : list (polygon * Z) :=
    match n, l with
    | S n, (p, s) :: l =>
      (p, s) :: add_scores n (map (fun e => if covered_by (fst e) p then (fst e, snd e + s) else e) l)
    | _, _ => l
    end.
  Definition scored (sorted : list (polygon * Z)) : list (polygon * Z) :=
    add_scores (length sorted) (map (fun i => (fst i, sign (snd i))) (normalized sorted)).
  (** [fill_non_zero_winding], 384-440, on the input sorted by [std::sort] of 394: the single
      multi polygon that is left *)
  Definition combined (keep : Z -> bool) (sorted : list (polygon * Z)) : list polygon :=
    result_combine_multiple [] (map fst (filter (fun e => keep (snd e)) (scored sorted))).
  Definition fill (sorted : list (polygon * Z)) : list polygon :=
    difference (combined (fun s => negb (s =? 0)) sorted) (combined (fun s => s =? 0) sorted).
  (** [correct] of a polygon, 475-525: the rings of the outer outline and of each inner one, sorted *)
  Definition correct_polygon (outer : list (polygon * Z)) (inners : list (list (polygon * Z))) : list polygon :=
    difference (fill outer) (fold_left (fun c r => result_combine_multiple c (difference (fill r) [])) inners []).

  (** The constructor of Polygon, polygon.cpp:191-222 *)
  Variable is_valid : polygon -> bool.
  Definition kept_polygon (concave convex : polygon) (corrected : list polygon) : polygon :=
    if is_valid concave then concave
    else match corrected with
         | [] => convex
         | p :: _ => p
         end.
End fill.

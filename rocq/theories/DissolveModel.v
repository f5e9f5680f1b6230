(** Model of the correction of the polygons that cross themselves.
    Source: /repo/third_party/correct_boost_polygon.hpp, called by the constructor of Polygon,
    /repo/src/utils/polygon.cpp:192-222.
    Coordinates are integers: all the doubles are multiples of 2^-1074, this is the unit. The
    distances and the areas are exact. The turns found by boost, and its operations on
    polygons, are arguments. *)
From Coq Require Import List ZArith Bool Arith.
Import ListNotations.
Local Open Scope Z_scope.

Definition point := (Z * Z)%type.
Definition point_eqb (a b : point) : bool := (fst a =? fst b) && (snd a =? snd b).
(** [boost::geometry::comparable_distance]: the square of the distance *)
Definition distance2 (a b : point) : Z := (fst a - fst b) * (fst a - fst b) + (snd a - snd b) * (snd a - snd b).
(** [boost::geometry::area] of a closed ring, positive when clockwise, doubled; a ring of less
    than 4 points has none *)
Definition edge (a b : point) : Z := (fst a + fst b) * (snd a - snd b).
Fixpoint edges (r : list point) : Z :=
  match r with
  | a :: ((b :: _) as r') => edge a b + edges r'
  | _ => 0
  end.
Definition area2 (r : list point) : Z := if (length r <? 4)%nat then 0 else edges r.

(** ** Cleaning of a ring *)

(** [correct_invalid], 167-177: a point that is not a number is [None] *)
Definition correct_invalid (r : list (option point)) : list point :=
  flat_map (fun p => match p with Some p => [p] | None => [] end) r.
(** [correct_orientation], 182-195, with the order of the polygons of the project, clockwise *)
Definition correct_orientation (r : list point) : list point := if area2 r <? 0 then rev r else r.
(** [correct_close], 200-205 *)
Definition correct_close (r : list point) : list point :=
  match r with
  | [] => []
  | a :: _ => if point_eqb (last r a) a then r else r ++ [a]
  end.

(** ** Pseudo vertices *)

(** [pseudo_vertice_key], 60-74 *)
Record key := mkKey { index_1 : nat; index_2 : nat; scale : Z; reroute : bool }.
(** [compare_pseudo_vertice_key], 76-98 *)
Definition key_ltb (a b : key) : bool :=
  if (index_1 a <? index_1 b)%nat then true
  else if (index_1 b <? index_1 a)%nat then false
  else if scale a <? scale b then true
  else if scale b <? scale a then false
  else if (index_2 b <? index_2 a)%nat then true
  else if (index_2 a <? index_2 b)%nat then false
  else reroute a && negb (reroute b).
Definition key_eqb (a b : key) : bool :=
  (index_1 a =? index_1 b)%nat && (index_2 a =? index_2 b)%nat && (scale a =? scale b) && Bool.eqb (reroute a) (reroute b).
(** [pseudo_vertice], 100-106; the default link is the key of zeros *)
Record vertice := mkVertice { v_point : point; v_link : key }.
Definition no_link : key := mkKey 0 0 0 false.

(** [std::map] and [std::set]: sorted lists; [emplace] and [insert] change nothing when the key
    is there *)
Definition vmap := list (key * vertice).
Fixpoint emplace (k : key) (v : vertice) (m : vmap) : vmap :=
  match m with
  | [] => [(k, v)]
  | e :: m' => if key_ltb k (fst e) then (k, v) :: m
               else if key_ltb (fst e) k then e :: emplace k v m' else m
  end.
Fixpoint insert (k : key) (s : list key) : list key :=
  match s with
  | [] => [k]
  | e :: s' => if key_ltb k e then k :: s
               else if key_ltb e k then e :: insert k s' else s
  end.
Definition mem (k : key) (s : list key) : bool := existsb (key_eqb k) s.
Definition erase (k : key) (s : list key) : list key := filter (fun e => negb (key_eqb k e)) s.
Fixpoint lookup (k : key) (m : vmap) : option vertice :=
  match m with
  | [] => None
  | e :: m => if key_eqb k (fst e) then Some (snd e) else lookup k m
  end.
(** the key after [k], the first one after the last one, 300-302 *)
Fixpoint after (k : key) (m : vmap) : option key :=
  match m with
  | e :: ((f :: _) as m') => if key_eqb k (fst e) then Some (fst f) else after k m'
  | _ => None
  end.
Definition successor (k : key) (m : vmap) : key :=
  match after k m with
  | Some k => k
  | None => match m with e :: _ => fst e | [] => k end
  end.

(** ** [dissolve_find_intersections], 116-162 *)

(** a turn of boost: a point and the indices of its two segments *)
Record turn := mkTurn { t_point : point; t_segment_1 : nat; t_segment_2 : nat }.
Definition vertices (ring : list point) : vmap :=
  fold_left (fun m i => emplace (mkKey i i 0 false) (mkVertice (nth i ring (0, 0)) no_link) m) (seq 0 (length ring)) [].
Definition first_segment (t : turn) : nat := Nat.min (t_segment_1 t) (t_segment_2 t).
Definition second_segment (t : turn) : nat := Nat.max (t_segment_1 t) (t_segment_2 t).
(** the test of 148 *)
Definition kept (ring : list point) (t : turn) : bool :=
  let i := first_segment t in let j := second_segment t in
  let offset_1 := distance2 (t_point t) (nth i ring (0, 0)) in
  let offset_2 := distance2 (t_point t) (nth j ring (0, 0)) in
  let length := distance2 (nth i ring (0, 0)) (nth j ring (0, 0)) in
  ((0 <? offset_1) && (offset_1 <? length)) || ((0 <? offset_2) && (offset_2 <? length)).
(** the keys of a turn, 150-158 *)
Definition key_i (ring : list point) (t : turn) (reroute : bool) : key :=
  mkKey (first_segment t) (second_segment t) (distance2 (t_point t) (nth (first_segment t) ring (0, 0))) reroute.
Definition key_j (ring : list point) (t : turn) (reroute : bool) : key :=
  mkKey (second_segment t) (first_segment t) (distance2 (t_point t) (nth (second_segment t) ring (0, 0))) reroute.
Definition add_turn (ring : list point) (s : vmap * list key) (t : turn) : vmap * list key :=
  if kept ring t then
    let p := t_point t in
    let ki := key_i ring t false in let kj := key_j ring t false in
    let m := emplace (key_i ring t true) (mkVertice p kj) (fst s) in
    let m := emplace kj (mkVertice p no_link) m in
    let starts := insert kj (snd s) in
    let m := emplace (key_j ring t true) (mkVertice p ki) m in
    let m := emplace ki (mkVertice p no_link) m in
    (m, insert ki starts)
  else s.
Definition find_intersections (ring : list point) (turns : list turn) : vmap * list key :=
  fold_left (add_turn ring) turns (vertices ring, []).

(** ** [dissolve_generate_rings], 222-320 *)

(** [push_point], 240-245 *)
Definition push_point (ring : list point) (p : point) : list point :=
  match rev ring with
  | [] => [p]
  | back :: _ => if 0 <? distance2 back p then ring ++ [p] else ring
  end.
(** [push_ring], 248-254 *)
Definition push_ring (min_area2 : Z) (result : list (list point * Z)) (ring : list point) : list (list point * Z) :=
  if min_area2 <? Z.abs (area2 ring) then result ++ [(ring, area2 ring)] else result.
(** [is_closed], 262-280: whether the ring is closed, the ring without the inner ring removed,
    and the result. The point given is a reference to the last element, which is read after it
    is removed: it still has its value *)
Fixpoint is_closed (min_area2 : Z) (p : point) (starts : list (point * nat)) (ring : list point) (result : list (list point * Z))
  : bool * list point * list (list point * Z) :=
  match starts with
  | [] => (false, ring, result)
  | (q, second) :: starts =>
    if (second + 1 <? length ring)%nat && (distance2 q p =? 0) then
      if (second =? 0)%nat then (true, ring, result)
      else is_closed min_area2 p starts (firstn second ring) (push_ring min_area2 result (skipn second ring))
    else is_closed min_area2 p starts ring result
  end.
(** the variables of the loop *)
Record trace := mkTrace { t_ring : list point; t_starts : list (point * nat); t_left : list key; t_result : list (list point * Z) }.
(** how a loop ends: [Running] is out of fuel, [Broken] the use of an iterator that points to nothing *)
Inductive outcome (A : Type) := Done (a : A) | Running | Broken.
Arguments Done {A}. Arguments Running {A}. Arguments Broken {A}.
(** the loop of 282-310, from the key [k] *)
Fixpoint trace_ring (min_area2 : Z) (m : vmap) (all_starts : list key) (fuel : nat) (k : key) (s : trace) : outcome trace :=
  match fuel with
  | O => Running
  | S fuel =>
    match lookup k m with
    | None => Broken
    | Some v =>
      let ring := push_point (t_ring s) (v_point v) in
      let left := erase k (t_left s) in
      let starts := if mem k all_starts then t_starts s ++ [(v_point v, (length ring - 1)%nat)] else t_starts s in
      let next := if reroute k then v_link v else successor k m in
      match is_closed min_area2 (last ring (0, 0)) starts ring (t_result s) with
      | (true, ring, result) => Done (mkTrace ring starts left result)
      | (false, ring, result) => trace_ring min_area2 m all_starts fuel next (mkTrace ring starts left result)
      end
    end
  end.
(** the loop of 235-317 *)
Fixpoint generate (min_area2 : Z) (m : vmap) (all_starts : list key) (fuel : nat) (left : list key) (result : list (list point * Z))
  : outcome (list (list point * Z)) :=
  match fuel with
  | O => Running
  | S fuel' =>
    match left with
    | [] => Done result
    | k :: _ =>
      match lookup k m with
      | None => Broken
      | Some v =>
        match trace_ring min_area2 m all_starts fuel k (mkTrace [] [(v_point v, 0%nat)] left result) with
        | Done s => generate min_area2 m all_starts fuel' (t_left s) (push_ring min_area2 (t_result s) (t_ring s))
        | Running => Running
        | Broken => Broken
        end
      end
    end
  end.

(** [correct] of a ring, 326-364; [self_turns] is that of boost *)
Definition cleaned (ring : list (option point)) : list point := correct_orientation (correct_close (correct_invalid ring)).
Definition correct_ring (self_turns : list point -> list turn) (min_area2 : Z) (fuel : nat) (ring : list (option point))
  : outcome (list (list point * Z)) :=
  if (length ring <? 3)%nat then Done []
  else
    let new_ring := cleaned ring in
    let '(m, starts) := find_intersections new_ring (self_turns new_ring) in
    match starts with
    | [] => if min_area2 <? Z.abs (area2 new_ring) then Done [(new_ring, area2 new_ring)] else Done []
    | _ => generate min_area2 m starts fuel starts []
    end.

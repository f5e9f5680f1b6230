(** What the correction of an outline is expected to give. *)
From Verif Require Export DissolveModel.
From Coq Require Import List ZArith Bool Arith.
Import ListNotations.
Local Open Scope Z_scope.

(** The point [c] is strictly between [a] and [b], on their segment. *)
Definition inside (a b c : point) : Prop := exists n d, 0 < n < d /\
  d * (fst c - fst a) = n * (fst b - fst a) /\ d * (snd c - snd a) = n * (snd b - snd a).
(** The sum of [f] on the edges of a line. *)
Fixpoint along (f : point -> point -> Z) (r : list point) : Z :=
  match r with
  | a :: ((b :: _) as r') => f a b + along f r'
  | _ => 0
  end.
(** A quantity of the edges that is the same when an edge is cut: an area, a number of signed
    crossings with a line, hence a number of turns around a point... *)
Definition additive (f : point -> point -> Z) : Prop :=
  (forall a, f a a = 0) /\ forall a b c, inside a b c -> f a b = f a c + f c b.
Definition sum (l : list Z) : Z := fold_right Z.add 0 l.

(** An outline that crosses itself only between its vertices, two edges at a time, once for
    two edges. *)
Record crosses_simply (ring : list point) (crossings : list turn) : Prop := {
  closed_ring : ring <> [] /\ last ring (0, 0) = hd (0, 0) ring;
  on_two_edges : forall t, In t crossings -> let i := first_segment t in let j := second_segment t in
    (i < j)%nat /\ (j + 1 < length ring)%nat /\
    inside (nth i ring (0, 0)) (nth (i + 1) ring (0, 0)) (t_point t) /\
    inside (nth j ring (0, 0)) (nth (j + 1) ring (0, 0)) (t_point t);
  once_for_two_edges : NoDup (map (fun t => (first_segment t, second_segment t)) crossings);
  distinct_crossings : NoDup (map t_point crossings);
  not_vertices : forall t, In t crossings -> ~ In (t_point t) ring }.

(** Where the walk goes that leaves its edge for the other one at each crossing. *)
Definition walk (m : vmap) (k : key) : key :=
  match lookup k m with
  | Some v => if reroute k then v_link v else successor k m
  | None => k
  end.
(** The walk that leaves a crossing by one edge never leaves it by the other one: it is the case
    of all the curves of the plane. *)
Definition planar (ring : list point) (crossings : list turn) : Prop :=
  forall t n, In t crossings ->
    Nat.iter n (walk (fst (find_intersections ring crossings))) (key_i ring t false) <> key_j ring t false.

Definition closed (r : list point) : Prop := r <> [] /\ last r (0, 0) = hd (0, 0) r.
(** The rings that are given: those of an area greater than a minimum, with their area. *)
Definition large_rings (min_area2 : Z) (loops : list (list point)) : list (list point * Z) :=
  map (fun r => (r, area2 r)) (filter (fun r => min_area2 <? Z.abs (area2 r)) loops).
(** The signed crossing of an edge with the half line from [p] to the right, and the number of
    turns of a closed line around [p]. *)
Definition crosses_ray (p a b : point) : Z :=
  let left_of_edge := (fst b - fst a) * (snd p - snd a) - (fst p - fst a) * (snd b - snd a) in
  if (snd a <=? snd p) && (snd p <? snd b) then (if 0 <? left_of_edge then 1 else 0)
  else if (snd b <=? snd p) && (snd p <? snd a) then (if left_of_edge <? 0 then -1 else 0)
  else 0.
Definition winding (p : point) (r : list point) : Z := along (crosses_ray p) r.

(** Model of the random numbers drawn by several threads.
    Source: /repo/src/utils/random.hpp:17-66, /repo/src/rgbd_slam.cpp:261-316,
    /repo/src/map_management/feature_map.hpp:334-358, map_features/map_point.cpp:116-137,
    /repo/src/pose_optimization/pose_optimization.cpp:151-227 and 381-411.
    The Mersenne twister, the two distributions and what a piece of code does with its draws are
    functions given by the caller of the theorems: an engine with its distributions is any type,
    a piece of work any function of it. *)
From Coq Require Import List ZArith Bool.
Import ListNotations.

Section Engines.
Context {engine work value : Type}.
(** [std::mt19937 randomEngine(_seed)] and the distributions, as they are constructed,
    random.hpp:19, 28 and 37; [_seed] is one constant of the program, 59-64 *)
Variable seeded : engine.
(** what a piece of code that draws computes, and the engine it leaves *)
Variable compute : work -> engine -> value * engine.

(** What happens, in the order it happens: a thread starts, under a number that an ended thread
    can have had, or a thread does a piece of work. [static thread_local]: each thread has its
    engine, so that the works of two threads can be taken one after the other *)
Inductive event := Starts (t : nat) | Does (t : nat) (w : work).
(** The engines; [None]: not constructed, which the first use does, random.hpp:19 *)
Definition engines := nat -> option engine.
Definition set (e : engines) (t : nat) (v : option engine) : engines := fun t' => if Nat.eqb t' t then v else e t'.
(** [get_random_engine], random.hpp:17-21 *)
Definition get_random_engine (e : engines) (t : nat) : engine := match e t with Some x => x | None => seeded end.
Definition step (e : engines) (ev : event) : engines * list (nat * value) :=
  match ev with
  | Starts t => (set e t None, [])
  | Does t w => let '(v, x) := compute w (get_random_engine e t) in (set e t (Some x), [(t, v)])
  end.
(** The results, each with the thread that computed it *)
Fixpoint run (e : engines) (history : list event) : list (nat * value) :=
  match history with
  | [] => []
  | ev :: h => let '(e', r) := step e ev in r ++ run e' h
  end.
(** the program: no engine is constructed *)
Definition execute (history : list event) : list (nat * value) := run (fun _ => None) history.
End Engines.
Arguments event work : clear implicits.

(** ** The points of the map to follow *)
Section Follow.
Context {engine point screen : Type}.
(** [is_matched() and is_visible(..)], feature_map.hpp:351; [to_screen_coordinates],
    map_point.cpp:126; [get_random_uint], random.hpp:52-56 *)
Variables (candidate : point -> bool) (project : point -> option screen) (uint : Z -> engine -> Z * engine).
(** [MapPoint::add_to_tracked], map_point.cpp:116-137: no draw without a drop chance *)
Definition add_to_tracked (chance : Z) (p : point) (e : engine) : list (point * screen) * engine :=
  let '(keep, e') := if (chance =? 0)%Z then (true, e) else let '(n, e') := uint chance e in (negb (n =? 0)%Z, e') in
  (if keep then match project p with Some s => [(p, s)] | None => [] end else [], e').
(** [Feature_Map::get_tracked_features] of the points, feature_map.hpp:346-355: the map in its
    order *)
Fixpoint get_tracked_features (chance : Z) (map : list point) (e : engine) : list (point * screen) * engine :=
  match map with
  | [] => ([], e)
  | p :: rest =>
    if candidate p then
      let '(a, e') := add_to_tracked chance p e in let '(b, e'') := get_tracked_features chance rest e' in (a ++ b, e'')
    else get_tracked_features chance rest e
  end.
(** The keypoint task of a frame, rgbd_slam.cpp:269-280: [std::async] with [launch::async] runs
    it as in a new thread; [t] is that thread *)
Definition keypoint_task (t : nat) (map : list point) : list (event (list point)) := [Starts t; Does t map].
End Follow.

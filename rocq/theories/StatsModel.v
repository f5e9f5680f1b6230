(** Model of the duration statistics.
    Source: /repo/src/rgbd_slam.cpp:108-125 and 318-348, /repo/src/rgbd_slam.hpp:120-121,
    /repo/src/features/primitives/primitive_detection.cpp:69-91 and 164,
    /repo/src/features/lines/line_detection.cpp:24-35 and 72-87, line_detection.hpp:43,
    /repo/src/features/keypoints/keypoint_detection.cpp:257 and 363-379,
    /repo/src/map_management/local_map.hpp:97, 161, 197 and 228-257,
    /repo/src/pose_optimization/pose_optimization.cpp:112-260, 411-434 and 439-480,
    pose_optimization.hpp:97-98. The details, never asked for, are not modelled; a line of the
    statistics is its two numbers, before they are printed. Durations are reals. *)
From Coq Require Import List ZArith Reals Lra.
Import ListNotations.
Local Open Scope R_scope.

Inductive stage := Cloud | Primitives | Lines | Points | MapUpdate | MapAdd | FindMatches | Ransac | Variance.
(** the order of the lines, rgbd_slam.cpp:329-345 and local_map.hpp:238-255 *)
Definition stages : list stage := [Cloud; Primitives; Lines; Points; MapUpdate; MapAdd; FindMatches; Ransac; Variance].

(** What an object records: the frames, an [uint], and the total durations. Those of the lines
    are in [_meanLineTreatmentDuration], which nothing adds to *)
Record recorder := mkRecorder { frames : Z; own : stage -> R }.
(** All the objects, by number, and the static totals of the pose optimization, which they share *)
Record world := mkWorld { recorders : nat -> recorder; shared : stage -> R }.
Definition start : world := mkWorld (fun _ => mkRecorder 0 (fun _ => 0)) (fun _ => 0).

Definition is_shared (s : stage) : bool := match s with Ransac | Variance => true | _ => false end.
(** the stages that add their duration to a total *)
Definition is_measured (s : stage) : bool := match s with Lines => false | _ => true end.
Definition add (total : stage -> R) (duration : stage -> R) (which : stage -> bool) : stage -> R :=
  fun s => if which s then total s + duration s else total s.
(** a frame given to the object [i]: [track], rgbd_slam.cpp:94-125; [duration]: what each stage
    lasts, 0 when it is not done *)
Definition track (w : world) (i : nat) (duration : stage -> R) : world :=
  let r := recorders w i in
  let r' := mkRecorder ((frames r + 1) mod 2 ^ 32) (add (own r) duration (fun s => andb (is_measured s) (negb (is_shared s)))) in
  mkWorld (fun j => if Nat.eqb j i then r' else recorders w j) (add (shared w) duration is_shared).
Definition run (history : list (nat * (stage -> R))) : world := fold_left (fun w e => track w (fst e) (snd e)) history start.

(** [get_percent_of_elapsed_time], rgbd_slam.cpp:318-323 and the same in each class *)
Definition percent (treatment total : R) : R := if Rle_dec total 0 then 0 else treatment / total * 100.
(** [show_statistics], rgbd_slam.cpp:325-348: for each stage the mean and the percentage *)
Definition show_statistics (w : world) (i : nat) (mean_frame : R) : list (stage * R * R) :=
  let r := recorders w i in
  if (0 <? frames r)%Z then
    map (fun s => let mean := (if is_shared s then shared w s else own r s) / IZR (frames r) in (s, mean, percent mean mean_frame)) stages
  else [].

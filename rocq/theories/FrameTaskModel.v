(** Model of the tasks that detect the features of a frame at the same time.
    Source: /repo/src/rgbd_slam.cpp:261-316, /repo/src/matches_containers.hpp:46-65,
    /repo/src/features/keypoints/keypoint_detection.cpp:111-156 and 158-263,
    /repo/src/features/primitives/primitive_detection.cpp:118-190,
    /repo/src/map_management/local_map.hpp:52-71.
    A task is a program that reads and writes the shared memory one place at a time; an execution
    takes one step of one task after the other, in any order. Each place stands for all the data of
    one object. Not modelled: the log (C107), the random engines (one for each thread, C115), the
    threads inside of a task (C18, C39), the memory models weaker than an interleaving (no task
    writes what another one accesses, [C119_no_race], so that they give nothing more). *)
From Coq Require Import List NArith Bool.
Import ListNotations.

(** What the tasks share: the members of [RGBD_SLAM] (rgbd_slam.hpp:91-125) and the arguments of
    [detect_features], the parameters (with the constants computed from them, C111), and the static
    variables of the keypoint detection (keypoint_detection.cpp:121 and 253), which all the
    objects of the program have in common. *)
Inductive place :=
| TrackingLost            (** [_isTrackingLost], read at rgbd_slam.cpp:270 *)
| KeypointCount           (** [_computeKeypointCount], 270 *)
| Maps                    (** [_localMap], 273 *)
| Pose                    (** [predictedPose], 273 *)
| Gray | Depth            (** [grayImage], [depthImage], 279 and 296 *)
| Cloud                   (** [cloudArrayOrganized], 296 *)
| CameraParameters        (** [Parameters] *)
| PointDetector           (** [*_pointDetector]: the last pyramid, the durations *)
| PointStatics            (** [mask] and [keypointHandler] of keypoint_detection.cpp *)
| PlaneDetector           (** [*_primitiveDetector]: the grids, the masks, the segments *)
| ContainerIds.           (** [DetectedFeatureContainer::idAllocator], matches_containers.hpp:64 *)
Definition place_eqb (a b : place) : bool :=
  match a, b with
  | TrackingLost, TrackingLost | KeypointCount, KeypointCount | Maps, Maps | Pose, Pose | Gray, Gray | Depth, Depth
  | Cloud, Cloud | CameraParameters, CameraParameters | PointDetector, PointDetector | PointStatics, PointStatics
  | PlaneDetector, PlaneDetector | ContainerIds, ContainerIds => true
  | _, _ => false
  end.

Section Programs.
Context {value : Type}.
Definition memory := place -> value.
Definition store (m : memory) (p : place) (v : value) : memory := fun q => if place_eqb q p then v else m q.

(** A program with a result: it ends, throws, reads a place or writes one. *)
Inductive prog (A : Type) :=
| Ends (a : A)
| Throws
| Reads (p : place) (next : value -> prog A)
| Writes (p : place) (v : value) (next : prog A).
Arguments Ends {A}. Arguments Throws {A}. Arguments Reads {A}. Arguments Writes {A}.
Fixpoint followed_by {A B} (x : prog A) (f : A -> prog B) : prog B :=
  match x with
  | Ends a => f a
  | Throws => Throws
  | Reads p next => Reads p (fun v => followed_by (next v) f)
  | Writes p v next => Writes p v (followed_by next f)
  end.
(** One step of a program; none is left when it has ended. *)
Definition advance {A} (x : prog A) (m : memory) : prog A * memory :=
  match x with
  | Ends _ | Throws => (x, m)
  | Reads p next => (next (m p), m)
  | Writes p v next => (next, store m p v)
  end.

(** ** [RGBD_SLAM::detect_features], rgbd_slam.cpp:261-316 *)
Section Detect.
Context {tracked keypoints lines planes : Type}.
(** the value of a boolean member, of a counter, and the next identifier *)
Variables (as_bool : value -> bool) (as_count : value -> N) (incremented : value -> value).
(** [Local_Map::get_tracked_features], local_map.hpp:52-71; [Key_Point_Extraction::compute_keypoints],
    keypoint_detection.cpp:158-263; [Primitive_Detection::find_primitives] *)
Variable get_tracked_features : prog tracked.
Variable compute_keypoints : tracked -> bool -> prog keypoints.
Variable find_primitives : prog planes.
(** the empty container, rgbd_slam.cpp:310-313 ([USE_LINE_DETECTION] is not defined) *)
Variable no_lines : lines.

(** 269-280; the counter is not read when the tracking is lost *)
Definition point_task : prog keypoints :=
  Reads TrackingLost (fun lost =>
  let detect (force : bool) := followed_by get_tracked_features (fun t => compute_keypoints t force) in
  if as_bool lost then detect true else Reads KeypointCount (fun n => detect (as_count n =? 1)%N)).
(** 291-297: the cylinders are dropped *)
Definition plane_task : prog planes := find_primitives.
(** 310-312, in a thread or at the call of [get] *)
Definition line_task : prog lines := Ends no_lines.

(** The three tasks and the memory. *)
Record running := mkRunning { points_left : prog keypoints; lines_left : prog lines; planes_left : prog planes; shared : memory }.
Inductive turn := PointTurn | LineTurn | PlaneTurn.
Definition step (s : running) (t : turn) : running :=
  match t with
  | PointTurn => let '(x, m) := advance (points_left s) (shared s) in mkRunning x (lines_left s) (planes_left s) m
  | LineTurn => let '(x, m) := advance (lines_left s) (shared s) in mkRunning (points_left s) x (planes_left s) m
  | PlaneTurn => let '(x, m) := advance (planes_left s) (shared s) in mkRunning (points_left s) (lines_left s) x m
  end.
Definition started (m : memory) : running := mkRunning point_task line_task plane_task m.
Definition interleaved (m : memory) (turns : list turn) : running := fold_left step turns (started m).

(** What a call gives: the detected features with their number, matches_containers.hpp:46-56, and
    the memory; or the end of the program: the exception that [get] throws again leaves
    [detect_features], which is [noexcept]. *)
Inductive detection :=
| Detected (k : keypoints) (l : lines) (p : planes) (id : value) (m : memory)
| Terminated.
(** [std::future::get]: [None] while the task runs, [Some None] when it threw *)
Definition outcome_of {A} (x : prog A) : option (option A) :=
  match x with Ends a => Some (Some a) | Throws => Some None | _ => None end.
(** [get] waits for each task, 315; [None]: one has not ended *)
Definition detect_features (m : memory) (turns : list turn) : option detection :=
  let s := interleaved m turns in
  match outcome_of (points_left s), outcome_of (lines_left s), outcome_of (planes_left s) with
  | Some k, Some l, Some p =>
    match k, l, p with
    | Some k, Some l, Some p =>
      let id := incremented (shared s ContainerIds) in
      Some (Detected k l p id (store (shared s) ContainerIds id))
    | _, _, _ => Some Terminated
    end
  | _, _, _ => None
  end.
End Detect.

(** ** Two objects in two threads *)
(** The search of the new points, keypoint_detection.cpp:111-156 and 399-453: the static mask is
    filled with the surroundings of the tracked points, then the search reads it *)
Definition masked_search {A} (search : value -> A) (around : value) : prog A :=
  Writes PointStatics around (Reads PointStatics (fun mask => Ends (search mask))).
(** Two tasks of two objects; [true]: the turn of the first one *)
Fixpoint both {A B} (x : prog A) (y : prog B) (m : memory) (turns : list bool) : option (option A) * option (option B) :=
  match turns with
  | [] => (outcome_of x, outcome_of y)
  | true :: turns => let '(x, m) := advance x m in both x y m turns
  | false :: turns => let '(y, m) := advance y m in both x y m turns
  end.
End Programs.
Arguments prog : clear implicits.
Arguments Ends {value A}. Arguments Throws {value A}. Arguments Reads {value A}. Arguments Writes {value A}.
Arguments memory : clear implicits.

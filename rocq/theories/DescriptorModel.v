(** Model of the descriptors of the keypoints: matrices shared between the detection, the container
    of keypoints and the features of the map.
    Source: /repo/src/features/keypoints/keypoint_handler.hpp:17-90, 145-180,
    keypoint_handler.cpp:68-122, keypoint_detection.cpp:200-258,
    /repo/src/map_management/map_features/map_point.hpp:132, map_point.cpp:195-240, 250-300,
    map_point2d.hpp:60-76, 127, map_point2d.cpp:219-276,
    /repo/src/tracking/point_with_tracking.cpp:15-27, inverse_depth_with_tracking.cpp:24-60, 155-159.
    A [cv::Mat] is a header on a shared buffer: copying it copies the header. Simplified: a row
    of descriptors is one value; the positions, depths and filters of the features are not in this
    model (C75, C77, C85), only whether an update succeeds. *)
From Coq Require Import List Arith NArith Bool.
Import ListNotations.
Local Open Scope nat_scope.

Section Descriptors.
(** positions of keypoints, keypoints with their depth, descriptors *)
Context {position keypoint descriptor : Type}.
(** the depth read under a position, keypoint_handler.cpp:88 and 120 *)
Variable measure : position -> keypoint.

(** *** Matrices *)
(** the buffers allocated since the start; a header without data, on a whole buffer or on one row *)
Definition heap : Type := list (list descriptor).
Inductive header := Empty | Whole (buffer : nat) | Row (buffer row : nat).
(** [cv::Mat::empty()]: no element *)
Definition is_empty (h : heap) (m : header) : bool :=
  match m with
  | Empty => true
  | Whole b => match nth b h [] with [] => true | _ :: _ => false end
  | Row _ _ => false
  end.
(** [cv::Mat::rows] *)
Definition rows (h : heap) (m : header) : nat :=
  match m with Empty => 0 | Whole b => length (nth b h []) | Row _ _ => 1 end.
(** [cv::Mat::row(i)] of a matrix, which must have this row: a header on the same buffer *)
Definition row (m : header) (i : nat) : option header :=
  match m with Whole b => Some (Row b i) | _ => None end.
(** the value seen through a header on a row *)
Definition content (h : heap) (m : header) : option descriptor :=
  match m with Row b i => match nth_error h b with Some l => nth_error l i | None => None end | _ => None end.

(** *** The keypoints followed in the last frame: [KeypointsWithIdStruct], keypoint_handler.hpp:38-90 *)
Record followed := mkFollowed { points : list position; ids : list N }.
Inductive container_call := Clear | Reserve (n : nat) | Add (id : N) (p : position).
Definition container_step (c : followed) (a : container_call) : followed :=
  match a with
  | Clear => mkFollowed [] []
  | Reserve _ => c
  | Add id p => mkFollowed (points c ++ [p]) (ids c ++ [id])
  end.
(** [size], 60-64; [None]: the assertion fails *)
Definition container_size (c : followed) : option nat :=
  if length (points c) =? length (ids c) then Some (length (points c)) else None.
(** [at], 68-72; [None]: an assertion fails or a read out of bounds *)
Definition container_at (c : followed) (i : nat) : option (N * position) :=
  match container_size c with
  | None => None
  | Some n => if i <? n then
      match nth_error (ids c) i, nth_error (points c) i with Some id, Some p => Some (id, p) | _, _ => None end
    else None
  end.

(** *** Detection of a frame *)
(** What a frame gives: is the detection launched (keypoint_detection.cpp:214), the points found,
    the ones that the extractor keeps with their descriptors (228-236), the followed points *)
Record frame := mkFrame { detection : bool; found : list position;
  extract : list position -> list (position * descriptor); flow : followed }.
(** 209-248: the detected points and their descriptors, in a matrix that [compute] allocates since
    [detectedKeypointDescriptors] is a new object in each call *)
Definition describe (h : heap) (f : frame) : heap * list position * header :=
  if detection f then
    match found f with
    | [] => (h, [], Empty)
    | _ :: _ => let kept := extract f (found f) in (h ++ [map snd kept], map fst kept, Whole (length h))
    end
  else (h, [], Empty).
(** [Keypoint_Handler]: the keypoints and the matrix of descriptors *)
Record handler := mkHandler { keypoints : list keypoint; descriptors : header }.
(** [set], keypoint_handler.cpp:68-122: the detected points first, then the followed ones *)
Definition set (detected : list position) (m : header) (c : followed) : handler :=
  mkHandler (map measure detected ++ map measure (points c)) m.
(** [Keypoint_Handler::at], keypoint_handler.hpp:169-179 with 147-163; [None]: an assertion fails *)
Definition at_index (h : heap) (k : handler) (index : N) : option (keypoint * header) :=
  let i := N.to_nat (index mod 2 ^ 32)%N in
  match nth_error (keypoints k) i with
  | None => None
  | Some p => if i <? rows h (descriptors k)
              then match row (descriptors k) i with Some r => Some (p, r) | None => None end
              else Some (p, Empty)
  end.

(** *** The features of the map *)
(** Heap, keypoints of the frame and descriptors of the features, in the order of their creation *)
Record state := mkState { memory : heap; current : handler; features : list header }.
Definition start : state := mkState [] (mkHandler [] Empty) [].
Inductive action :=
| NewFrame (f : frame)
| Detected (index : N)                       (* an unmatched keypoint is given to the map *)
| Matched (feature : nat) (index : N) (success : bool)  (* [update_with_match]; the filter may refuse *)
| Copied (feature : nat)                     (* promotion or upgrade: the new feature copies the descriptor *)
| Removed (feature : nat).
Definition replace {A} (l : list A) (i : nat) (x : A) : list A := firstn i l ++ x :: skipn (S i) l.
Definition remove {A} (l : list A) (i : nat) : list A := firstn i l ++ skipn (S i) l.
Definition step (s : state) (a : action) : option state :=
  match a with
  | NewFrame f =>
      let '(h, detected, m) := describe (memory s) f in Some (mkState h (set detected m (flow f)) (features s))
  | Detected index =>
      match at_index (memory s) (current s) index with
      | None => None
      (* [can_add_to_map], map_point.hpp:132 and map_point2d.hpp:127: a descriptor is needed, and one
         of the two kinds takes the point, according to its depth *)
      | Some (_, d) => Some (if is_empty (memory s) d then s else mkState (memory s) (current s) (features s ++ [d]))
      end
  | Matched i index success =>
      match nth_error (features s) i, at_index (memory s) (current s) index with
      | Some _, Some (_, d) =>
          (* map_point.cpp:213 and 234, inverse_depth_with_tracking.cpp:157 *)
          Some (if success && negb (is_empty (memory s) d)
                then mkState (memory s) (current s) (replace (features s) i d) else s)
      | _, _ => None
      end
  | Copied i =>
      match nth_error (features s) i with
      | None => None
      | Some d => Some (mkState (memory s) (current s) (features s ++ [d]))
      end
  | Removed i =>
      match nth_error (features s) i with
      | None => None
      | Some _ => Some (mkState (memory s) (current s) (remove (features s) i))
      end
  end.
Fixpoint run (s : state) (l : list action) : option state :=
  match l with [] => Some s | a :: l' => match step s a with None => None | Some s' => run s' l' end end.
End Descriptors.
Arguments heap : clear implicits.
Arguments followed : clear implicits.
Arguments container_call : clear implicits.
Arguments frame : clear implicits.
Arguments handler : clear implicits.
Arguments state : clear implicits.
Arguments action : clear implicits.

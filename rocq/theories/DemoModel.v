(** Model of the two example programs.
    Source: /repo/examples/main_TUM.cpp, /repo/examples/main_CAPE.cpp.
    Frame indices are [unsigned int] on 32 bits. Durations are real numbers. A key pressed
    at a frame is an input: [quit n] says whether it is 'q' at the [n]th frame treated.
    Not modelled: the command line parser, the content of the images, the display, the
    tracking itself, the trajectory file (one line per frame treated). *)
From Coq Require Export ZArith List Bool Reals.
From Flocq Require Import Core.
From Verif Require Export PoseModel Vec3.
Export ListNotations.
Local Open Scope Z_scope.

Definition u32 (z : Z) : Z := z mod 2 ^ 32.

(** [jumpFrames > 0 and frameIndex % jumpFrames != 0], main_TUM.cpp:209, main_CAPE.cpp:170 *)
Definition jumped (jump index : Z) : bool := (0 <? jump) && negb (index mod jump =? 0).

Section Tum.
Context {Frame : Type}.
(** the loop on the images, main_TUM.cpp:203-300: the frames treated, in order, and the
    last value of [frameIndex] *)
Fixpoint tum_loop (jump : Z) (quit : nat -> bool) (index : Z) (treated : nat) (frames : list Frame) : list Frame * Z :=
  match frames with
  | [] => ([], index)
  | f :: rest =>
    if jumped jump index then tum_loop jump quit (u32 (index + 1)) treated rest
    else if quit treated then ([f], u32 (index + 1))
    else let (l, last) := tum_loop jump quit (u32 (index + 1)) (S treated) rest in (f :: l, last)
  end.
(** main_TUM.cpp:149-180: [None] when the program stops before the first frame *)
Definition tum_main (start jump : Z) (quit : nat -> bool) (configured : bool) (frames : list Frame) : option (list Frame * Z) :=
  match frames with
  | [] => None
  | _ => if configured then Some (tum_loop jump quit (u32 start) 0 frames) else None
  end.
End Tum.

(** the loop of main_CAPE.cpp:168-224; [loads i] says whether the two images of index [i]
    can be read (lines 48-66) *)
Inductive cape_run := Running | Ended (treated : list Z) (last : Z).
Fixpoint cape_loop (fuel : nat) (jump : Z) (quit : nat -> bool) (loads : Z -> bool) (index : Z) (treated : nat) : cape_run :=
  match fuel with
  | O => Running
  | S fuel =>
    if jumped jump index then cape_loop fuel jump quit loads (u32 (index + 1)) treated
    else if negb (loads index) then Ended [] index
    else if quit treated then Ended [index] (u32 (index + 1))
    else match cape_loop fuel jump quit loads (u32 (index + 1)) (S treated) with
         | Ended l last => Ended (index :: l) last
         | Running => Running
         end
  end.
Definition cape_main (fuel : nat) (start jump : Z) (quit : nat -> bool) (loads : Z -> bool) : cape_run :=
  cape_loop fuel jump quit loads (u32 start) 0.

(** the wait at the end of a frame, main_TUM.cpp:296-299, main_CAPE.cpp:220-223, in
    microseconds; [None] is the conversion of an infinite number of microseconds, which is
    undefined *)
Definition wait (fps : Z) (duration : R) : option Z :=
  if fps =? 0 then None
  else if Rlt_bool duration (1 / IZR fps) then Some (Ztrunc ((1 / IZR fps - duration) * 1000000)) else Some 0.

(** the duration given to [show_statistics], main_TUM.cpp:311, main_CAPE.cpp:232; [None] is
    the quotient 0 / 0 *)
Definition mean_duration (durations : list R) : option R :=
  match durations with [] => None | _ => Some (fold_left Rplus durations 0 / INR (length durations))%R end.

(** the pose of a frame, main_TUM.cpp:267, and the one the program starts from, 160-163: the
    numbers of the file, which are metres *)
Definition frame_truth (position : vec) (rotation : quat) : pose_base := set_pose position rotation.
(** [get_ground_truth], main_TUM.cpp:90-103: the same in millimetres; it is not called *)
Definition get_ground_truth (position : vec) (rotation : quat) : pose_base := set_pose (vscal 1000 position) rotation.
(** the error of a frame, main_TUM.cpp:268, displayed in centimetres, line 307 *)
Definition displayed_error (estimate : pose_base) (position : vec) (rotation : quat) : R :=
  (position_error estimate (frame_truth position rotation) / 10)%R.

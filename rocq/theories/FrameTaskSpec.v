(** What is expected of the detection of the features of a frame by several tasks (C119).
    Of the model, only the shared places and the programs over them are used. *)
From Coq Require Import List.
From Verif Require Import FrameTaskModel.
Import ListNotations.

Section Spec.
Context {value : Type}.
(** The result of a program that nothing disturbs ([None]: it throws), and the memory it leaves. *)
Fixpoint alone {A : Type} (x : prog value A) (m : memory value) : option A * memory value :=
  match x with
  | Ends a => (Some a, m)
  | Throws => (None, m)
  | Reads p next => alone (next (m p)) m
  | Writes p v next => alone next (fun q => if place_eqb q p then v else m q)
  end.
(** A program that reads and writes these places only, whatever it reads. *)
Fixpoint keeps_to {A : Type} (reads writes : list place) (x : prog value A) : Prop :=
  match x with
  | Ends _ | Throws => True
  | Reads p next => (In p reads \/ In p writes) /\ forall v, keeps_to reads writes (next v)
  | Writes p _ next => In p writes /\ keeps_to reads writes next
  end.
(** What the next step of a program accesses: a place, and whether it writes it. *)
Definition next_access {A : Type} (x : prog value A) : option (place * bool) :=
  match x with
  | Ends _ | Throws => None
  | Reads p _ => Some (p, false)
  | Writes p _ _ => Some (p, true)
  end.
(** A data race: two next accesses to one place, one of them a write. *)
Definition race (a b : option (place * bool)) : Prop :=
  exists p x y, a = Some (p, x) /\ b = Some (p, y) /\ (x = true \/ y = true).
End Spec.

(** The places that each part of the detection accesses, from the code. *)
Definition tracking_reads := [Maps; Pose; CameraParameters].
Definition point_reads := [Gray; Depth; CameraParameters].
Definition point_writes := [PointDetector; PointStatics].
Definition plane_reads := [Cloud; Depth; CameraParameters].
Definition plane_writes := [PlaneDetector].

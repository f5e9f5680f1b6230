(** Vocabulary: the numbers of the machine, and cameras and positions of usual sizes. *)
From Coq Require Import Reals ZArith.
From Flocq Require Import Core.
From Verif Require Import Vec3 GeometryModel.
Local Open Scope R_scope.

Definition a_double (x : R) : Prop := generic_format radix2 (FLT_exp (-1074) 53) x.
Definition doubles (v : vec) : Prop := a_double (vx v) /\ a_double (vy v) /\ a_double (vz v).
(** focal distances and principal point, in pixels *)
Definition usual_camera (fx fy cx cy : R) : Prop :=
  (a_double fx /\ a_double fy /\ a_double cx /\ a_double cy) /\
  100 <= fx <= 10000 /\ 100 <= fy <= 10000 /\ 1 <= cx <= 10000 /\ 1 <= cy <= 10000.
(** a position in an image, with a depth in millimeters from one millimeter to 100 meters *)
Definition usual_pixel (s : vec) : Prop := doubles s /\ 0 <= vx s <= 10000 /\ 0 <= vy s <= 10000 /\ 1 <= vz s <= 100000.
(** where a pinhole camera sees a point *)
Definition seen_x (fx cx : R) (p : vec) : R := fx * (vx p / vz p) + cx.
Definition seen_y (fy cy : R) (p : vec) : R := fy * (vy p / vz p) + cy.
(** the point at the depth [z] that is seen at the pixel [v] *)
Definition at_depth (f c z v : R) : R := z * ((v - c) / f).
(** a pose of usual size: rotation and position in millimeters, up to 100 meters *)
Definition usual_transform (m : m4) : Prop :=
  (forall r, r = r0 (lin m) \/ r = r1 (lin m) \/ r = r2 (lin m) -> Rabs (vx r) <= 2 /\ Rabs (vy r) <= 2 /\ Rabs (vz r) <= 2) /\
  (doubles (col m) /\ Rabs (vx (col m)) <= 100000 /\ Rabs (vy (col m)) <= 100000 /\ Rabs (vz (col m)) <= 100000) /\ row m = v0 /\ corner m = 1.
Definition usual_position (p : vec) : Prop := Rabs (vx p) <= 100000 /\ Rabs (vy p) <= 100000 /\ Rabs (vz p) <= 100000.

(** What the perspective 3 points solver is expected to satisfy. *)
From Verif Require Export P3pModel.
From Coq Require Import List.
Import ListNotations.
Local Open Scope R_scope.

(** A rotation: it keeps lengths, angles and the orientation. *)
Definition is_rotation (r : mat) : Prop := orthogonal r /\ det r = 1.
(** Three directions of unit length. *)
Definition unit_rays (x : triple) : Prop := is_unit (t0 x) /\ is_unit (t1 x) /\ is_unit (t2 x).
(** Three points that are not on a line. *)
Definition not_aligned (X : triple) : Prop := cross (vsub (t0 X) (t1 X)) (vsub (t0 X) (t2 X)) <> v0.
(** With this pose, the camera sees the three points along the three directions, at these
    depths. *)
Definition sees (p : camera_pose) (x X : triple) (l0 l1 l2 : R) : Prop :=
  vscal l0 (t0 x) = vadd (mvmul (rotation p) (t0 X)) (translation p) /\
  vscal l1 (t1 x) = vadd (mvmul (rotation p) (t1 X)) (translation p) /\
  vscal l2 (t2 x) = vadd (mvmul (rotation p) (t2 X)) (translation p).
(** The coefficients of the equation solved for one of the two planes. *)
Definition equation (x X : triple) (u : vec) (q : R * R * R) : Prop :=
  exists w0 w1, snd (weights u) = Some (w0, w1) /\ q = quadratic (fst (weights u)) (distances x X) w0 w1.
(** None of the equations has a double root up to the tolerance without having one. *)
Definition no_near_double_root (x X : triple) : Prop :=
  forall u v w q, planes (distances x X) = Some (u, v) -> w = u \/ w = v -> equation x X w q ->
  discriminant q = 0 \/ tolerance < Rabs (discriminant q).
(** No division by zero happens: the two planes exist, and their equations have a degree and no
    null root. *)
Definition regular (x X : triple) : Prop :=
  exists u v, planes (distances x X) = Some (u, v) /\
  forall w, w = u \/ w = v ->
    exists a b c, equation x X w (a, b, c) /\ c <> 0 /\ (a <> 0 \/ b <> 0).

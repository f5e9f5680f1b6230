(** What the coordinate systems are expected to satisfy. *)
From Verif Require Export GeometryModel.
From Verif Require Import PlaneSegmentModel.
Local Open Scope R_scope.

(** A rotation is given by a unit quaternion. *)
Definition unit_quat (q : quat) : Prop := q_w q * q_w q + q_x q * q_x q + q_y q * q_y q + q_z q * q_z q = 1.
(** The camera has x to the right, y down and z forward; the world has x forward, y to the
    left and z up. *)
Definition world_axes (p : vec) : vec := mkV (vz p) (- vx p) (- vy p).
(** A point of the line by [p] of direction [d]. *)
Definition on_line (p d x : vec) : Prop := exists t, x = vadd p (vscal t d).
(** The point [p] projects to the pixel [x], [y] of a camera. *)
Definition seen_at (fx fy cx cy : R) (p : vec) (x y : R) : Prop :=
  x = fx * vx p / vz p + cx /\ y = fy * vy p / vz p + cy.

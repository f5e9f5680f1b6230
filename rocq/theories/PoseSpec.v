(** What the poses and the angles are expected to satisfy. *)
From Verif Require Export GeometrySpec PoseModel.
Local Open Scope R_scope.

(** The rotations around each axis, counter clockwise seen from the end of the axis. *)
Definition rot_x (a : R) : mat := mkM3 (mkV 1 0 0) (mkV 0 (cos a) (- sin a)) (mkV 0 (sin a) (cos a)).
Definition rot_y (a : R) : mat := mkM3 (mkV (cos a) 0 (sin a)) (mkV 0 1 0) (mkV (- sin a) 0 (cos a)).
Definition rot_z (a : R) : mat := mkM3 (mkV (cos a) (- sin a) 0) (mkV (sin a) (cos a) 0) (mkV 0 0 1).
(** The rotation around z, then around y, then around x. *)
Definition rot_xyz (x y z : R) : mat := mmul (rot_x x) (mmul (rot_y y) (rot_z z)).
(** Degrees to radians. *)
Definition radians (d : R) : R := d * PI / 180.

(** The angle of a rotation: the one whose cosine is given by the trace of the matrix. *)
Definition trace (m : mat) : R := vx (r0 m) + vy (r1 m) + vz (r2 m).
Definition angle_of (m : mat) (a : R) : Prop := 0 <= a <= PI /\ trace m = 1 + 2 * cos a.
(** The rotation that goes from [m] to [n]. *)
Definition from_to (m n : mat) : mat := mmul n (mT m).
(** The matrix and the position that a pose stands for. *)
Definition matrix_of (b : pose_base) : mat := rotation_matrix (b_orientation b).
Definition null_quat (q : quat) : Prop := q_w q = 0 /\ q_x q = 0 /\ q_y q = 0 /\ q_z q = 0.

(** The operations a pose may be given: an orientation to set is not null, an orientation to
    add is a unit one. *)
Definition good_op (o : pose_op) : Prop :=
  match o with SetPose _ q => ~ null_quat q | UpdatePose _ q => unit_quat q end.

(** An extraction of angles gives back the rotation. *)
Definition extracts (f : mat -> vec) : Prop :=
  forall m, orthogonal m -> det m = 1 -> rot_xyz (vx (f m)) (vy (f m)) (vz (f m)) = m.
(** The range documented for [eulerAngles]: the first angle is between 0 and pi. *)
Definition first_positive (f : mat -> vec) : Prop :=
  forall m, orthogonal m -> det m = 1 -> 0 <= vx (f m) <= PI.

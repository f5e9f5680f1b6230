(** Model of the motion model (dead reckoning).
    Source: /repo/src/tracking/motion_model.cpp. Numbers are reals: rounding is not modelled.
    (Its use in rgbd_slam.cpp:175-180 is compiled out.) *)
From Verif Require Export GeometryModel.
Local Open Scope R_scope.

(** Eigen's [Quaternion::inverse]: null for the null quaternion *)
Definition qsqn (q : quat) : R := q_w q * q_w q + q_x q * q_x q + q_y q * q_y q + q_z q * q_z q.
Definition qinverse (q : quat) : quat :=
  if Rlt_dec 0 (qsqn q) then mkQuat (q_w q / qsqn q) (- q_x q / qsqn q) (- q_y q / qsqn q) (- q_z q / qsqn q)
  else mkQuat 0 0 0 0.
Definition qdot (a b : quat) : R := q_w a * q_w b + q_x a * q_x b + q_y a * q_y b + q_z a * q_z b.
Definition qmix (k l : R) (a b : quat) : quat :=
  mkQuat (k * q_w a + l * q_w b) (k * q_x a + l * q_x b) (k * q_y a + l * q_y b) (k * q_z a + l * q_z b).
(** Eigen's [a.slerp(t, b)] *)
Definition slerp (a : quat) (t : R) (b : quat) : quat :=
  let d := qdot a b in
  let abs_d := Rabs d in
  let '(scale0, scale1) :=
    if Rle_dec (1 - machine_epsilon) abs_d then (1 - t, t)
    else let angle := acos abs_d in
         (sin ((1 - t) * angle) / sin angle, sin (t * angle) / sin angle) in
  qmix scale0 (if Rlt_dec d 0 then - scale1 else scale1) a b.

(** [Motion_Model], motion_model.hpp:38-48 *)
Record motion := mkMotion { last_q : quat; angular_velocity : quat; last_position : vec; linear_velocity : vec; is_set : bool }.
Definition qid : quat := mkQuat 1 0 0 0.
(** [reset], motion_model.cpp:7-16 and 18-27 *)
Definition reset : motion := mkMotion qid qid v0 v0 false.
Definition reset_at (position : vec) (rotation : quat) : motion := mkMotion rotation qid position v0 true.

(** A predicted pose: position, orientation, and the variances added on the diagonal to the
    position and to the rotation *)
Record prediction := mkPrediction { pr_position : vec; pr_rotation : quat; pr_added : R * R }.
(** [predict_next_pose], motion_model.cpp:29-71. The constructor of [Pose] keeps the
    orientation. *)
Definition predict (s : motion) (position : vec) (rotation : quat) (increase : bool) : motion * prediction :=
  if negb (is_set s)
  then (mkMotion rotation (angular_velocity s) position (linear_velocity s) true, mkPrediction position rotation (0, 0))
  else
    let velocity := vscal (1 / 2) (vadd (vsub position (last_position s)) (linear_velocity s)) in
    let difference := qmul rotation (qinverse (last_q s)) in
    let new_angular := normalized (slerp difference (1 / 2) (angular_velocity s)) in
    let added := if increase then (10 * 10, 1 / 10 * (1 / 10)) else (0, 0) in
    (mkMotion rotation new_angular position velocity true,
     mkPrediction (vadd position velocity) (normalized (qmul rotation new_angular)) added).
(** A history: the poses given one after the other *)
Fixpoint predictions (s : motion) (poses : list (vec * quat)) : motion * list prediction :=
  match poses with
  | nil => (s, nil)
  | (p, q) :: l => let '(s', r) := predict s p q true in
                   let '(s'', rs) := predictions s' l in (s'', r :: rs)
  end.

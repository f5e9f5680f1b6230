(** Model of the parametrisation of rotations used by the pose optimisation and of
    its objective function.
    Source: /repo/src/pose_optimization/levenberg_marquardt_functors.cpp:14-165,
    /repo/src/utils/pose.cpp:18-22. Numbers are reals: rounding is not modelled. *)
From Coq Require Export Reals List Arith Lia Lra.
Export ListNotations.
Local Open Scope R_scope.

(** [quaternion]: the four parts *)
Record quat := mkQuat { q_w : R; q_x : R; q_y : R; q_z : R }.
(** [vector3] of coefficients *)
Definition coefs := nat -> R.
Definition vec3 (a b c : R) : coefs := fun k => match k with 0%nat => a | 1%nat => b | _ => c end.

(** [get_optimization_coefficients_from_quaternion], 14-27 *)
Definition to_coefs (q : quat) : coefs :=
  let divider := 1 / Rmax (1 + q_z q) (1 / 1000) in
  vec3 (q_w q * divider) (q_x q * divider) (q_y q * divider).

(** [get_quaternion_from_optimization_coefficients], 29-38 *)
Definition alpha (c : coefs) : R := c 0%nat * c 0%nat + c 1%nat * c 1%nat + c 2%nat * c 2%nat.
Definition of_coefs (c : coefs) : quat :=
  let divider := 1 / (alpha c + 1) in
  mkQuat (2 * c 0%nat * divider) (2 * c 1%nat * divider) (2 * c 2%nat * divider) ((1 - alpha c) * divider).

(** rows of the jacobian: w, x, y, z *)
Definition part (q : quat) (i : nat) : R :=
  match i with 0%nat => q_w q | 1%nat => q_x q | 2%nat => q_y q | _ => q_z q end.

(** [get_quaternion_from_optimization_coefficients_jacobian], 40-72 *)
Definition jacobian (c : coefs) (i j : nat) : R :=
  let theta6 := alpha c in
  let theta5 := theta6 + 1 in
  let theta1 := theta6 - 1 in
  let theta2 := - (4 * c 1%nat * c 2%nat) / (theta5 * theta5) in
  let theta3 := - (4 * c 0%nat * c 2%nat) / (theta5 * theta5) in
  let theta4 := - (4 * c 0%nat * c 1%nat) / (theta5 * theta5) in
  let multiplier_diag := - 4 / (theta5 * theta5) in
  let multi_a := 2 * theta1 / (theta5 * theta5) in
  let multi_b := - 2 / theta5 in
  match i, j with
  | 0%nat, 0%nat => 2 / theta5 - c 0%nat * c 0%nat * multiplier_diag
  | 0%nat, 1%nat => theta4
  | 0%nat, 2%nat => theta3
  | 1%nat, 0%nat => theta4
  | 1%nat, 1%nat => 2 / theta5 - c 1%nat * c 1%nat * multiplier_diag
  | 1%nat, 2%nat => theta2
  | 2%nat, 0%nat => theta3
  | 2%nat, 1%nat => theta2
  | 2%nat, 2%nat => 2 / theta5 - c 2%nat * c 2%nat * multiplier_diag
  | _, _ => c j * multi_a + c j * multi_b
  end.

(** [PoseBase]: position and orientation; [set_parameters] normalises the
    orientation (pose.cpp:18-22) *)
Record pose := mkPose { p_position : coefs; p_orientation : quat }.
Definition qnorm (q : quat) : R := sqrt (q_w q * q_w q + q_x q * q_x q + q_y q * q_y q + q_z q * q_z q).
(** Eigen's [normalized()]: unchanged when the squared norm is not positive *)
Definition normalized (q : quat) : quat :=
  if Rlt_dec 0 (q_w q * q_w q + q_x q * q_x q + q_y q * q_y q + q_z q * q_z q)
  then mkQuat (q_w q / qnorm q) (q_x q / qnorm q) (q_y q / qnorm q) (q_z q / qnorm q) else q.
Definition set_parameters (position : coefs) (orientation : quat) : pose := mkPose position (normalized orientation).
(** [get_optimization_coefficient_from_pose], 74-80: position then rotation *)
Definition coefs_of_pose (p : pose) : nat -> R :=
  fun k => if Nat.ltb k 3 then p_position p k else to_coefs (p_orientation p) (k - 3)%nat.
(** [get_pose_from_optimization_coefficients], 82-86 *)
Definition pose_of_coefs (c : nat -> R) : pose :=
  set_parameters (vec3 (c 0%nat) (c 1%nat) (c 2%nat)) (of_coefs (vec3 (c 3%nat) (c 4%nat) (c 5%nat))).

(** ** The objective function *)
Section Objective.
(** a feature: number of parts, alpha reduction, and distance vector for the
    current pose, [None] when a distance is not a number *)
Record feature := mkFeature { f_parts : nat; f_alpha : R; f_distance : option (list R) }.

(** constructor of [Global_Pose_Estimator], 100-124; [false]: throws *)
Definition estimator_ok (parts : nat) (l : list feature) : bool :=
  negb (Nat.eqb (length l) 0) && negb (Nat.eqb parts 0) &&
  Nat.eqb (fold_left (fun n f => (n + f_parts f)%nat) l 0%nat) parts.

(** [outputScores.segment(index, n) = values]; [None]: out of bounds *)
Definition write_segment (out : list R) (index : nat) (values : list R) : option (list R) :=
  if Nat.leb (index + length values) (length out)
  then Some (firstn index out ++ values ++ skipn (index + length values) out) else None.

(** [operator()], 145-163, from residual [index] on; [None]: wrong sizes *)
Fixpoint residuals (l : list feature) (index : nat) (out : list R) : option (list R) :=
  match l with
  | [] => Some out
  | f :: l' =>
    match f_distance f with
    | None => residuals l' (index + f_parts f) out
    | Some d =>
      if Nat.eqb (f_parts f) (length d) then
        match write_segment out index (map (fun x => x * f_alpha f / INR (f_parts f)) d) with
        | Some out' => residuals l' (index + f_parts f) out'
        | None => None
        end
      else None
    end
  end.
End Objective.

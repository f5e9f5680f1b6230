(** Model of the pose variance with the rounding of the machine.
    Source: /repo/src/pose_optimization/pose_optimization.cpp:361-437 ([compute_pose_variance]) and
    /repo/src/utils/covariances.hpp:14-44 ([is_covariance_valid]). PoseVarianceModel has the same function
    without rounding (C24). Each operation on [double]s is rounded to nearest even; overflow is not
    modelled (the theorems bound the values) and operations are not fused. *)
From Verif Require Export PoseVarianceModel.
From Verif Require Import RoundedCameraModel.
Local Open Scope bool_scope.
Local Open Scope R_scope.

(** a sum that starts at zero and to which the values are added one after the other: [medium], 394,
    and [poseCovariance], 418-422 *)
Definition rtotal (f : vec6 -> R) (l : list vec6) : R := fold_left (fun s v => radd s (f v)) l 0.
(** [medium /= poses.size()], 416 *)
Definition rmedium (l : list vec6) : vec6 := fun a => rdiv (rtotal (fun v => v a) l) (INR (length l)).
(** [def], 420 *)
Definition rdeviation (l : list vec6) (v : vec6) : vec6 := fun a => rsub (v a) (rmedium l a).
(** 418-425, for two poses or more; 0.001 is the closest [double] *)
Definition millesimal : R := rnd (1 / 1000).
Definition rcovariance (l : list vec6) : mat6 := fun a b =>
  let c := rdiv (rtotal (fun v => rmul (rdeviation l v a) (rdeviation l v b)) l) (INR (length l - 1)) in
  if Nat.eqb a b then radd c millesimal else c.

Section Variance.
Variable sample : nat -> option vec6.
(** [isApprox] of a matrix and of another one, and Eigen's LDLT tests, covariances.hpp:27-41 *)
Variable alike : mat6 -> mat6 -> bool.
Variable ldlt_positive : mat6 -> bool.
(** [compute_pose_variance], 361-437, when the iterations end in the order [order]. With one pose
    the matrix has NaNs and is refused; without poses it is diagonal. *)
Definition rpose_variance (iterations : nat) (order : list nat) : option mat6 :=
  if Nat.eqb iterations 0 then None
  else
    let l := poses sample order in
    if Nat.ltb (length l) (iterations / 2) then None
    else match l with
    | [_] => None
    | [] => let m := fun a b => if Nat.eqb a b then millesimal else 0 in
            if alike m (fun a b => m b a) && ldlt_positive m then Some m else None
    | _ => let m := rcovariance l in if alike m (fun a b => m b a) && ldlt_positive m then Some m else None
    end.
End Variance.

(** Model of the pose variance.
    Source: /repo/src/pose_optimization/pose_optimization.cpp:361-437
    ([compute_pose_variance]) and /repo/src/utils/covariances.hpp:14-44
    ([is_covariance_valid]). Numbers are reals, [None] being a matrix with a NaN:
    rounding is not modelled. Oracles: the pose of each variation
    ([compute_random_variation_of_pose]) and Eigen's LDLT test. *)
From Verif Require Export RealSums.
Local Open Scope R_scope.

(** [vector6], [matrix66] *)
Definition vec6 := nat -> R.
Definition mat6 := nat -> nat -> R.
Definition six : list nat := seq 0 6.

Section Variance.
(** pose of variation [i]; [None]: it could not be computed *)
Variable sample : nat -> option vec6.
(** [ldlt.info() != NumericalIssue && ldlt.isPositive()], covariances.hpp:36-41 *)
Variable ldlt_positive : mat6 -> bool.

(** the container of the poses, when the iterations end in the order [order],
    pose_optimization.cpp:376-407 *)
Definition poses (order : list nat) : list vec6 :=
  flat_map (fun i => match sample i with Some v => [v] | None => [] end) order.

(** [medium], 394 and 416; each iteration adds its pose, the division comes last *)
Definition medium (l : list vec6) : vec6 := fun a => rsum (fun v => v a) l / INR (length l).

(** 418-425. The divisor is an unsigned 64 bits difference: it wraps to
    [2 ^ 64 - 1] without poses (the loop does nothing then), and it is zero for
    one pose: the difference with the mean is zero, and zero over zero is not a
    number. *)
Definition covariance (l : list vec6) : option mat6 :=
  match l with
  | [] => Some (fun a b => 0 / (2 ^ 64 - 1) + if Nat.eqb a b then / 1000 else 0)
  | [_] => None
  | _ => Some (fun a b =>
      rsum (fun v => (v a - medium l a) * (v b - medium l b)) l / INR (length l - 1) + if Nat.eqb a b then / 1000 else 0)
  end.

(** [is_covariance_valid]: the symmetry test compares a matrix with its transpose *)
Definition symmetric (m : mat6) : Prop := forall a b, In a six -> In b six -> m a b = m b a.
Definition covariance_valid (m : option mat6) (sym : bool) : bool :=
  match m with None => false | Some m => sym && ldlt_positive m end.

(** [compute_pose_variance]: the variance when it returns true. [sym]: result of
    the approximate symmetry test *)
Definition pose_variance (iterations : nat) (order : list nat) (sym : bool) : option mat6 :=
  if Nat.eqb iterations 0 then None
  else
    let l := poses order in
    if Nat.ltb (length l) (iterations / 2) then None
    else if covariance_valid (covariance l) sym then covariance l else None.
End Variance.

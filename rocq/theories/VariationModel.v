(** Model of the random variations of a set of matches, and of the poses they give to the pose variance.
    Source: /repo/src/pose_optimization/pose_optimization.cpp:482-501 ([compute_random_variation_of_pose]),
    376-407 (the iterations of [compute_pose_variance]).
    The variation of each kind of match is in OptFeatureModel, the optimisation of a pose
    ([compute_optimized_global_pose]) in PoseOptModel and the variance in PoseVarianceModel. The random draws
    are arguments: draw [k] of match [i]. *)
From Verif Require Export OptFeatureModel PoseVarianceModel.
From Verif Require PoseOptModel.
Local Open Scope R_scope.

(** a match given to the optimisation, of one of the three kinds of [IOptimizationFeature] *)
Inductive feature := FPoint (f : point_feature) | FPoint2d (f : point2d_feature) | FPlane (f : plane_feature).
(** [get_feature_type], map_point.cpp:65, map_point2d.cpp:81, map_primitive.cpp:85 *)
Definition kind_of (f : feature) : PoseOptModel.fkind :=
  match f with FPoint _ => PoseOptModel.Point | FPoint2d _ => PoseOptModel.Point2d | FPlane _ => PoseOptModel.Plane end.
(** the virtual [compute_random_variation], matches_containers.hpp:163; [None]: an exception ends the program *)
Definition feature_variation (d : nat -> R) (f : feature) : option feature :=
  match f with
  | FPoint p => Some (FPoint (point_variation (mkV (d 0%nat) (d 1%nat) (d 2%nat)) p))
  | FPoint2d p => match point2d_variation (d 0%nat) (d 1%nat) p with Some q => Some (FPoint2d q) | None => None end
  | FPlane p => Some (FPlane (plane_variation (mkV (d 0%nat) (d 1%nat) (d 2%nat)) (d 3%nat) p))
  end.
(** [variatedSet], 486-498 *)
Fixpoint variated_set (draws : nat -> nat -> R) (i : nat) (l : list feature) : option (list feature) :=
  match l with
  | [] => Some []
  | f :: l' =>
    match feature_variation (draws i) f with
    | None => None
    | Some g => match variated_set draws (S i) l' with Some r => Some (g :: r) | None => None end
    end
  end.

Section Poses.
Context {P : Type}.
(** as in PoseOptModel: the coefficients of the pose are finite; the minimisation *)
Variable finite : P -> bool.
Variable lm : P -> list feature -> option P.
(** [get_vector] *)
Variable vector : P -> vec6.
(** [compute_random_variation_of_pose], 482-501; [None]: the program ends; [Some None]: no pose *)
Definition variation_of_pose (draws : nat -> nat -> R) (pose : P) (l : list feature) : option (option P) :=
  match variated_set draws 0 l with
  | None => None
  | Some r => Some (PoseOptModel.global_pose kind_of finite lm pose r)
  end.
(** the pose of an iteration, 388-407. Simplification: an iteration that ends the program gives no pose here; the
    theorem C131_same_matches excludes it. *)
Definition iteration_pose (draws : nat -> nat -> nat -> R) (pose : P) (l : list feature) (i : nat) : option vec6 :=
  match variation_of_pose (draws i) pose l with Some (Some p) => Some (vector p) | _ => None end.
(** [compute_pose_variance], 361-437, of these iterations *)
Definition variance_of_matches (ldlt : mat6 -> bool) (draws : nat -> nat -> nat -> R) (pose : P) (l : list feature)
  (iterations : nat) (order : list nat) (sym : bool) : option mat6 :=
  pose_variance (iteration_pose draws pose l) ldlt iterations order sym.
End Poses.

(** Model of how many subsets the RANSAC draws.
    Source: /repo/src/pose_optimization/pose_optimization.cpp:128-132 and 156-167; the draw itself
    is [random_subset] of PoseOptModel. *)
From Coq Require Import List ZArith Reals.
From Flocq Require Import Core.
From Verif Require Export PoseOptModel.
Import ListNotations.

(** parameters.hpp:35-37: [probabilityOfSuccess], [inlierProportion], [featureTrustCount] *)
Definition probability_of_success : R := (8 / 10)%R.
Definition inlier_proportion : R := (65 / 100)%R.
Definition feature_trust_count : nat := 10.
(** The quotient of logarithms, 130-132, of real numbers; the program computes it with floats *)
Definition iterations_quotient : R := (ln (1 - probability_of_success) / ln (1 - inlier_proportion ^ feature_trust_count))%R.
(** [maximumIterations], 129-132, from the computed quotient *)
Definition maximum_iterations (computed : R) : Z := Zceil computed.

(** An iteration draws its subset from a new order of the matches, 166: are they all inliers *)
Definition draws_inliers {F : Type} (kind : F -> fkind) (inlier : F -> bool) (order : list F) : bool :=
  match random_subset kind order with Some subset => forallb inlier subset | None => false end.

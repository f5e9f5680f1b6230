(** Model of the random subsets with repetitions.
    Source: /repo/src/pose_optimization/ransac.hpp:42-66 and 104-128.
    The draws of [get_random_double] are an infinite sequence given as argument. The container
    is a sequence; its elements are pointers and their score is a function of them. The
    accumulated score is rounded as a [double] is. *)
From Verif Require Export OptFeatureModel.
From Coq Require Import List.
Import ListNotations.
Local Open Scope R_scope.

(** [TooMany]: [std::invalid_argument]; [Undefined]: the assertion of [get_random_uint]
    (random.hpp:54), or without assertions a read at index 0 of an empty vector *)
Inductive subset (A : Type) := Subset (l : list A) | TooMany | Undefined.
Arguments Subset {A}. Arguments TooMany {A}. Arguments Undefined {A}.

Section draws.
  Context {A : Type}.
  Variable container : list A.
  Variable draws : nat -> R.

  (** [copyVector\[get_random_uint(inContainer.size())\]], 63 and 121 *)
  Definition picked (step : nat) : option A :=
    match container with
    | [] => None
    | _ => nth_error container (Z.to_nat (random_uint (draws step) 0 (Z.of_nat (length container))))
    end.
  (** the loop of 61-64; [missing]: how many elements are still to be chosen *)
  Fixpoint pick_more (missing step : nat) (out : list A) : subset A :=
    match missing with
    | O => Subset out
    | S missing => match picked step with
                   | Some x => pick_more missing (S step) (x :: out)
                   | None => Undefined
                   end
    end.
  (** [get_random_subset_with_duplicates], 48-66 *)
  Definition subset_with_duplicates (count : nat) : subset A :=
    if Nat.ltb (length container) count then TooMany else pick_more count 0 [].

  (** [get_score] *)
  Variable score : A -> R.
  (** the loop of 119-126 *)
  Fixpoint pick_score (target : R) (iterations step : nat) (cumulated : R) (out : list A) : subset A :=
    match iterations with
    | O => Subset out
    | S iterations =>
      if Rlt_dec cumulated target then
        match picked step with
        | Some x => pick_score target iterations (S step) (rounded (cumulated + score x)) (x :: out)
        | None => Undefined
        end
      else Subset out
    end.
  (** [get_random_subset_with_score_with_duplicates], 109-128 *)
  Definition score_subset_with_duplicates (target : R) (max_iterations : nat) : subset A :=
    pick_score target max_iterations 0 0 [].
End draws.

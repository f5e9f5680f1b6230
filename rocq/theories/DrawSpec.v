(** What a random subset with repetitions is expected to be. *)
From Verif Require Export DrawModel OptFeatureSpec.
From Coq Require Import List.
Import ListNotations.
Local Open Scope R_scope.

(** The score of a list of picks, the last pick first, added as [double] numbers. *)
Definition total {A} (score : A -> R) (l : list A) : R := fold_right (fun x s => rounded (s + score x)) 0 l.
(** A list of picks that goes on until the target or the number of iterations is reached, and
    no further. *)
Definition stops_in_time {A} (score : A -> R) (target : R) (iterations : nat) (l : list A) : Prop :=
  (length l <= iterations)%nat /\
  (forall later earlier, l = later ++ earlier -> later <> [] -> total score earlier < target) /\
  (length l = iterations \/ target <= total score l).

(** What each thread is expected to draw (C115). Nothing here depends on the model. *)
From Coq Require Import List.
Import ListNotations.

(** The results of a program of one thread that does these works, one after the other, from an
    engine *)
Fixpoint alone {engine work value : Type} (compute : work -> engine -> value * engine) (e : engine) (works : list work) : list value :=
  match works with
  | [] => []
  | w :: l => fst (compute w e) :: alone compute (snd (compute w e)) l
  end.
(** The elements that satisfy [keep] for their rank, counted from [k] *)
Fixpoint by_rank {A : Type} (keep : nat -> bool) (k : nat) (l : list A) : list A :=
  match l with
  | [] => []
  | a :: l => (if keep k then [a] else []) ++ by_rank keep (S k) l
  end.
(** The elements with a projection, and it *)
Fixpoint seen {A B : Type} (project : A -> option B) (l : list A) : list (A * B) :=
  match l with
  | [] => []
  | a :: l => match project a with Some b => [(a, b)] | None => [] end ++ seen project l
  end.

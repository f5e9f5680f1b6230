(** What a random draw ranges over: all the orders of a set, all the sequences of orders. *)
From Coq Require Import List Permutation.
Import ListNotations.

(** [orders] are all the orders of [l], each one once *)
Definition all_orders {A : Type} (l : list A) (orders : list (list A)) : Prop :=
  NoDup orders /\ forall o, In o orders <-> Permutation l o.
(** All the sequences of [m] elements of [l] *)
Fixpoint sequences {A : Type} (m : nat) (l : list A) : list (list A) :=
  match m with
  | 0 => [[]]
  | S m' => flat_map (fun x => map (cons x) (sequences m' l)) l
  end.
Definition count {A : Type} (f : A -> bool) (l : list A) : nat := length (filter f l).

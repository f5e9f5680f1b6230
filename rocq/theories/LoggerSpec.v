(** What the readers of the logs expect. *)
From Verif Require Export LoggerModel.
From Coq Require Import List Ascii String NArith ZArith Bool.
Import ListNotations.
Local Open Scope list_scope.

(** All the threads have ended. *)
Definition finished (s : state) : Prop := forall t, threads s t = mkThread None [].
(** The messages of the order, one after the other. *)
Definition whole (order : list (nat * call)) : list ascii := List.concat (map (fun x => text (snd x)) order).
(** The calls of a thread in an order of calls. *)
Definition of_thread (t : nat) (order : list (nat * call)) : list call := map snd (filter (fun x => Nat.eqb (fst x) t) order).
(** The last setting that shows a kind of message: LOW for the information, MED for the
    warnings and HIGH for the errors. *)
Definition last_setting (l : level) : Z := match l with Info => 1 | Warning => 2 | Error => 3 end.
(** The messages of a level that are to be shown, in a program. *)
Definition expected (setting : Z) (l : level) (calls : list call) : list call :=
  filter (fun c => level_eqb (c_level c) l && Z.leb setting (last_setting l)) calls.
(** [c] is made of all the elements of [a] and of [b], each in their order. *)
Inductive shuffle {A} : list A -> list A -> list A -> Prop :=
  | Shuffle_nil : shuffle [] [] []
  | Shuffle_left x a b c : shuffle a b c -> shuffle (x :: a) b (x :: c)
  | Shuffle_right x a b c : shuffle a b c -> shuffle a (x :: b) (x :: c).

(** Vocabulary for the list of matches: order kept, and what the standard asks of [std::list::merge]. *)
From Coq Require Import List ZArith Sorted Permutation.
Import ListNotations.

(** [a] is found in [b], in the same order, maybe with other elements between *)
Inductive subsequence {A : Type} : list A -> list A -> Prop :=
| sub_nil : subsequence [] []
| sub_keep x a b : subsequence a b -> subsequence (x :: a) (x :: b)
| sub_skip x a b : subsequence a b -> subsequence a (x :: b).
(** The objects are met at increasing addresses *)
Definition in_address_order {A : Type} (addr : A -> Z) (l : list A) : Prop := StronglySorted (fun x y => (addr x <= addr y)%Z) l.
(** [l] has the elements of all the lists [ls], each one as many times, each list in its order *)
Definition gathered {A : Type} (ls : list (list A)) (l : list A) : Prop :=
  Permutation (concat ls) l /\ forall m, In m ls -> subsequence m l.

(** Vocabulary of the property C101: the example programs. *)
From Coq Require Import ZArith.
From Verif Require Import DemoModel.
Local Open Scope Z_scope.

(** "only take every j image into consideration" *)
Definition picked (jump index : Z) : Prop := jump = 0 \/ (jump | index).
(** the distance between two images taken *)
Definition stride (jump : Z) : Z := Z.max 1 jump.

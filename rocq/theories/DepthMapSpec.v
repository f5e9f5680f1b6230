(** Vocabulary of the properties C38 and C39. *)
From Verif Require Import DepthMapModel.
Local Open Scope Z_scope.

(** the traces of tasks that run in parallel, with any scheduler: at each moment one of
    the tasks performs its next step *)
Inductive schedule {A} : list (list A) -> list A -> Prop :=
| schedule_end : forall tasks, (forall t, In t tasks -> t = []) -> schedule tasks []
| schedule_step : forall before a t after trace,
    schedule (before ++ t :: after) trace ->
    schedule (before ++ (a :: t) :: after) (a :: trace).

(** a pixel of an image *)
Definition pixel (width height row column : Z) : Prop := 0 <= row < height /\ 0 <= column < width.
(** an image divided in square cells, whose pixels can be numbered with an [int] *)
Definition divided (width height cell_size : Z) : Prop :=
  0 < cell_size /\ 0 <= width /\ 0 <= height /\ (cell_size | width) /\ (cell_size | height) /\ width * height < 2 ^ 31.

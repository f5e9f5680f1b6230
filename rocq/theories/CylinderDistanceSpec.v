(** The distance to a cylinder (C116). Nothing here depends on the model. *)
From Verif Require Import Vec3.
Local Open Scope R_scope.

(** The distance of a point to the line of a direction through a point. *)
Definition line_distance (center direction p : vec) (d : R) : Prop :=
  (exists t, dist p (vadd center (vscal t direction)) = d) /\ forall t, d <= dist p (vadd center (vscal t direction)).
(** The points inside of the unlimited cylinder of a radius around this line. *)
Definition inside (direction : vec) (part : vec * R) (p : vec) : Prop :=
  exists t, dist p (vadd (fst part) (vscal t direction)) < Rabs (snd part).
(** The points inside of it, or on it. *)
Definition touches (direction : vec) (part : vec * R) (p : vec) : Prop :=
  exists t, dist p (vadd (fst part) (vscal t direction)) <= Rabs (snd part).

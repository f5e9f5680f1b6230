(** Vocabulary for the rounding of the statistics: the same segments as in PlaneSegmentSpec, computed by
    the machine, and distances between matrices. *)
From Verif Require Import PlaneSegmentSpec RoundedSegmentModel.
Local Open Scope R_scope.

(** sums of the machine for points grouped by successive expansions *)
Fixpoint machine_sums (g : grouping) : sums :=
  match g with Points l => raccumulate l | Expanded a b => rexpand (machine_sums a) (machine_sums b) end.
(** all coordinates of the measured points are at most [B] *)
Definition within (B : R) (l : list vec) : Prop := forall p, In p l -> Rabs (vx p) <= B /\ Rabs (vy p) <= B /\ Rabs (vz p) <= B.
Definition rows_within (e : R) (a b : vec) : Prop := Rabs (vx a - vx b) <= e /\ Rabs (vy a - vy b) <= e /\ Rabs (vz a - vz b) <= e.
(** every entry of [m] is within [e] of the one of [m'] *)
Definition entries_within (e : R) (m m' : mat) : Prop := rows_within e (r0 m) (r0 m') /\ rows_within e (r1 m) (r1 m') /\ rows_within e (r2 m) (r2 m').
(** the points are in one plane *)
Definition coplanar (l : list vec) : Prop := exists n d, is_unit n /\ forall p, In p l -> dot n p + d = 0.

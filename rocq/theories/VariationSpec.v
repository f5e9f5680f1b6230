(** Vocabulary of the random variations of a set of matches. *)
From Verif Require Import OptFeatureModel OptFeatureSpec GeometrySpec VariationModel.
Local Open Scope R_scope.

(** the same match of a map feature and of a detection: only the coordinates of the map feature may differ *)
Definition same_match (f g : feature) : Prop :=
  match f, g with
  | FPoint a, FPoint b => pf_x b = pf_x a /\ pf_y b = pf_y a /\ pf_deviation b = pf_deviation a /\ pf_id b = pf_id a /\ pf_detected b = pf_detected a
  | FPoint2d a, FPoint2d b => tf_x b = tf_x a /\ tf_y b = tf_y a /\ tf_deviation b = tf_deviation a /\ tf_id b = tf_id a /\ tf_detected b = tf_detected a
  | FPlane a, FPlane b => lf_matched b = lf_matched a /\ lf_deviation b = lf_deviation a /\ lf_id b = lf_id a /\ lf_detected b = lf_detected a
  | _, _ => False
  end.
(** each coordinate of [g] is the one of [f] plus its own draw times its own deviation: up to the length for the
    normal of a plane, unless it vanishes; inside the ranges of the angles for a 2D point, whose depth is kept *)
Definition moved_by (d : nat -> R) (f g : feature) : Prop :=
  match f, g with
  | FPoint a, FPoint b =>
    vx (pf_point b) = vx (pf_point a) + d 0%nat * vx (pf_deviation a) /\
    vy (pf_point b) = vy (pf_point a) + d 1%nat * vy (pf_deviation a) /\
    vz (pf_point b) = vz (pf_point a) + d 2%nat * vz (pf_deviation a)
  | FPoint2d a, FPoint2d b =>
    first (tf_point b) = first (tf_point a) /\ inverse_depth (tf_point b) = inverse_depth (tf_point a) /\
    (let t := theta (tf_point a) + d 0%nat * vy (tf_deviation a) in 0 <= t <= PI -> theta (tf_point b) = t) /\
    (let h := phi (tf_point a) + d 1%nat * vz (tf_deviation a) in - PI <= h <= PI -> phi (tf_point b) = h)
  | FPlane a, FPlane b =>
    let n := pl_normal (lf_plane a) in let s := hd4 (lf_deviation a) in
    let moved := mkV (vx n + d 0%nat * vx s) (vy n + d 1%nat * vy s) (vz n + d 2%nat * vz s) in
    (moved <> v0 -> is_unit (pl_normal (lf_plane b)) /\ exists k, 0 < k /\ pl_normal (lf_plane b) = vscal k moved) /\
    pl_d (lf_plane b) = pl_d (lf_plane a) + d 3%nat * tl4 (lf_deviation a)
  | _, _ => False
  end.
(** a feature that its constructor accepts *)
Definition well_formed (f : feature) : Prop := match f with FPoint2d p => valid_idp (tf_point p) | _ => True end.
(** a feature whose position is known exactly *)
Definition known_exactly (f : feature) : Prop :=
  match f with
  | FPoint p => pf_deviation p = v0
  | FPoint2d p => tf_deviation p = v0
  | FPlane p => lf_deviation p = mkV4 v0 0 /\ is_unit (pl_normal (lf_plane p))
  end.

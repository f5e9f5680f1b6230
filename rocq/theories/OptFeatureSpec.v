(** What the inlier tests and the random variations are expected to satisfy. *)
From Verif Require Export OptFeatureModel GeometrySpec.
Local Open Scope R_scope.

(** The world point [w] is seen at a pixel at most at the distance [e] from [x], [y], as the
    sum of the differences of the coordinates. *)
Definition seen_near (fx fy cx cy : R) (w2c : m4) (w : vec) (x y e : R) : Prop :=
  exists u v, vz (point_to_camera w2c w) <> 0 /\ seen_at fx fy cx cy (point_to_camera w2c w) u v /\
              Rabs (x - u) + Rabs (y - v) <= e.
(** Two planes are close: each part of the normals, and the distances to the origin. *)
Definition close_planes (a b : plane) (en ed : R) : Prop :=
  Rabs (vx (pl_normal a) - vx (pl_normal b)) <= en /\ Rabs (vy (pl_normal a) - vy (pl_normal b)) <= en /\
  Rabs (vz (pl_normal a) - vz (pl_normal b)) <= en /\ Rabs (pl_d a - pl_d b) <= ed.
(** An inverse depth point that can be built. *)
Definition valid_idp (p : idp) : Prop := 0 <= inverse_depth p /\ 0 <= theta p <= PI /\ - PI <= phi p <= PI.
(** A draw of [get_random_double]: a binary64 number in [0, 1[. *)
Definition is_draw (d : R) : Prop := d = rounded d /\ 0 <= d < 1.

(** What is expected of the upgrade of 2D points to 3D points. *)
From Verif Require Export InverseDepthSpec UpgradeModel.
From Coquelicot Require Import Coquelicot.
From Verif Require Import Vec3.
Local Open Scope R_scope.

(** The variance of the combination of the first pose by [u] and of the parameters by [v]. *)
Definition variance6 (c : cov6) (u v : vec) : R :=
  quad (c_pose c) u + 2 * dot u (mvmul (c_cross c) v) + quad (c_param c) v.
Definition covariance6 (c : cov6) : Prop :=
  msym (c_pose c) /\ msym (c_param c) /\ forall u v, 0 <= variance6 c u v.
(** [x] is the cosine of the angle of two vectors. *)
Definition is_cosine (a b : vec) (x : R) : Prop := dot a b = x * (norm a * norm b).
(** The deviation of the depth, at first order, of a point of inverse depth [rho] known with a
    deviation [s]. *)
Definition is_depth_deviation (rho s d : R) : Prop :=
  exists k, is_derive (fun r : R => / r) rho k /\ d = Rabs k * s.
(** The point [w], whose first observation was in the direction [b], is well localised for a
    camera: the deviation of its depth is small with respect to its distance, unless the ray of
    the camera is perpendicular to the first one. *)
Definition well_localised (camera w b : vec) (depth_deviation : R) : Prop :=
  exists x, is_cosine b (vsub w camera) x /\ 4 * (depth_deviation * Rabs x) < 1 / 10 * dist w camera.
(** The tests of validity accept the covariances. *)
Definition decides6 (valid6 : cov6 -> bool) : Prop := forall c, valid6 c = true <-> covariance6 c.
Definition decides3 (valid3 : mat -> bool) : Prop := forall m, valid3 m = true <-> covariance m.

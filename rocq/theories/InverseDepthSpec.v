(** What the changes of coordinates and of covariances are expected to satisfy. *)
From Verif Require Export GeometrySpec InverseDepthModel.
From Coquelicot Require Import Coquelicot.
From Verif Require Import Vec3.
Local Open Scope R_scope.

(** [j] is the jacobian of [f] at [p]: along every direction the derivative of each part of
    [f] is given by the row of [j]. *)
Definition is_jacobian (f : vec -> vec) (j : mat) (p : vec) : Prop :=
  forall u : vec,
    is_derive (fun t : R => vx (f (vadd p (vscal t u)))) 0 (dot (r0 j) u) /\
    is_derive (fun t : R => vy (f (vadd p (vscal t u)))) 0 (dot (r1 j) u) /\
    is_derive (fun t : R => vz (f (vadd p (vscal t u)))) 0 (dot (r2 j) u).
(** A point of a half line from [o] of direction [d]. *)
Definition in_front (o d x : vec) : Prop := exists t, 0 < t /\ x = vadd o (vscal t d).
(** A valid covariance: symmetric, and no direction has a negative variance. *)
Definition covariance (m : mat) : Prop := msym m /\ mpsd m.
(** A point of the segment from [a] to [b]. *)
Definition on_segment (a b x : vec) : Prop := exists t, 0 <= t <= 1 /\ x = vadd a (vscal t (vsub b a)).
(** Two angles are the same up to a number of turns. *)
Definition same_angle (a b : R) : Prop := exists k : Z, a - b = IZR k * (2 * PI).
(** The parameters of a built inverse depth point, without the first observation. *)
Definition parameters_of (o : outcome) : vec :=
  match o with Built p => mkV (inverse_depth p) (theta p) (phi p) | _ => v0 end.
(** The value of a conversion, [v0] where it has none. *)
Definition value_of (r : result vec) : vec := match r with Value v => v | Throws => v0 end.
Definition some_of (r : option vec) : vec := match r with Some v => v | None => v0 end.

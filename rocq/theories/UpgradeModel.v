(** Model of the upgrade of the 2D points to 3D points.
    Source: /repo/src/tracking/inverse_depth_with_tracking.cpp:182-208, 233-247,
    /repo/src/map_management/map_features/map_point2d.cpp:219-241,
    /repo/src/matches_containers.hpp:92-110. Numbers are reals (rounding is not modelled). *)
From Verif Require Export GeometryModel InverseDepthModel.
From Coq Require Import Bool List.
From Verif Require Import Vec3.
Local Open Scope R_scope.

(** A symmetric 6 x 6 covariance by blocks: of the first pose, of the inverse depth and of the
    two angles, and between them ([PointInverseDepth::Covariance]) *)
Record cov6 := mkC6 { c_pose : mat; c_cross : mat; c_param : mat }.
(** [get_inverse_depth_variance], inverse_depth_with_tracking.hpp:29 *)
Definition inverse_depth_variance (c : cov6) : R := vx (r0 (c_param c)).

(** [compute_linearity_score], inverse_depth_with_tracking.cpp:233-247, for the position of the
    camera. [None]: not a number (point at infinity, camera on the point, square root of a
    negative variance). [abs] is the one of floating point numbers. *)
Definition linearity_score (p : idp) (variance : R) (camera : vec) : option R :=
  match to_world p with
  | None => None
  | Some cartesian =>
      let hc := vsub cartesian camera in
      if Req_EM_T (norm hc) 0 then None
      else if Rlt_dec variance 0 then None
      else
        let cos_alpha := dot (bearing p) hc / norm hc in
        let thetad := sqrt variance / (inverse_depth p * inverse_depth p) / 1000 in
        let d1 := norm hc / 1000 in
        Some (4 * thetad / d1 * Rabs cos_alpha)
  end.

(** [propagate_covariance] by the 3 x 6 jacobian of [to_world_coordinates], whose first block is
    the identity *)
Definition cartesian_covariance (c : cov6) (j : mat) : mat :=
  madd (madd (c_pose c) (madd (mmul (c_cross c) (mT j)) (mmul j (mT (c_cross c))))) (propagate (c_param c) j).

Section Upgrade.
(** [is_covariance_valid] in the two dimensions, and the type of descriptors *)
Variables (valid6 : cov6 -> bool) (valid3 : mat -> bool) (descriptor : Type).
(** [compute_cartesian_covariance], 195-208; [None]: throws *)
Definition compute_cartesian_covariance (c : cov6) (j : mat) : option mat :=
  if negb (valid6 c) then None
  else let w := cartesian_covariance c j in if negb (valid3 w) then None else Some w.
(** [UpgradedPoint2D], matches_containers.hpp:92-110 *)
Record upgraded := mkUpgraded { u_point : vec; u_covariance : mat; u_descriptor : descriptor; u_matches : list nat }.
(** [MapPoint2D::compute_upgraded], map_point2d.cpp:219-241; [None]: returns [false]. A score
    which is not a number is not less than the threshold. *)
Definition compute_upgraded (p : idp) (c : cov6) (d : descriptor) (matches : list nat) (camera : vec) : option upgraded :=
  match linearity_score p (inverse_depth_variance c) camera with
  | None => None
  | Some score =>
      if Rlt_dec score (1 / 10) then
        match to_world p, compute_cartesian_covariance c (to_world_jacobian p) with
        | Some w, Some cov => Some (mkUpgraded w cov d matches)
        | _, _ => None
        end
      else None
  end.
End Upgrade.
(** The variance of the inverse depth of a new point, inverse_depth_with_tracking.cpp:40-41 *)
Definition new_inverse_depth_variance : R := (inverse_depth_baseline / 4) * (inverse_depth_baseline / 4).

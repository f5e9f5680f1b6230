(** Model of the tracking loop of [RGBD_SLAM]: one call of [track] per frame.
    Source: /repo/src/rgbd_slam.{hpp,cpp}.
    Not modelled: image conversions, statistics, debug image, the motion model
    (its prediction is compiled out, rgbd_slam.cpp:175-180). *)
From Verif Require Export FeatureMapModel LocalMapModel.
Local Open Scope N_scope.

(** parameters.hpp: keypointRefreshFrequency *)
Definition keypointRefreshFrequency : N := 5.
Definition uint_mod : N := 2 ^ 32.

Section Slam.
(** [P]: pose (position, orientation and covariance). *)
Context {D Det Ctx View Mt U P : Type}.
Notation lmaps := (lmaps D Det Ctx View Mt U).

(** What the tracking loop uses of a pose. *)
Record pose_ops := mkPoseOps {
  (** validity of the full pose covariance, rgbd_slam.cpp:167 *)
  po_cov_valid : P -> bool;
  (** validity of the position covariance, rgbd_slam.cpp:230-231, local_map.hpp:117-118 *)
  po_pos_cov_valid : P -> bool;
  (** transformation matrices *)
  po_view : P -> View;
  po_ctx : P -> Ctx
}.

(** What happens outside of the map during one frame, as oracles: feature
    detection (given the tracked features, that is the maps, and whether a full
    keypoint detection is requested) and pose optimisation (given the matches:
    the pose and the outliers when it succeeds). *)
Record frame := mkFrame {
  fr_detect : P -> lmaps -> bool -> nat -> list Det;
  fr_optimise : P -> list Mt -> option (P * list (nat * (N * nat)));
  fr_fuel : nat
}.

(** members of [RGBD_SLAM], rgbd_slam.hpp:91-117 *)
Record slam := mkSlam {
  sl_pose : P;
  sl_lost : bool;
  sl_failed : N;
  sl_first : bool;
  sl_count : N;
  sl_maps : lmaps;
  sl_shared : shared
}.

(** constructor, rgbd_slam.cpp:17-83 *)
Definition sl_init (pols : list (policy D Det Ctx View Mt U)) (start : P) : slam :=
  mkSlam start true 0 true 0 (map (fun p => (p, init)) pols) init_shared.

Variable ops : pose_ops.

(** Observable result of one call: the returned pose, and whether a full
    keypoint detection was requested. *)
Record answer := mkAnswer { an_pose : P; an_redetect : bool }.

(** [exit(-1)] ends the process. *)
Inductive step_result :=
| Done (s : slam) (a : answer)
| Exited.

(** [(++_failedTrackingCount) > 3], a 32 bit counter *)
Definition fail_count (n : N) : N := (n + 1) mod uint_mod.

(** [compute_new_pose], rgbd_slam.cpp:163-259, with [detect_features] 261-280 *)
Definition sl_step (f : frame) (s : slam) : outcome step_result :=
  if negb (po_cov_valid ops (sl_pose s)) then Ret Exited
  else
    let count := sl_count s mod keypointRefreshFrequency + 1 in
    let predicted := sl_pose s in
    let redetect := sl_lost s || N.eqb count 1 in
    let dets := fr_detect f predicted (sl_maps s) redetect in
    let* (ms, matches) := lm_find (po_view ops predicted) dets (sl_maps s) in
    match (if sl_first s then None else fr_optimise f predicted matches) with
    | Some (optimised, outliers) =>
      let* r := lm_update (fr_fuel f) (po_ctx ops optimised) (po_pos_cov_valid ops optimised) dets outliers ms (sl_shared s) in
      match r with
      | LDone ms' g' =>
        Ret (Done (mkSlam optimised false 0 false count ms' g') (mkAnswer optimised redetect))
      | LThrow ms' g' =>
        let '(ms'', g'') := lm_update_no_pose ms' g' in
        let failed := fail_count (sl_failed s) in
        Ret (Done (mkSlam optimised (N.ltb 3 failed) failed false count ms'' g'') (mkAnswer optimised redetect))
      end
    | None =>
      let '(ms', g') := lm_update_no_pose ms (sl_shared s) in
      let '(ms'', g'') :=
        if sl_lost s && po_pos_cov_valid ops predicted
        then result_state (lm_add_all (po_ctx ops predicted) true dets ms' g') else (ms', g') in
      let failed := if sl_first s then sl_failed s else fail_count (sl_failed s) in
      let lost := if sl_first s then sl_lost s else N.ltb 3 failed in
      Ret (Done (mkSlam predicted lost failed false count ms'' g'') (mkAnswer predicted redetect))
    end.

(** calls of [track] on a sequence of frames; [None] after an exit *)
Fixpoint sl_run (fs : list frame) (s : slam) : outcome (option (slam * list answer)) :=
  match fs with
  | [] => Ret (Some (s, []))
  | f :: fs' =>
    let* r := sl_step f s in
    match r with
    | Exited => Ret None
    | Done s' a =>
      let* r' := sl_run fs' s' in
      Ret (match r' with Some (s'', l) => Some (s'', a :: l) | None => None end)
    end
  end.

End Slam.
Arguments pose_ops Ctx View P : clear implicits.
Arguments frame D Det Ctx View Mt U P : clear implicits.
Arguments slam D Det Ctx View Mt U P : clear implicits.
Arguments answer P : clear implicits.
Arguments step_result D Det Ctx View Mt U P : clear implicits.

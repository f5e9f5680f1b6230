(** Vocabulary of the tracking properties: what was observed at each frame of
    a tracking session. Nothing here is used by the model. *)
From Verif Require Import FeatureMapModel LocalMapModel SlamModel.
Local Open Scope N_scope.

Section Spec.
Context {D Det Ctx View Mt U P : Type}.
Notation slam := (slam D Det Ctx View Mt U P).
Notation frame := (frame D Det Ctx View Mt U P).
Variable ops : pose_ops Ctx View P.

(** the detections, and the result of the matching, of frame [f] in state [s] *)
Definition frame_detections (f : frame) (s : slam) : nat -> list Det :=
  fr_detect f (sl_pose s) (sl_maps s) (sl_lost s || N.eqb (sl_count s mod 5 + 1) 1).
Definition frame_matches (f : frame) (s : slam) :=
  lm_find (po_view ops (sl_pose s)) (frame_detections f s) (sl_maps s).

(** the answer of the pose optimiser; it is not asked on the first frame *)
Definition optimised_pose (f : frame) (s : slam) : option P :=
  if sl_first s then None
  else match frame_matches f s with
       | Ret (_, mt) => match fr_optimise f (sl_pose s) mt with Some (p, _) => Some p | None => None end
       | _ => None
       end.

(** the pose was optimised and the map updated without an exception *)
Definition frame_success (f : frame) (s : slam) : bool :=
  if sl_first s then false
  else match frame_matches f s with
       | Ret (ms, mt) =>
         match fr_optimise f (sl_pose s) mt with
         | Some (p, outliers) =>
           match lm_update (fr_fuel f) (po_ctx ops p) (po_pos_cov_valid ops p) (frame_detections f s) outliers ms (sl_shared s) with
           | Ret (LDone _ _) => true
           | _ => false
           end
         | None => false
         end
       | _ => false
       end.

(** One frame as seen from outside. *)
Record event := mkEvent { ev_optimised : option P; ev_success : bool; ev_answer : answer P }.

(** A tracking session: the frames seen so far, oldest first, and the state
    reached. *)
Inductive session (pols : list (policy D Det Ctx View Mt U)) (start : P) : list event -> slam -> Prop :=
| session_start : session pols start [] (sl_init pols start)
| session_frame : forall evs s f s' a,
    session pols start evs s -> sl_step ops f s = Ret (Done s' a) ->
    session pols start (evs ++ [mkEvent (optimised_pose f s) (frame_success f s) a]) s'.

(** the last optimised pose, or the start pose *)
Definition last_optimised (start : P) (evs : list event) : P :=
  fold_left (fun p e => match ev_optimised e with Some q => q | None => p end) evs start.

(** number of failed frames since the last success *)
Fixpoint failures_rev (l : list event) : N :=
  match l with
  | [] => 0
  | e :: l' => if ev_success e then 0 else 1 + failures_rev l'
  end.
(** ... the first frame, which never computes a pose, not counted *)
Definition failures (evs : list event) : N :=
  match evs with [] => 0 | _ :: evs' => failures_rev (rev evs') end.

(** Lost: before and after the first frame; then after more than three failures
    in a row. *)
Definition lost_after (evs : list event) : bool :=
  match evs with
  | [] => true
  | [_] => true
  | _ => 3 <? failures evs
  end.
End Spec.

(** The local features of a map, with their number of failures in a row *)
Definition ages {D} (m : fmap D) : list (N * N) := map (fun kf => (fst kf, f_failed (snd kf))) m.

(** A map during a frame without a pose: one failure more for every local
    feature; the ones that are now lost, and no other, have left. *)
Definition missed {D Det Ctx View Mt U} (x y : policy D Det Ctx View Mt U * fstate D) : Prop :=
  fst y = fst x /\ s_active (snd y) = s_active (snd x) /\
  ages (s_local (snd y)) =
    if s_active (snd x)
    then filter (fun e => negb (p_is_lost (fst x) (snd e))) (map (fun e => (fst e, snd e + 1)) (ages (s_local (snd x))))
    else ages (s_local (snd x)).

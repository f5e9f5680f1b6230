(** Model of [Local_Map<Maps...>]: the family of feature maps used by the SLAM
    system, with their shared identifier allocator and output writer.
    Source: /repo/src/map_management/local_map.hpp *)
From Verif Require Import FeatureMapModel.

Section LocalMap.
Context {D Det Ctx View Mt U : Type}.
Notation pol_t := (policy D Det Ctx View Mt U).
Notation fstate := (fstate D).

(** The tuple of maps ([_featureMaps], one entry per type of the parameter pack,
    local_map.hpp:20 and 'foreach_map'), each with the virtual functions of its
    kind. *)
Definition lmaps := list (pol_t * fstate).

(** Result of an operation that may throw after having changed the maps. *)
Inductive lresult :=
| LDone (ms : lmaps) (g : shared)
| LThrow (ms : lmaps) (g : shared).

(** detected features of each kind: [get_detected_feature], feature_map.hpp:260 *)
Definition detections := nat -> list Det.

(** [find_feature_matches], local_map.hpp:78-100: the matches of all kinds *)
Fixpoint lm_find (v : View) (dets : detections) (ms : lmaps) : outcome (lmaps * list Mt) :=
  match ms with
  | [] => Ret ([], [])
  | (p, s) :: ms' =>
    let* (s', mt) := get_matches p v (p_min_features p) (dets (p_kind p)) s in
    let* (r, mt') := lm_find v dets ms' in
    Ret ((p, s') :: r, mt ++ mt')
  end.

(** [mark_outliers_as_unmatched] of all maps, local_map.hpp:122; an outlier is a
    (kind, map identifier, detection index) triple *)
Fixpoint lm_mark (outl : list (nat * (N * nat))) (ms : lmaps) : outcome lmaps :=
  match ms with
  | [] => Ret []
  | (p, s) :: ms' =>
    let mine := map snd (filter (fun o => Nat.eqb (fst o) (p_kind p)) outl) in
    let* s' := mark_outliers mine s in
    let* r := lm_mark outl ms' in
    Ret ((p, s') :: r)
  end.

(** first loop of [update], local_map.hpp:128-137 *)
Fixpoint lm_update_maps (fuel : nat) (c : Ctx) (dets : detections) (ms : lmaps) (g : shared)
  : outcome (lmaps * shared) :=
  match ms with
  | [] => Ret ([], g)
  | (p, s) :: ms' =>
    let* r := update_map p fuel c true (dets (p_kind p)) s g in
    match r with
    | MThrow => Ret ((p, s) :: ms', g)   (* not reached: the covariance is valid *)
    | MDone s1 g1 used =>
      match add_features_to_staged_map p c true (dets (p_kind p)) used s1 g1 with
      | None => Ret ((p, s1) :: ms', g1)  (* not reached *)
      | Some (s2, g2) =>
        let* (r', g') := lm_update_maps fuel c dets ms' g2 in
        Ret ((p, s2) :: r', g')
      end
    end
  end.

(** inner loop of the upgrades, local_map.hpp:144-149; true: an exception left
    the loop *)
Fixpoint lm_add_upgraded (us : list (U * list nat)) (ms : lmaps) (g : shared) : lmaps * shared * bool :=
  match ms with
  | [] => ([], g, false)
  | (p, s) :: ms' =>
    let '(s', g', b) := add_upgraded_features p us s g in
    if b then ((p, s') :: ms', g', true)
    else let '(r, g'', b') := lm_add_upgraded us ms' g' in ((p, s') :: r, g'', b')
  end.

(** second loop of [update], local_map.hpp:140-156: for each map in turn, its
    upgraded features are added to every map. [done] are the maps before. *)
Fixpoint lm_upgrade (n : nat) (i : nat) (c : Ctx) (ms : lmaps) (g : shared) : lmaps * shared * bool :=
  match n with
  | O => (ms, g, false)
  | S n' =>
    match nth_error ms i with
    | None => (ms, g, false)
    | Some (p, s) =>
      let '(s', us) := get_upgraded_features p c s in
      let ms1 := firstn i ms ++ (p, s') :: skipn (S i) ms in
      let '(ms2, g2, b) := lm_add_upgraded us ms1 g in
      if b then (ms2, g2, true) else lm_upgrade n' (S i) c ms2 g2
    end
  end.

(** [update], local_map.hpp:110-162 *)
Definition lm_update (fuel : nat) (c : Ctx) (covOk : bool) (dets : detections)
           (outl : list (nat * (N * nat))) (ms : lmaps) (g : shared) : outcome lresult :=
  if negb covOk then Ret (LThrow ms g)
  else
    let* ms1 := lm_mark outl ms in
    let* (ms2, g2) := lm_update_maps fuel c dets ms1 g in
    let '(ms3, g3, b) := lm_upgrade (length ms2) 0 c ms2 g2 in
    Ret (if b then LThrow ms3 g3 else LDone ms3 g3).

(** [update_no_pose], local_map.hpp:167-173 *)
Fixpoint lm_update_no_pose (ms : lmaps) (g : shared) : lmaps * shared :=
  match ms with
  | [] => ([], g)
  | (p, s) :: ms' =>
    let '(s', g') := update_with_no_tracking p s g in
    let '(r, g'') := lm_update_no_pose ms' g' in
    ((p, s') :: r, g'')
  end.

(** loop of [add_all_features_to_map], local_map.hpp:193-195 *)
Fixpoint lm_add_loop (c : Ctx) (dets : detections) (ms : lmaps) (g : shared) : lmaps * shared :=
  match ms with
  | [] => ([], g)
  | (p, s) :: ms' =>
    match add_all_features_to_staged_map p c true (dets (p_kind p)) s g with
    | None => ((p, s) :: ms', g)  (* not reached: the covariance is valid *)
    | Some (s', g') => let '(r, g'') := lm_add_loop c dets ms' g' in ((p, s') :: r, g'')
    end
  end.

(** [add_all_features_to_map], local_map.hpp:181-199 *)
Definition lm_add_all (c : Ctx) (covOk : bool) (dets : detections) (ms : lmaps) (g : shared) : lresult :=
  if negb covOk then LThrow ms g
  else let '(ms', g') := lm_add_loop c dets ms g in LDone ms' g'.

(** [reset], local_map.hpp:204-209 *)
Definition lm_reset (ms : lmaps) : lmaps := map (fun ps => (fst ps, reset (snd ps))) ms.

(** [~Local_Map], local_map.hpp:35-40 *)
Definition lm_destroy (ms : lmaps) (g : shared) : shared :=
  fold_left (fun acc ps => destroy (snd ps) acc) ms g.

End LocalMap.
Arguments lmaps D Det Ctx View Mt U : clear implicits.
Arguments lresult D Det Ctx View Mt U : clear implicits.

(** The operations of [Local_Map] called once per frame by [RGBD_SLAM]
    (rgbd_slam.cpp:163-259), as a machine; an exception leaves the maps as they
    are at that moment. *)
Inductive lop (Det Ctx View : Type) :=
| LFind (v : View) (dets : nat -> list Det)
| LUpdate (c : Ctx) (covOk : bool) (dets : nat -> list Det) (outl : list (nat * (N * nat)))
| LNoPose
| LAddAll (c : Ctx) (covOk : bool) (dets : nat -> list Det)
| LReset.
Arguments LFind {Det Ctx View} v dets.
Arguments LUpdate {Det Ctx View} c covOk dets outl.
Arguments LNoPose {Det Ctx View}.
Arguments LAddAll {Det Ctx View} c covOk dets.
Arguments LReset {Det Ctx View}.

Definition result_state {D Det Ctx View Mt U} (r : lresult D Det Ctx View Mt U) : lmaps D Det Ctx View Mt U * shared :=
  match r with LDone ms g => (ms, g) | LThrow ms g => (ms, g) end.

Definition lexec {D Det Ctx View Mt U} (fuel : nat) (o : lop Det Ctx View)
           (x : lmaps D Det Ctx View Mt U * shared) : outcome (lmaps D Det Ctx View Mt U * shared) :=
  let (ms, g) := x in
  match o with
  | LFind v dets => let* (ms', _) := lm_find v dets ms in Ret (ms', g)
  | LUpdate c covOk dets outl => let* r := lm_update fuel c covOk dets outl ms g in Ret (result_state r)
  | LNoPose => Ret (lm_update_no_pose ms g)
  | LAddAll c covOk dets => Ret (result_state (lm_add_all c covOk dets ms g))
  | LReset => Ret (lm_reset ms, g)
  end.

(** Model of the feature map: identifier allocation, feature counters, staged
    and local maps, and the operations of [Feature_Map].
    Source: /repo/src/map_management/feature_map.hpp (969 lines). *)
From Coq Require Export List Arith ZArith NArith Lia Bool.
Export ListNotations.

(** ** Outcomes
    [Ret] is a normal return, [UB] an access the C++ code performs outside of
    its container (undefined behaviour, or an [assert] in debug builds),
    [Diverge] exhaustion of the fuel given to a C++ [while] loop. *)
Inductive outcome (A : Type) : Type :=
| Ret (a : A)
| UB
| Diverge.
Arguments Ret {A} a.
Arguments UB {A}.
Arguments Diverge {A}.

Definition bind {A B} (x : outcome A) (f : A -> outcome B) : outcome B :=
  match x with Ret a => f a | UB => UB | Diverge => Diverge end.
Notation "'let*' p ':=' x 'in' y" :=
  (bind x (fun p => y)) (at level 61, p pattern, x at next level, right associativity).

(** ** Identifier allocation — feature_map.hpp:24-37 *)
Definition size_t_mod : N := 2 ^ 64.

(** [MapIdAllocator::get_new_id], feature_map.hpp:29-33: the stored value
    becomes [max(_idAllocator + 1, 1)] with [size_t] wrap-around, and is
    returned. *)
Definition get_new_id (a : N) : N := N.max ((a + 1) mod size_t_mod) 1.

(** [MapIdAllocator::invalidId], feature_map.hpp:27 *)
Definition invalidId : N := 0.

Section FeatureMap.
(** [D]: payload of a map feature (coordinates, covariance, descriptor,
    polygon...). [Det]: a detected feature. [Ctx]: the optimised pose and its
    covariance, given to updates. [View]: the predicted world-to-camera matrix,
    given to matching. [Mt]: an optimisation feature (match) object. [U]: the
    payload of an upgraded feature. *)
Context {D Det Ctx View Mt U : Type}.

(** [IMapFeature] members, feature_map.hpp:168-171.
    [_successivMatchedCount] is an [int] modelled as [Z] (no overflow),
    [_failedTrackingCount] a [size_t] modelled as [N] (no overflow),
    [_matchIndexes] an [unordered_set] modelled as the list of its elements. *)
Record feat := mkFeat {
  f_id : N;
  f_failed : N;
  f_succ : Z;
  f_matches : list nat;
  f_data : D
}.

(** Result of running a feature constructor that may throw. [CThrow b]: the
    constructor threw; [b] tells whether the base class had already drawn an
    identifier (feature_map.hpp:45). *)
Inductive ctor_result :=
| COk (d : D)
| CThrow (idConsumed : bool).

(** The virtual functions of a feature kind, as oracles: the theorems hold for
    every choice of these functions. *)
Record policy := mkPolicy {
  (** [should_add_to_local_map] / [should_remove_from_staged] of the staged
      class and [is_lost] of the local class: functions of the counters for
      every kind of the code base. *)
  p_should_add : N -> Z -> bool;
  p_should_remove : N -> Z -> bool;
  p_is_lost : N -> bool;
  (** [is_moving] *)
  p_moving : D -> bool;
  (** [is_visible] *)
  p_visible : View -> D -> bool;
  (** [find_matches(detected, view, flags, matches, shouldAdd, advanced)]:
      returned index set, and objects pushed to [matches]. *)
  p_find : View -> bool -> bool -> list Det -> feat -> list bool -> list nat * list Mt;
  (** [update_with_match]: new payload and success flag. *)
  p_update : Ctx -> D -> Det -> D * bool;
  (** [StagedFeatureType::can_add_to_map] and its constructor *)
  p_can_add : Det -> bool;
  p_mk_staged : Ctx -> Det -> ctor_result;
  (** [MapFeatureType(stagedFeature)]: [None] when the constructor throws *)
  p_mk_local : D -> option D;
  (** [compute_upgraded]: [Some u] when it returned true with a non-null object *)
  p_upgrade : Ctx -> feat -> option U;
  (** [get_feature_type], as a number *)
  p_kind : nat;
  (** [minimum_features_for_opti] *)
  p_min_features : nat;
  (** [add_upgraded_to_local_map], guarded by the type test of
      [add_upgraded_features] (feature_map.hpp:615): [None] when the upgraded
      feature is not of this kind or when this kind only logs
      (map_point2d.hpp:174-182, map_primitive.hpp:164-172); otherwise the result
      of the local feature constructor *)
  p_mk_upgraded : U -> option ctor_result
}.

Definition set_matches (m : list nat) (f : feat) : feat :=
  mkFeat (f_id f) (f_failed f) (f_succ f) m (f_data f).
Definition set_data (d : D) (f : feat) : feat :=
  mkFeat (f_id f) (f_failed f) (f_succ f) (f_matches f) d.

(** [is_matched], feature_map.hpp:85 *)
Definition is_matched (f : feat) : bool :=
  match f_matches f with [] => false | _ :: _ => true end.

(** [mark_unmatched()], feature_map.hpp:90 *)
Definition mark_unmatched (f : feat) : feat := set_matches [] f.

(** [mark_unmatched(id)], feature_map.hpp:91 *)
Definition mark_unmatched_id (i : nat) (f : feat) : feat :=
  set_matches (filter (fun j => negb (Nat.eqb i j)) (f_matches f)) f.

(** [mark_matched], feature_map.hpp:97 *)
Definition mark_matched (m : list nat) (f : feat) : feat := set_matches m f.

(** [update_matched], feature_map.hpp:112-117 *)
Definition update_matched (f : feat) : feat :=
  mkFeat (f_id f) 0 (f_succ f + 1) (f_matches f) (f_data f).

(** [update_unmatched], feature_map.hpp:122-129; [update_no_match] does nothing
    for every kind (map_point.cpp:242-245, map_point2d.cpp:262-265,
    map_primitive.cpp:253-256). *)
Definition update_unmatched (f : feat) : feat :=
  mkFeat (f_id f) (f_failed f + 1) (f_succ f - 1) [] (f_data f).

(** [_localMap] / [_stagedMap]: [unordered_map<size_t, Feature>]
    (feature_map.hpp:238-239,963-964). Modelled by the list of their
    (key, feature) pairs in iteration order; the iteration order of an
    unordered map is unspecified, see [Rehash] below. *)
Definition fmap := list (N * feat).

Fixpoint lookup (k : N) (m : fmap) : option feat :=
  match m with
  | [] => None
  | (k', f) :: m' => if N.eqb k k' then Some f else lookup k m'
  end.

(** [unordered_map::emplace]: no effect when the key is already present. *)
Definition emplace (k : N) (f : feat) (m : fmap) : fmap :=
  match lookup k m with Some _ => m | None => m ++ [(k, f)] end.

(** assignment through an iterator found with [find] *)
Fixpoint modify (k : N) (g : feat -> feat) (m : fmap) : fmap :=
  match m with
  | [] => []
  | (k', f) :: m' => if N.eqb k k' then (k', g f) :: m' else (k', f) :: modify k g m'
  end.

(** State of one [Feature_Map] (feature_map.hpp:961-965). *)
Record fstate := mkFState {
  s_active : bool;
  s_local : fmap;
  s_staged : fmap;
  s_flags : list bool
}.

(** State shared by all maps: the identifier allocator, a ghost count of
    [get_new_id] calls (used only to state the absence of wrap-around) and the
    output trace: identifiers for which [write_to_file] was called, in order. *)
Record shared := mkShared {
  g_alloc : N;
  g_allocs : N;
  g_out : list N
}.

(** drawing an identifier, feature_map.hpp:29-33,45 *)
Definition draw_id (g : shared) : N * shared :=
  let i := get_new_id (g_alloc g) in
  (i, mkShared i (g_allocs g + 1) (g_out g)).

(** [write_to_file] of a feature *)
Definition write (i : N) (g : shared) : shared :=
  mkShared (g_alloc g) (g_allocs g) (g_out g ++ [i]).

Variable pol : policy.

(** *** Matching *)

(** [flags[i] = b] ; out of range is UB (Eigen vector access) *)
Fixpoint set_flag (i : nat) (b : bool) (l : list bool) : option (list bool) :=
  match l, i with
  | [], _ => None
  | _ :: l', O => Some (b :: l')
  | x :: l', S i' => match set_flag i' b l' with Some r => Some (x :: r) | None => None end
  end.

Fixpoint set_flags (is : list nat) (b : bool) (l : list bool) : outcome (list bool) :=
  match is with
  | [] => Ret l
  | i :: is' => match set_flag i b l with Some l' => set_flags is' b l' | None => UB end
  end.

(** One of the two loops of the protected [get_matches],
    feature_map.hpp:652-669 (local) and 677-698 (staged). *)
Fixpoint match_loop (v : View) (adv add : bool) (dets : list Det) (m : fmap)
         (flags : list bool) (matches : list Mt) : outcome (fmap * list bool * list Mt) :=
  match m with
  | [] => Ret ([], flags, matches)
  | (k, f0) :: m' =>
    let f := mark_unmatched f0 in
    if p_moving pol (f_data f) || negb (p_visible pol v (f_data f))
    then let* (r, fl, mt) := match_loop v adv add dets m' flags matches in
         Ret ((k, f) :: r, fl, mt)
    else
      let '(idx, pushed) := p_find pol v adv add dets f flags in
      match idx with
      | [] => let* (r, fl, mt) := match_loop v adv add dets m' flags (matches ++ pushed) in
              Ret ((k, f) :: r, fl, mt)
      | _ :: _ =>
        let* flags' := set_flags idx true flags in
        let* (r, fl, mt) := match_loop v adv add dets m' flags' (matches ++ pushed) in
        Ret ((k, mark_matched idx f) :: r, fl, mt)
      end
  end.

(** protected [get_matches], feature_map.hpp:638-699. [matches] is an out
    parameter that the function clears (649) unless the map is deactivated. *)
Definition get_matches_pass (v : View) (adv : bool) (minFeatures : nat) (dets : list Det)
           (matches0 : list Mt) (s : fstate) : outcome (fstate * list Mt) :=
  if negb (s_active s) then Ret (s, matches0)
  else
    let flags := repeat false (length dets) in
    let* (loc, fl1, mt1) := match_loop v adv true dets (s_local s) flags [] in
    let useStaged := length mt1 <? minFeatures * 3 in
    let* (stg, fl2, mt2) := match_loop v adv useStaged dets (s_staged s) fl1 mt1 in
    Ret (mkFState (s_active s) loc stg fl2, mt2).

(** public [get_matches], feature_map.hpp:308-326; the result is merged into
    the caller's list (325; [std::list::merge], which interleaves: see GatherModel). *)
Definition get_matches (v : View) (minFeatures : nat) (dets : list Det) (s : fstate)
  : outcome (fstate * list Mt) :=
  let* (s1, mt1) := get_matches_pass v false minFeatures dets [] s in
  if length mt1 <? minFeatures
  then get_matches_pass v true minFeatures dets mt1 s1
  else Ret (s1, mt1).

(** *** Updates with a pose *)

(** inner [for] loop over [_matchIndexes], feature_map.hpp:719-741 and 783-798:
    every index is used to update the feature. Returns the payload, whether one
    update succeeded, and the indexes of the successful updates. *)
Fixpoint apply_matches (c : Ctx) (dets : list Det) (is : list nat) (d : D) (ok : bool)
         (used : list nat) : outcome (D * bool * list nat) :=
  match is with
  | [] => Ret (d, ok, used)
  | i :: is' =>
    match nth_error dets i with
    | None => UB
    | Some det =>
      let '(d', res) := p_update pol c d det in
      apply_matches c dets is' d' (ok || res) (if res then used ++ [i] else used)
    end
  end.

(** body of the two loops up to the counters update: feature_map.hpp:716-746
    and 780-803 *)
Definition update_one (c : Ctx) (dets : list Det) (f : feat)
  : outcome (feat * list nat) :=
  let* (d, ok, used) := apply_matches c dets (f_matches f) (f_data f) false [] in
  let f1 := set_data d f in
  Ret (if ok then update_matched f1 else update_unmatched f1, used).

(** [update_local_map], feature_map.hpp:701-765 (the covariance check 706-707 is
    done in [update_map]). Returns the remaining features, the used indexes and
    the written identifiers in order. *)
Fixpoint update_local_map (c : Ctx) (dets : list Det) (m : fmap) (g : shared)
  : outcome (fmap * list nat * shared) :=
  match m with
  | [] => Ret ([], [], g)
  | (k, f0) :: m' =>
    let* (f, used) := update_one c dets f0 in
    if p_is_lost pol (f_failed f)
    then
      let g' := if p_moving pol (f_data f) then g else write (f_id f) g in
      let* (r, us, g'') := update_local_map c dets m' g' in
      Ret (r, used ++ us, g'')
    else
      let* (r, us, g'') := update_local_map c dets m' g in
      Ret ((k, f) :: r, used ++ us, g'')
  end.

(** local feature built from a staged one: map_point.cpp:280-288,
    map_point2d.cpp:298-305, map_primitive.cpp:294-314: same identifier, same
    match indexes, same success count, failed count back to its initial 0. *)
Definition promoted (f : feat) (d : D) : feat :=
  mkFeat (f_id f) 0 (f_succ f) (f_matches f) d.

(** [update_staged_map], feature_map.hpp:767-833. The [while] loop needs fuel
    because the [catch] branch (814-819) does not advance the iterator: the
    same feature is then processed again. Every matched index is reported as
    used, even after a failed update (797). *)
Fixpoint update_staged_map (fuel : nat) (c : Ctx) (dets : list Det) (m : fmap) (loc : fmap)
  : outcome (fmap * fmap * list nat) :=
  match m with
  | [] => Ret ([], loc, [])
  | (k, f0) :: m' =>
    match fuel with
    | O => Diverge
    | S fuel' =>
      let* (f, _) := update_one c dets f0 in
      let used := f_matches f0 in
      if p_should_add pol (f_failed f) (f_succ f)
      then
        match p_mk_local pol (f_data f) with
        | Some d =>
          let* (r, loc', us) := update_staged_map fuel' c dets m' (emplace (f_id f) (promoted f d) loc) in
          Ret (r, loc', used ++ us)
        | None =>
          let* (r, loc', us) := update_staged_map fuel' c dets ((k, f) :: m') loc in
          Ret (r, loc', used ++ us)
        end
      else if p_should_remove pol (f_failed f) (f_succ f)
      then
        let* (r, loc', us) := update_staged_map fuel' c dets m' loc in
        Ret (r, loc', used ++ us)
      else
        let* (r, loc', us) := update_staged_map fuel' c dets m' loc in
        Ret ((k, f) :: r, loc', used ++ us)
    end
  end.

(** Result of [update_map]: the exception leaves the state unchanged. *)
Inductive map_result :=
| MDone (s : fstate) (g : shared) (used : list nat)
| MThrow.

(** [update_map], feature_map.hpp:367-385. [covOk] is
    [utils::is_covariance_valid(poseCovariance)]. *)
Definition update_map (fuel : nat) (c : Ctx) (covOk : bool) (dets : list Det)
           (s : fstate) (g : shared) : outcome map_result :=
  if negb (s_active s) then Ret (MDone s g [])
  else if negb covOk then Ret MThrow
  else
    let* (loc, used1, g1) := update_local_map c dets (s_local s) g in
    let* (stg, loc', used2) := update_staged_map fuel c dets (s_staged s) loc in
    Ret (MDone (mkFState (s_active s) loc' stg (s_flags s)) g1 (used1 ++ used2)).

(** *** Updates without a pose *)

(** [update_local_map_with_no_tracking], feature_map.hpp:835-859: lost features
    are written whether they move or not (849). *)
Fixpoint update_local_no_tracking (m : fmap) (g : shared) : fmap * shared :=
  match m with
  | [] => ([], g)
  | (k, f0) :: m' =>
    let f := update_unmatched f0 in
    if p_is_lost pol (f_failed f)
    then update_local_no_tracking m' (write (f_id f) g)
    else let '(r, g') := update_local_no_tracking m' g in ((k, f) :: r, g')
  end.

(** [update_staged_map_with_no_tracking], feature_map.hpp:861-881 *)
Fixpoint update_staged_no_tracking (m : fmap) : fmap :=
  match m with
  | [] => []
  | (k, f0) :: m' =>
    let f := update_unmatched f0 in
    if p_should_remove pol (f_failed f) (f_succ f)
    then update_staged_no_tracking m'
    else (k, f) :: update_staged_no_tracking m'
  end.

(** [update_with_no_tracking], feature_map.hpp:391-399 *)
Definition update_with_no_tracking (s : fstate) (g : shared) : fstate * shared :=
  if negb (s_active s) then (s, g)
  else
    let '(loc, g1) := update_local_no_tracking (s_local s) g in
    (mkFState (s_active s) loc (update_staged_no_tracking (s_staged s)) (s_flags s), g1).

(** *** Additions *)

(** a fresh staged feature: counters at their initial values
    (feature_map.hpp:168-171), no match *)
Definition fresh_feat (i : N) (d : D) : feat := mkFeat i 0 0 [] d.

(** [add_detected_feature_to_staged_map], feature_map.hpp:407-428 *)
Definition add_detected (c : Ctx) (det : Det) (stg : fmap) (g : shared) : fmap * shared :=
  if p_can_add pol det
  then match p_mk_staged pol c det with
       | COk d => let '(i, g') := draw_id g in (emplace i (fresh_feat i d) stg, g')
       | CThrow true => let '(_, g') := draw_id g in (stg, g')
       | CThrow false => (stg, g)
       end
  else (stg, g).

(** loop of [add_features_to_staged_map], feature_map.hpp:454-463 *)
Fixpoint add_features (c : Ctx) (i : nat) (dets : list Det) (used : list nat) (stg : fmap) (g : shared)
  : fmap * shared :=
  match dets with
  | [] => (stg, g)
  | det :: dets' =>
    if existsb (Nat.eqb i) used then add_features c (S i) dets' used stg g
    else let '(stg', g') := add_detected c det stg g in add_features c (S i) dets' used stg' g'
  end.

(** [add_features_to_staged_map], feature_map.hpp:437-464. [None]: exception
    for an invalid covariance (nothing changed). *)
Definition add_features_to_staged_map (c : Ctx) (covOk : bool) (dets : list Det) (used : list nat)
           (s : fstate) (g : shared) : option (fstate * shared) :=
  if negb (s_active s) then Some (s, g)
  else if negb covOk then None
  else
    let '(stg, g') := add_features c 0 dets used (s_staged s) g in
    Some (mkFState (s_active s) (s_local s) stg (s_flags s), g').

(** [add_all_features_to_staged_map], feature_map.hpp:472-478 *)
Definition add_all_features_to_staged_map (c : Ctx) (covOk : bool) (dets : list Det) (s : fstate) (g : shared) :=
  add_features_to_staged_map c covOk dets [] s g.

(** *** Outliers *)

(** [mark_feature_with_id_as_unmatched], feature_map.hpp:509-552 *)
Definition mark_feature_with_id_as_unmatched (id : N) (det : nat) (s : fstate)
  : outcome (fstate * bool) :=
  if negb (s_active s) then Ret (s, false)
  else if N.eqb id invalidId then Ret (s, false)
  else
    match lookup id (s_local s) with
    | Some f =>
      if is_matched f
      then let* fl := set_flags [det] false (s_flags s) in
           Ret (mkFState (s_active s) (modify id (mark_unmatched_id det) (s_local s)) (s_staged s) fl, true)
      else Ret (s, true)
    | None =>
      match lookup id (s_staged s) with
      | Some f =>
        if is_matched f
        then let* fl := set_flags [det] false (s_flags s) in
             Ret (mkFState (s_active s) (s_local s) (modify id (mark_unmatched_id det) (s_staged s)) fl, true)
        else Ret (s, true)
      | None => Ret (s, false)
      end
    end.

(** [mark_outliers_as_unmatched], feature_map.hpp:483-501, restricted to the
    outliers of this map's kind (488). *)
Fixpoint mark_outliers (outl : list (N * nat)) (s : fstate) : outcome fstate :=
  match outl with
  | [] => Ret s
  | (id, det) :: outl' =>
    let* (s', _) := mark_feature_with_id_as_unmatched id det s in mark_outliers outl' s'
  end.

(** *** Upgrades *)

(** loops of [get_upgraded_map_features] and [get_upgraded_staged_features],
    feature_map.hpp:883-946 *)
Fixpoint upgrade_loop (c : Ctx) (m : fmap) : fmap * list (U * list nat) :=
  match m with
  | [] => ([], [])
  | (k, f) :: m' =>
    let '(r, us) := upgrade_loop c m' in
    match p_upgrade pol c f with
    | Some u => (r, (u, f_matches f) :: us)
    | None => ((k, f) :: r, us)
    end
  end.

(** [get_upgraded_features], feature_map.hpp:596-603 (not guarded by
    [_isActivated]) *)
Definition get_upgraded_features (c : Ctx) (s : fstate) : fstate * list (U * list nat) :=
  let '(loc, u1) := upgrade_loop c (s_local s) in
  let '(stg, u2) := upgrade_loop c (s_staged s) in
  (mkFState (s_active s) loc stg (s_flags s), u1 ++ u2).

(** [add_to_local_map], feature_map.hpp:948-959 *)
Definition add_to_local_map (f : feat) (loc : fmap) : fmap :=
  match lookup (f_id f) loc with Some _ => loc | None => loc ++ [(f_id f, f)] end.

(** [add_upgraded_features], feature_map.hpp:609-622, with
    [add_upgraded_to_local_map] of the point map, map_point.hpp:178-192, and
    the upgraded constructor map_point.cpp:290-301: a new identifier, the match
    indexes of the upgraded feature, a success count of 1. The boolean is true
    when a constructor threw: the exception is not caught here and the
    remaining upgraded features are not added. Not guarded by [_isActivated]. *)
Fixpoint add_upgraded_features (us : list (U * list nat)) (s : fstate) (g : shared)
  : fstate * shared * bool :=
  match us with
  | [] => (s, g, false)
  | (u, m) :: us' =>
    match p_mk_upgraded pol u with
    | None => add_upgraded_features us' s g
    | Some (COk d) =>
      let '(i, g') := draw_id g in
      add_upgraded_features us'
        (mkFState (s_active s) (add_to_local_map (mkFeat i 0 1 m d) (s_local s)) (s_staged s) (s_flags s)) g'
    | Some (CThrow true) => (s, snd (draw_id g), true)
    | Some (CThrow false) => (s, g, true)
    end
  end.

(** *** Life cycle *)

(** [reset], feature_map.hpp:276-283 *)
Definition reset (s : fstate) : fstate :=
  if negb (s_active s) then s else mkFState (s_active s) [] [] (s_flags s).

(** [destroy], feature_map.hpp:288-298 *)
Definition destroy (s : fstate) (g : shared) : shared :=
  if negb (s_active s) then g
  else fold_left (fun acc kf => write (f_id (snd kf)) acc) (s_local s) g.

(** [deactivate], feature_map.hpp:587 *)
Definition deactivate (s : fstate) : fstate := mkFState false (s_local s) (s_staged s) (s_flags s).

(** initial state: feature_map.hpp:242, 36 *)
Definition init : fstate := mkFState true [] [] [].
Definition init_shared : shared := mkShared invalidId 0 [].

(** *** The operations of one [Feature_Map], as a machine
    [destroy] is the last operation of a map and is kept apart. A thrown
    exception of [update_map] and [add_features_to_staged_map] leaves the state
    as it was (feature_map.hpp:375-376, 445-447). *)
Inductive fop : Type :=
| FMatch (v : View) (dets : list Det)
| FUpdate (c : Ctx) (covOk : bool) (dets : list Det)
| FNoTracking
| FAdd (c : Ctx) (covOk : bool) (dets : list Det) (used : list nat)
| FOutliers (outl : list (N * nat))
| FUpgradeOut (c : Ctx)
| FUpgradeIn (us : list (U * list nat))
| FReset
| FDeactivate.

Definition fexec (fuel : nat) (o : fop) (s : fstate) (g : shared) : outcome (fstate * shared) :=
  match o with
  | FMatch v dets => let* (s', _) := get_matches v (p_min_features pol) dets s in Ret (s', g)
  | FUpdate c covOk dets =>
    let* r := update_map fuel c covOk dets s g in
    match r with MDone s' g' _ => Ret (s', g') | MThrow => Ret (s, g) end
  | FNoTracking => Ret (update_with_no_tracking s g)
  | FAdd c covOk dets used =>
    match add_features_to_staged_map c covOk dets used s g with Some r => Ret r | None => Ret (s, g) end
  | FOutliers outl => let* s' := mark_outliers outl s in Ret (s', g)
  | FUpgradeOut c => Ret (fst (get_upgraded_features c s), g)
  | FUpgradeIn us => let '(s', g', _) := add_upgraded_features us s g in Ret (s', g')
  | FReset => Ret (reset s, g)
  | FDeactivate => Ret (deactivate s, g)
  end.

End FeatureMap.

Arguments feat D : clear implicits.
Arguments fmap D : clear implicits.
Arguments fstate D : clear implicits.
Arguments policy D Det Ctx View Mt U : clear implicits.
Arguments ctor_result D : clear implicits.
Arguments map_result D : clear implicits.
Arguments fop Det Ctx View U : clear implicits.

(** ** The counters policies of the three kinds *)

From Coq Require Import QArith.

(** [std::clamp] *)
Definition qclamp (x lo hi : Q) : Q := if Qle_bool x lo then lo else if Qle_bool hi x then hi else x.

(** parameters.hpp: pointStagedAgeConfidence = 3, pointMinimumConfidenceForMap = 0.9,
    pointUnmatchedCountToLoose = 10, planeUnmatchedCountToLoose = 10 *)
Definition pointStagedAgeConfidence : Z := 3.
Definition pointMinimumConfidenceForMap : Q := 9 # 10.
Definition pointUnmatchedCountToLoose : N := 10.
Definition planeUnmatchedCountToLoose : N := 10.

(** [StagedMapPoint::get_confidence] map_point.cpp:268-274, and the identical
    [StagedMapPoint2D::get_confidence] map_point2d.cpp:286-292 (doubles read as
    rationals) *)
Definition point_confidence (succ : Z) : Q :=
  qclamp (inject_Z succ * / inject_Z pointStagedAgeConfidence) (-1) 1.

(** [should_remove_from_staged], map_point.cpp:260, map_point2d.cpp:278 *)
Definition point_should_remove (failed : N) (succ : Z) : bool :=
  Qle_bool (point_confidence succ) 0.

(** [should_add_to_local_map], map_point.cpp:262-266, map_point2d.cpp:280-284 *)
Definition point_should_add (failed : N) (succ : Z) : bool :=
  negb (Qle_bool (point_confidence succ) pointMinimumConfidenceForMap).

(** [LocalMapPoint::is_lost], map_point.cpp:303-306, map_point2d.cpp:307-310 *)
Definition point_is_lost (failed : N) : bool := N.ltb pointUnmatchedCountToLoose failed.

(** [StagedMapPlane], map_primitive.cpp:286-288 *)
Definition plane_should_remove (failed : N) (succ : Z) : bool := N.leb 2 failed.
Definition plane_should_add (failed : N) (succ : Z) : bool := Z.leb 4 succ.

(** [LocalMapPlane::is_lost], map_primitive.cpp:316-319 *)
Definition plane_is_lost (failed : N) : bool := N.leb planeUnmatchedCountToLoose failed.

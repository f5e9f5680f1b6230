(** Property C85: life of a map feature, from its creation to its promotion. *)
From mathcomp Require Import all_ssreflect all_algebra.
From Verif Require Import FieldRing KalmanModel KalmanSpec KalmanProofs KalmanProps TrackingModel TrackingProps MapUpdateModel.
Import Order.TTheory GRing.Theory Num.Theory.
Set Implicit Arguments.
Unset Strict Implicit.
Unset Printing Implicit Defensive.
Local Open Scope ring_scope.

Section Props.
Variable R : realFieldType.
Variable e : R.
Hypothesis e0 : 0 <= e.
Variables (descriptor : Type) (empty : descriptor -> bool).
Variables (coords : Type) (ch : changes R coords).
Variables (dv av : R).
Hypotheses (dv0 : 0 <= dv) (av0 : 0 <= av).
Notation keypoint := (keypoint R descriptor coords).
Notation pose := (pose R).

(** ** Specification *)

(** A usable observation: the covariance of the camera coordinates is valid, the pixel has a ray *)
Definition usable (k : keypoint) : Prop := covariance (k_camera_covariance k) /\ k_ray k <> None.
(** The descriptor after a history: the last one seen which is not empty *)
Fixpoint last_descriptor (d : descriptor) (l : seq (bool * pose * keypoint)) : descriptor :=
  match l with
  | [::] => d
  | (matched, _, k) :: l => last_descriptor (if matched && ~~ empty (k_descriptor k) then k_descriptor k else d) l
  end.
(** The results expected of a history of updates which all work: success for each match *)
Definition results (l : seq (bool * pose * keypoint)) : seq update_result :=
  [seq if x.1.1 then Success else Failure | x <- l].
Definition all_good (l : seq (bool * pose * keypoint)) : Prop :=
  forall x, List.In x l -> covariance (pose_covariance x.1.2) /\ usable x.2.

Lemma cov_valid n (A : 'M[R]_n) : covariance A -> is_covariance_valid A.
Proof. by move=> C; apply/is_covariance_validP. Qed.

Lemma world_covariance_value (k : keypoint) v : covariance (k_camera_covariance k) -> covariance (pose_covariance v) ->
  world_point_covariance k v = rotation v *m k_camera_covariance k *m (rotation v)^T + pose_covariance v /\
  covariance (world_point_covariance k v).
Proof.
move=> C V; rewrite /world_point_covariance (covariance_propagate _ C); split=> //.
by apply: covariance_add=> //; apply: covariance_prop.
Qed.
Lemma new_idpoint_value (c : coords) (P : 'M[R]_3) : covariance P ->
  exists o, new_idpoint dv av c P = Some o /\ id_coords o = c /\ covariance (id_covariance o) /\ ulsubmx (id_covariance o) = P.
Proof.
move=> C; rewrite /new_idpoint cov_valid //=.
set B := block_mx _ _ _ _.
have CB : covariance B.
  apply: covariance_block=> //; apply: covariance_diag=> i; by case: ifP.
rewrite (cov_valid CB) /=; eexists; split; first by [].
by split=> //; split=> //=; rewrite /B block_mxKul.
Qed.
Lemma new_idpoint_none (c : coords) (P : 'M[R]_3) : ~ covariance P -> new_idpoint dv av c P = None.
Proof. by move=> N; rewrite /new_idpoint; case: (boolP (is_covariance_valid P)) => // /is_covariance_validP. Qed.
Lemma ray_measure_value (k : keypoint) v : covariance (pose_covariance v) -> k_ray k <> None ->
  exists z N, ray_measure ch dv av k v = Some (z, N) /\ covariance N.
Proof.
rewrite /ray_measure; case: (k_ray k) => // c V _.
have [o [-> [_ [CO _]]]] := new_idpoint_value c V.
have [W [-> [CW _]]] := cartesian_covariance_value ch (id_coords o) CO.
by do 2!eexists; split.
Qed.
(** The measure given to the filter *)
Definition measure (k : keypoint) (v : pose) : option ('cV[R]_3 * 'M[R]_3) :=
  if k_depth_valid k then Some (k_world k, world_point_covariance k v) else ray_measure ch dv av k v.
Lemma measure_value (k : keypoint) v : covariance (pose_covariance v) -> usable k ->
  exists z N, measure k v = Some (z, N) /\ covariance N.
Proof.
move=> V [C Hr]; rewrite /measure; case: (k_depth_valid k); last exact: ray_measure_value.
do 2!eexists; split; first by []. exact: (world_covariance_value C V).2.
Qed.

(** ** 3D points *)
Let update := @update_point R e descriptor empty coords ch dv av.

Lemma point_track_value (p : map_point R descriptor) z N d : covariance (point_covariance (mp_point p)) -> covariance N ->
  exists q, point_track e empty p z N d = (MapPoint q (if empty d then mp_descriptor p else d), Success) /\
    covariance (point_covariance q) /\ not_larger (point_covariance q) N /\
    not_larger (point_covariance q) (point_covariance (mp_point p) + ((10%:R ^+ 3)^-1)%:M) /\
    exists r, track_point e (mp_point p) z N = (q, r).
Proof.
move=> C CN; rewrite /point_track; case: (track_point_cases e0 z N C) => [[nC _]|[_ [x [P [-> [V [L1 [L2 _]]]]]]]] //.
rewrite ltNge sqr_norm_ge0 /=; eexists; split; first by [].
by split=> //; split=> //; split=> //; eexists.
Qed.

(** A keypoint which can be added to the map, seen from a pose with a valid covariance, makes a
    staged point at its place. *)
Theorem C85_point_created (v : pose) (k : keypoint) :
  covariance (pose_covariance v) -> usable k -> point_can_add empty k ->
  exists p, staged_point empty v k = Some p /\ coordinates (mp_point p) = k_world k /\
    mp_descriptor p = k_descriptor k /\ moving (mp_point p) = false /\
    point_covariance (mp_point p) = rotation v *m k_camera_covariance k *m (rotation v)^T + pose_covariance v.
Proof.
move=> V [C _] /andP[D _]; have [E W] := world_covariance_value C V.
rewrite /staged_point /build_point (negbTE D) /new_point cov_valid //=.
by eexists; split; first by [].
Qed.
(** One update with a match. *)
Theorem C85_point_update (p : map_point R descriptor) (v : pose) (k : keypoint) :
  covariance (point_covariance (mp_point p)) -> covariance (pose_covariance v) -> usable k ->
  exists p' z N, update p true v k = (p', Success) /\ measure k v = Some (z, N) /\ covariance N /\
    (exists r, track_point e (mp_point p) z N = (mp_point p', r)) /\
    covariance (point_covariance (mp_point p')) /\ not_larger (point_covariance (mp_point p')) N /\
    mp_descriptor p' = if empty (k_descriptor k) then mp_descriptor p else k_descriptor k.
Proof.
move=> C V U; have [z [N [M CN]]] := measure_value V U.
have [q [T [Cq [L1 [L2 L3]]]]] := point_track_value z (k_descriptor k) C CN.
exists (MapPoint q (if empty (k_descriptor k) then mp_descriptor p else k_descriptor k)), z, N.
split; last by do 5!split=> //.
rewrite -T; move: M; rewrite /measure /update /update_point /=; case: (k_depth_valid k).
  by move=> [-> ->].
by move=> ->.
Qed.
(** Over every history, with valid covariances of the poses: every match is used, the program
    never ends, the point stays valid, its descriptor is the last one seen, and it can be
    promoted to the local map as it is. *)
Theorem C85_point_history (v0 : pose) (k0 : keypoint) p l :
  staged_point empty v0 k0 = Some p -> all_good l ->
  let: (p', rs) := updates update p l in
  rs = results l /\ covariance (point_covariance (mp_point p')) /\
  mp_descriptor p' = last_descriptor (k_descriptor k0) l /\
  exists q, local_point empty p' = Some q /\ coordinates (mp_point q) = coordinates (mp_point p') /\
    point_covariance (mp_point q) = point_covariance (mp_point p') /\ mp_descriptor q = mp_descriptor p'.
Proof.
rewrite /staged_point /build_point; case E: (empty (k_descriptor k0)) => //.
rewrite /new_point; case: (boolP (is_covariance_valid _)) => //= /is_covariance_validP C [<-].
set p0 := MapPoint _ _; have : covariance (point_covariance (mp_point p0)) by [].
have : empty (mp_descriptor p0) = false by [].
have -> : k_descriptor k0 = mp_descriptor p0 by [].
elim: l p0 => [|[[m v] k] l IH] {C E} q D C G /=.
  split=> //; split=> //; split=> //; rewrite /local_point /build_point D /new_point cov_valid //=.
  by eexists; split; first by [].
have [V U] : covariance (pose_covariance v) /\ usable k by apply: (G (m, v, k)); left.
have G' : all_good l by move=> x Hx; apply: G; right.
case: m G => G; last first.
  rewrite {1}/update {1}/update_point /=; have := IH q D C G'.
  by case: (updates update q l) => p' rs [-> X]; split.
have [p' [z [N [-> [_ [_ [_ [Cp [_ Dp]]]]]]]]] := C85_point_update C V U.
have D' : empty (mp_descriptor p') = false by rewrite Dp; case: ifP.
have := IH p' D' Cp G'; case: (updates update p' l) => p'' rs [-> [X [Y Z]]].
split=> //; split=> //; split=> //; rewrite Y Dp /=; congr last_descriptor.
by case: (empty _).
Qed.
(** But a keypoint without depth ends the program when the covariance of the pose is invalid. *)
Theorem C85_point_invalid_pose_refuted (p : map_point R descriptor) (v : pose) (k : keypoint) :
  ~ covariance (pose_covariance v) -> k_depth_valid k = false -> update p true v k = (p, Terminates).
Proof.
move=> V D; rewrite /update /update_point D /= /ray_measure; case: (k_ray k) => // c.
by rewrite new_idpoint_none.
Qed.

(** ** 2D points *)
Let update2 := @update_point2d R e descriptor empty coords ch dv av.
Theorem C85_point2d_created (v : pose) (k : keypoint) :
  covariance (pose_covariance v) -> usable k ->
  exists p, staged_point2d dv av v k = Some p /\ Some (id_coords (mp2_point p)) = k_ray k /\
    mp2_descriptor p = k_descriptor k /\ covariance (id_covariance (mp2_point p)) /\
    ulsubmx (id_covariance (mp2_point p)) = pose_covariance v.
Proof.
move=> V [_]; rewrite /staged_point2d; case: (k_ray k) => // c _.
have [o [-> [Ec [C F]]]] := new_idpoint_value c V.
by eexists; split; first by []; rewrite /= Ec.
Qed.
(** One update with a match: the filter is given the measure; the descriptor changes only when
    the update works. *)
Theorem C85_point2d_update (p : map_point2d R descriptor coords) (v : pose) (k : keypoint) :
  covariance (id_covariance (mp2_point p)) -> covariance (pose_covariance v) -> usable k ->
  exists z N u, measure k v = Some (z, N) /\ covariance N /\
    update_with_cartesian e ch (mp2_point p) z N = u /\
    update2 p true v k =
      match u.2 with
      | Updated => (MapPoint2D u.1 (if empty (k_descriptor k) then mp2_descriptor p else k_descriptor k), Success)
      | _ => (MapPoint2D u.1 (mp2_descriptor p), Failure)
      end.
Proof.
move=> C V U; have [z [N [M CN]]] := measure_value V U.
exists z, N; eexists; split=> //; split=> //; split; first by [].
have T : point2d_track e empty ch p z N (k_descriptor k) =
  match (update_with_cartesian e ch (mp2_point p) z N).2 with
  | Updated => (MapPoint2D (update_with_cartesian e ch (mp2_point p) z N).1 (if empty (k_descriptor k) then mp2_descriptor p else k_descriptor k), Success)
  | _ => (MapPoint2D (update_with_cartesian e ch (mp2_point p) z N).1 (mp2_descriptor p), Failure)
  end.
  rewrite /point2d_track; case: (update_cases e0 ch z N C) => [[nC ->]|[_ [W [x [P [_ [_ [_ [_ [_ ]]]]]]]]]] //=.
  by case: (from_jacobian ch _ _) => [J [-> _]|->].
rewrite -T; move: M; rewrite /measure /update2 /update_point2d /=; case: (k_depth_valid k).
  by move=> [-> ->].
by move=> ->.
Qed.
Lemma point2d_track_valid (p : map_point2d R descriptor coords) z N d : covariance (id_covariance (mp2_point p)) ->
  let: (p', r) := point2d_track e empty ch p z N d in
  covariance (id_covariance (mp2_point p')) /\ ulsubmx (id_covariance (mp2_point p')) = ulsubmx (id_covariance (mp2_point p)) /\
  (r = Success \/ r = Failure) /\ (empty (mp2_descriptor p) = false -> empty (mp2_descriptor p') = false).
Proof.
move=> C; rewrite /point2d_track; case: (update_cases e0 ch z N C) => [[nC ->]|[_ [W [x [P [_ [_ [_ [_ [_ ]]]]]]]]]] /=.
  by split=> //; split=> //; split=> //; right.
case: (from_jacobian ch _ _) => [J [-> V]|->] /=.
  split=> //; split; first by rewrite block_mxKul.
  by split; [left|case E: (empty d)].
by split=> //; split=> //; split=> //; right.
Qed.
(** Over every history, even with invalid covariances: the program never ends, the point stays
    valid, keeps the covariance of its first pose, and can be promoted as it is. *)
Theorem C85_point2d_history (v0 : pose) (k0 : keypoint) p l :
  staged_point2d dv av v0 k0 = Some p -> point2d_can_add empty k0 ->
  let: (p', rs) := updates update2 p l in
  (forall r, List.In r rs -> r = Success \/ r = Failure) /\ size rs = size l /\
  covariance (id_covariance (mp2_point p')) /\
  ulsubmx (id_covariance (mp2_point p')) = pose_covariance v0 /\
  empty (mp2_descriptor p') = false /\
  exists q, local_point2d p' = Some q /\ id_coords (mp2_point q) = id_coords (mp2_point p') /\
    id_covariance (mp2_point q) = id_covariance (mp2_point p') /\ mp2_descriptor q = mp2_descriptor p'.
Proof.
rewrite /staged_point2d /point2d_can_add; case: (k_ray k0) => // c.
case: (boolP (is_covariance_valid (pose_covariance v0))) => [/is_covariance_validP V|]; last first.
  by move=> nV; rewrite /new_idpoint nV.
have [o [-> [_ [C F]]]] := new_idpoint_value c V.
move=> [<-] /andP[D _].
set p0 := MapPoint2D _ _; have {C} : covariance (id_covariance (mp2_point p0)) by [].
have {F} : ulsubmx (id_covariance (mp2_point p0)) = pose_covariance v0 by [].
have {D} : empty (mp2_descriptor p0) = false by apply/negbTE.
elim: l p0 => [|[[m v] k] l IH] q D F C /=.
  split=> //; split=> //; split=> //; split=> //; split=> //; rewrite /local_point2d cov_valid //=.
  by eexists; split; first by [].
have : let: (q', r) := update2 q m v k in
  covariance (id_covariance (mp2_point q')) /\ ulsubmx (id_covariance (mp2_point q')) = pose_covariance v0 /\
  (r = Success \/ r = Failure) /\ empty (mp2_descriptor q') = false.
  have T z N : let: (q', r) := point2d_track e empty ch q z N (k_descriptor k) in
    covariance (id_covariance (mp2_point q')) /\ ulsubmx (id_covariance (mp2_point q')) = pose_covariance v0 /\
    (r = Success \/ r = Failure) /\ empty (mp2_descriptor q') = false.
    have := point2d_track_valid z N (k_descriptor k) C; case: point2d_track => q' r [A [B [E G]]].
    by split=> //; split; [rewrite B|split=> //; apply: G].
  rewrite /update2 /update_point2d; case: m => /=; last by split=> //; split=> //; split=> //; right.
  case: (k_depth_valid k); first exact: T.
  by case: (ray_measure _ _ _ _ _) => [[z N]|]; [exact: T|split=> //; split=> //; split=> //; right].
case: (update2 q m v k) => q' r [C' [F' [Hr D']]].
have := IH q' D' F' C'; case: (updates update2 q' l) => p' rs [A [B G]].
by split; [move=> r' [<-//|]; apply: A|split=> //=; rewrite B].
Qed.

(** ** Planes *)
Section Planes.
Variables (polygon detection : Type).
Variable normalise : 'cV[R]_4 -> 'cV[R]_4.
Variable merge : 'cV[R]_4 -> polygon -> detection -> polygon * bool.
Variable to_world_polygon : detection -> polygon.
Variables (null_distance unit_normal : 'cV[R]_4 -> bool).
Variables (jacobian : 'cV[R]_4 -> 'M[R]_(4, 3)) (reduced_jacobian : 'cV[R]_4 -> 'M[R]_(3, 4)).
Notation detected := (detected_plane R detection).
Let staged := @staged_plane R polygon detection to_world_polygon null_distance unit_normal jacobian reduced_jacobian.
Let local := @local_plane R polygon unit_normal.
Let updatep := @update_plane R e polygon detection normalise merge null_distance unit_normal jacobian reduced_jacobian.

(** A usable detection, whose plane goes neither by the camera nor by the origin of the world. *)
Definition usable_plane (d : detected) : Prop :=
  covariance (dp_cloud d) /\ unit_normal (dp_parameters d) /\ unit_normal (dp_world d) /\
  null_distance (dp_parameters d) = false /\ null_distance (dp_world d) = false.

Lemma margin_covariance n : covariance ((margin R)%:M : 'M[R]_n).
Proof. by apply: covariance_scalar; rewrite /margin invr_ge0 exprn_ge0 // ler0n. Qed.
Lemma plane_covariance_value p (C : 'M[R]_3) : covariance C -> null_distance p = false -> unit_normal p ->
  exists W, compute_plane_covariance null_distance unit_normal jacobian p C = Returns W /\ covariance W /\
    W = jacobian p *m C *m (jacobian p)^T + (margin R)%:M.
Proof.
move=> V N U; rewrite /compute_plane_covariance cov_valid //= N U /= (covariance_propagate _ V).
have CW : covariance (jacobian p *m C *m (jacobian p)^T + (margin R)%:M).
  by apply: covariance_add; [apply: covariance_prop|apply: margin_covariance].
by rewrite cov_valid //=; eexists; split; first by [].
Qed.
Lemma reduced_covariance_value p (C : 'M[R]_4) : covariance C -> null_distance p = false -> unit_normal p ->
  exists W, reduced_plane_covariance null_distance unit_normal reduced_jacobian p C = Returns W /\ covariance W /\
    W = reduced_jacobian p *m C *m (reduced_jacobian p)^T + (margin R)%:M.
Proof.
move=> V N U; rewrite /reduced_plane_covariance cov_valid //= N U /= (covariance_propagate _ V).
have CW : covariance (reduced_jacobian p *m C *m (reduced_jacobian p)^T + (margin R)%:M).
  by apply: covariance_add; [apply: covariance_prop|apply: margin_covariance].
by rewrite cov_valid //=; eexists; split; first by [].
Qed.
(** The covariance given to the filter for a usable detection *)
Definition plane_measure (d : detected) (v : pose) : 'M[R]_4 :=
  let C := jacobian (dp_parameters d) *m dp_cloud d *m (jacobian (dp_parameters d))^T + (margin R)%:M in
  let P := reduced_jacobian (dp_parameters d) *m C *m (reduced_jacobian (dp_parameters d))^T + (margin R)%:M in
  let W := rotation v *m P *m (rotation v)^T + pose_covariance v in
  jacobian (dp_world d) *m W *m (jacobian (dp_world d))^T + (margin R)%:M.
Lemma world_plane_value (d : detected) v : usable_plane d -> covariance (pose_covariance v) ->
  exists C, compute_plane_covariance null_distance unit_normal jacobian (dp_parameters d) (dp_cloud d) = Returns C /\
    covariance C /\
    world_plane_covariance null_distance unit_normal jacobian reduced_jacobian d v C = Returns (plane_measure d v) /\
    covariance (plane_measure d v).
Proof.
move=> [CC [U [Uw [N Nw]]]] V.
have [C [-> [VC EC]]] := plane_covariance_value CC N U.
exists C; split=> //; split=> //; rewrite /world_plane_covariance cov_valid //=.
have [P [-> [VP EP]]] := reduced_covariance_value VC N U.
rewrite /= (covariance_propagate _ VP).
have VW : covariance (rotation v *m P *m (rotation v)^T + pose_covariance v).
  by apply: covariance_add=> //; apply: covariance_prop.
rewrite cov_valid //=; have [W [-> [CW EW]]] := plane_covariance_value VW Nw Uw.
by rewrite /plane_measure -EC -EP -EW.
Qed.
(** A usable detection makes a staged plane. *)
Theorem C85_plane_created (v : pose) (d : detected) :
  covariance (pose_covariance v) -> usable_plane d ->
  staged v d = Some (Plane (dp_world d) (plane_measure d v) (to_world_polygon (dp_detection d))) /\
  covariance (plane_measure d v).
Proof.
move=> V U; have [C [E [_ [W CW]]]] := world_plane_value U V.
by rewrite /staged /staged_plane E W /=; case: U => _ [_ [-> _]].
Qed.
(** One update with a match and a usable detection: the parameters become those of the filter,
    and the result only says whether the polygons were merged. *)
Theorem C85_plane_update (p : plane R polygon) (v : pose) (d : detected) :
  covariance (plane_covariance p) -> covariance (pose_covariance v) -> usable_plane d ->
  exists x P, get_new_state e (still 4 (10%:R ^+ 6)^-1) (parameters p) (plane_covariance p) (dp_world d) (plane_measure d v) = Returns (x, P) /\
    covariance P /\ not_larger P (plane_measure d v) /\
    let: (b, merged) := merge (normalise x) (boundary p) (dp_detection d) in
    updatep p true v d = (Plane (normalise x) P b, if merged then Success else Failure).
Proof.
move=> C V U; have [C1 [E [VC [W CW]]]] := world_plane_value U V.
case: (track_plane_cases e0 normalise merge (dp_world d) (plane_measure d v) (dp_detection d) C) => [[nC _]|[_ [x [P [T [CP [_ [L G]]]]]]]] //.
exists x, P; split=> //; split=> //; split=> //.
rewrite /updatep /update_plane /= E cov_valid //= W cov_valid //=.
by rewrite T; case: merge => b [].
Qed.
(** Over every history, even with unusable detections: the program never ends, the covariance
    stays valid, and the plane can be promoted as it is, unless its normal is not unitary. *)
Theorem C85_plane_history (v0 : pose) (d0 : detected) p l :
  staged v0 d0 = Some p ->
  let: (p', rs) := updates updatep p l in
  (forall r, List.In r rs -> r = Success \/ r = Failure) /\ size rs = size l /\
  covariance (plane_covariance p') /\
  (unit_normal (parameters p') -> local p' = Some p').
Proof.
move=> S; have : covariance (plane_covariance p).
  move: S; rewrite /staged /staged_plane; case: compute_plane_covariance => // C.
  rewrite /world_plane_covariance; case: is_covariance_valid => //=; case: reduced_plane_covariance => //= P.
  case: is_covariance_valid => //=; rewrite /compute_plane_covariance; case: is_covariance_valid => //=.
  case: null_distance => //; case: unit_normal => //=; case: (boolP (is_covariance_valid _)) => //= /is_covariance_validP CW.
  by move=> [<-].
elim: l p {S} => [|[[m v] d] l IH] q C /=.
  split=> //; split=> //; split=> //; by move=> U; rewrite /local /local_plane cov_valid //= U.
have : covariance (plane_covariance (updatep q m v d).1) /\ ((updatep q m v d).2 = Success \/ (updatep q m v d).2 = Failure).
  rewrite /updatep /update_plane; case: m => /=; last by split=> //; right.
  case: compute_plane_covariance => [C1||]; try by split=> //; right.
  case: is_covariance_valid => /=; last by split=> //; right.
  case: world_plane_covariance => [W||]; try by split=> //; right.
  case: is_covariance_valid => /=; last by split=> //; right.
  case: (track_plane_cases e0 normalise merge (dp_world d) W (dp_detection d) C) => [[nC ->]|[_ [x [P [-> [CP _]]]]]].
    by split=> //; left.
  by case: merge => b []; split=> //; [left|right].
case: (updatep q m v d) => q' r [C' Hr]; have := IH q' C'; case: (updates updatep q' l) => p' rs [A [B D]].
by split; [move=> r' [<-//|]; apply: A|split=> //=; rewrite B].
Qed.
(** A plane by the origin of the world, or by the camera, is never added nor updated. *)
Theorem C85_plane_by_the_origin_refuted (p : plane R polygon) (matched : bool) (v : pose) (d : detected) :
  null_distance (dp_world d) \/ null_distance (dp_parameters d) ->
  staged v d = None /\ updatep p matched v d = (p, Failure).
Proof.
move=> H; rewrite /staged /staged_plane /updatep /update_plane.
suff A : forall C, compute_plane_covariance null_distance unit_normal jacobian (dp_parameters d) (dp_cloud d) = Returns C ->
  forall W, world_plane_covariance null_distance unit_normal jacobian reduced_jacobian d v C <> Returns W.
  case E: compute_plane_covariance => [C||]; try by case: matched.
  have := A C E; case: world_plane_covariance => [W /(_ W)||] //= _; case: matched => //=; by case: is_covariance_valid.
case: H => N C; last by rewrite /compute_plane_covariance N; case: is_covariance_valid.
move=> _ W; rewrite /world_plane_covariance; case: is_covariance_valid => //=.
case: reduced_plane_covariance => //= P; case: is_covariance_valid => //=.
by rewrite /compute_plane_covariance N; case: is_covariance_valid.
Qed.
End Planes.
End Props.
Print Assumptions C85_point_created.
Print Assumptions C85_point_update.
Print Assumptions C85_point_history.
Print Assumptions C85_point_invalid_pose_refuted.
Print Assumptions C85_point2d_created.
Print Assumptions C85_point2d_update.
Print Assumptions C85_point2d_history.
Print Assumptions C85_plane_created.
Print Assumptions C85_plane_update.
Print Assumptions C85_plane_history.
Print Assumptions C85_plane_by_the_origin_refuted.

(** A point seen with its depth, then again without it, then not matched. *)
Example C85_example :
  let k depth d := Keypoint depth (const_mx 1 : 'cV[rat]_3) 1%:M (Some (0 : 'cV[rat]_3, const_mx 1 : 'cV[rat]_3)) d in
  let v := Pose (1%:M : 'M[rat]_3) 1%:M in
  exists p, staged_point (fun d => d == 0%N) v (k true 5%N) = Some p /\
    (updates (update_point 0 (fun d => d == 0%N) (@offsets [realFieldType of rat]) 1 1) p
       [:: (true, v, k false 7%N); (false, v, k true 8%N); (true, v, k true 0%N)]).2 = [:: Success; Failure; Success] /\
    mp_descriptor (updates (update_point 0 (fun d => d == 0%N) (@offsets [realFieldType of rat]) 1 1) p
       [:: (true, v, k false 7%N); (false, v, k true 8%N); (true, v, k true 0%N)]).1 = 7%N.
Proof.
move=> k v.
have C1 : covariance (1%:M : 'M[rat]_3) by apply: covariance_scalar.
have U d n : usable (k d n) by split.
have [p [S _]] := @C85_point_created _ _ (fun d => d == 0%N) _ v (k true 5%N) C1 (U true 5%N) isT.
exists p; split=> //.
have G : all_good [:: (true, v, k false 7%N); (false, v, k true 8%N); (true, v, k true 0%N)].
  by move=> x [<-|[<-|[<-|[]]]]; split=> //; apply: U.
have := @C85_point_history _ 0 (lexx 0) _ (fun d => d == 0%N) _ (@offsets [realFieldType of rat]) 1 1 ler01 ler01 v (k true 5%N) p _ S G.
by case: (updates _ p _) => p' rs [-> [_ [-> _]]].
Qed.
(** A plane at 2 from the camera and at 3 from the origin makes a staged plane. *)
Example C85_plane_example :
  let null p := (p : 'cV[rat]_4) (inord 3) 0 == 0 in
  let unit p := (p : 'cV[rat]_4) (inord 2) 0 == 1 in
  let d := DetectedPlane (\col_i (if i == inord 2 then 1 else 2%:R)) (\col_i (if i == inord 2 then 1 else 3%:R)) (1%:M : 'M[rat]_3) tt in
  usable_plane null unit d /\
  staged_plane (fun _ => tt) null unit (fun _ => const_mx 1) (fun _ => const_mx 1) (Pose 1%:M 1%:M) d <> None.
Proof.
move=> null unit d.
have C1 : covariance (1%:M : 'M[rat]_3) by apply: covariance_scalar.
have U : usable_plane null unit d.
  have N : (inord 3 == inord 2 :> 'I_4) = false by apply/negbTE/eqP=> /(congr1 (@nat_of_ord 4)); rewrite !inordK.
  by rewrite /usable_plane /null /unit /= !mxE !eqxx N.
split=> //.
by have [-> _] := @C85_plane_created _ _ _ (fun _ => tt) null unit (fun _ => const_mx 1) (fun _ => const_mx 1) (Pose 1%:M 1%:M) d C1 U.
Qed.

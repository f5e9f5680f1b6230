(** Property C79: when two plane segments are merged. *)
From Verif Require Import PlaneSegmentModel.
Local Open Scope R_scope.

(** angle of two directions *)
Definition angle_between (a b : vec) : R := acos (dot a b).
(** a point of the plane *)
Definition on_plane (p : plane) (x : vec) : Prop := dot (pl_normal p) x + pl_d p = 0.

Lemma unit_dot_bound a b : is_unit a -> is_unit b -> -1 <= dot a b <= 1.
Proof.
  intros A B. pose proof (cauchy a b) as C. unfold sqn, is_unit in *. rewrite A, B in C. split; nra.
Qed.
Lemma acos_lt_iff x angle : -1 <= x <= 1 -> 0 <= angle <= PI -> (acos x < angle <-> cos angle < x).
Proof.
  intros Hx Ha. rewrite <- (cos_acos x Hx) at 2. pose proof (acos_bound x).
  split; intros L.
  - now apply cos_decreasing_1.
  - apply Rnot_le_lt. intros G. destruct G as [G|G].
    + apply cos_decreasing_1 in G; lra.
    + subst angle. lra.
Qed.

(** For every segments with unit normals and every largest angle (up to a flat angle): the
    merge test tells whether the directions of the normals differ by less than the angle and
    some point of the first plane is closer to the centre of the second segment than the
    distance. *)
Theorem C79_merge_test : forall angle p q distance,
  0 <= angle <= PI -> is_unit (pl_normal (p_plane p)) -> is_unit (pl_normal (p_plane q)) ->
  (can_be_merged (cos angle) p q distance = true <->
   angle_between (pl_normal (p_plane p)) (pl_normal (p_plane q)) < angle /\
   exists x, on_plane (p_plane p) x /\ dist x (p_centroid q) < distance).
Proof.
  intros angle p q distance Ha Up Uq. unfold can_be_merged, angle_between, cos_angle, point_distance, on_plane.
  set (n := pl_normal (p_plane p)) in *. set (d := pl_d (p_plane p)). set (c := p_centroid q).
  rewrite (acos_lt_iff _ angle (unit_dot_bound _ _ Up Uq) Ha).
  assert (D : Rabs (dot n c + d) < distance <-> exists x, dot n x + d = 0 /\ dist x c < distance).
  { split.
    - intros L. exists (vsub c (vscal (dot n c + d) n)). split.
      + rewrite dot_sub_r, dot_scal_r. unfold is_unit in Up. rewrite Up. ring.
      + unfold dist. replace (vsub (vsub c (vscal (dot n c + d) n)) c) with (vscal (- (dot n c + d)) n).
        * rewrite norm_scal, (norm_unit n Up), Rabs_Ropp. lra.
        * generalize (dot n c + d). intros k. clear. v3ring.
    - intros (x & Hx & L). eapply Rle_lt_trans; [|exact L].
      replace (dot n c + d) with (dot n (vsub c x)) by (rewrite dot_sub_r; lra).
      rewrite dist_sym. unfold dist. rewrite <- (Rmult_1_l (norm _)), <- (norm_unit n Up).
      pose proof (cauchy n (vsub c x)) as C. pose proof (norm_nonneg n). pose proof (norm_nonneg (vsub c x)).
      rewrite <- !norm_sqr in C.
      rewrite <- (Rabs_pos_eq (norm n * norm (vsub c x))) by nra. apply Rsqr_le_abs_0. unfold Rsqr. nra. }
  destruct (Rlt_dec (cos angle) (dot n _)) as [L|L].
  - destruct (Rlt_dec _ distance) as [L'|L'].
    + split; [intros _; split; [exact L|now apply D]|reflexivity].
    + split; [discriminate|]. intros [_ X]. apply D in X. contradiction.
  - split; [discriminate|]. tauto.
Qed.
Print Assumptions C79_merge_test.

(** While growing a region: a cell which is not planar is never merged, and a planar one only
    if its centre is less than 50 mm away, whatever the size of the cell. *)
Theorem C79_growth : forall angle sine p q first last,
  can_be_merged angle p q (cell_tolerance sine q first last) = true ->
  p_planar q = true /\ Rabs (point_distance (p_plane p) (p_centroid q)) < 50 /\
  Rabs (point_distance (p_plane p) (p_centroid q)) < dist first last * sine * sqrt (INR (s_n (p_sums q))).
Proof.
  intros angle sine p q first last. unfold can_be_merged, cell_tolerance, merge_distance.
  destruct (Rlt_dec angle _); [|discriminate]. destruct (Rlt_dec (Rabs _) _) as [L|]; [|discriminate]. intros _.
  destruct (p_planar q).
  - rewrite dist_sym. unfold dist. split; [reflexivity|]. split; eapply Rlt_le_trans; try exact L; [apply Rmin_l|apply Rmin_r].
  - pose proof (Rabs_pos (point_distance (p_plane p) (p_centroid q))). lra.
Qed.
Print Assumptions C79_growth.

(** The test is not symmetric: for every angle and distance, there are two segments, each plane
    through its own centre, the second of which can be merged in the first and not the first
    in the second. *)
Theorem C79_symmetry_refuted : forall angle distance, 0 < angle < PI / 2 -> 0 < distance ->
  exists p q, is_unit (pl_normal (p_plane p)) /\ is_unit (pl_normal (p_plane q)) /\
    on_plane (p_plane p) (p_centroid p) /\ on_plane (p_plane q) (p_centroid q) /\
    can_be_merged (cos angle) p q distance = true /\ can_be_merged (cos angle) q p distance = false.
Proof.
  intros angle distance Ha Hd. set (t := angle / 2).
  assert (T : 0 < t < angle) by (unfold t; lra).
  assert (St : 0 < sin t) by (apply sin_gt_0; pose proof PI_RGT_0; lra).
  assert (Ct : cos angle < cos t) by (apply cos_decreasing_1; pose proof PI_RGT_0; lra).
  set (l := distance / sin t).
  exists (mkPseg no_sums true None 0 (mkV 0 0 1000) (mkPlane (mkV 0 0 (-1)) 1000)).
  exists (mkPseg no_sums true None 0 (mkV l 0 1000) (mkPlane (mkV (sin t) 0 (- cos t)) (- (sin t * l - cos t * 1000)))).
  assert (SC : sin t * sin t + cos t * cos t = 1) by (pose proof (sin2_cos2 t) as X; unfold Rsqr in X; exact X).
  unfold is_unit, on_plane, can_be_merged, cos_angle, point_distance, dot; cbn [p_plane pl_normal pl_d p_centroid vx vy vz].
  split; [lra|]. split; [lra|]. split; [lra|]. split; [lra|]. split.
  - destruct (Rlt_dec _ _) as [L|L]; [|exfalso; apply L; lra].
    replace (0 * l + 0 * 0 + -1 * 1000 + 1000) with 0 by ring. rewrite Rabs_R0. destruct (Rlt_dec 0 distance); [reflexivity|lra].
  - destruct (Rlt_dec (cos angle) _) as [L|L]; [|reflexivity].
    destruct (Rlt_dec (Rabs _) distance) as [X|X]; [|reflexivity]. exfalso.
    replace (sin t * 0 + 0 * 0 + - cos t * 1000 + - (sin t * l - cos t * 1000)) with (- (sin t * l)) in X by ring.
    assert (E : sin t * l = distance) by (unfold l; field; lra). rewrite E, Rabs_Ropp, Rabs_pos_eq in X by lra. lra.
Qed.
Print Assumptions C79_symmetry_refuted.

(** Two parallel planes 30 mm apart merge within 45 degrees and 50 mm, not within 20 mm. *)
Example C79_example :
  let p := mkPseg no_sums true None 0 (mkV 0 0 1000) (mkPlane (mkV 0 0 (-1)) 1000) in
  let q := mkPseg no_sums true None 0 (mkV 10 0 1030) (mkPlane (mkV 0 0 (-1)) 1030) in
  can_be_merged (cos (PI / 4)) p q 50 = true /\ can_be_merged (cos (PI / 4)) p q 20 = false.
Proof.
  cbv zeta. unfold can_be_merged, cos_angle, point_distance, dot; cbn [p_plane pl_normal pl_d p_centroid vx vy vz].
  assert (C : cos (PI / 4) < 0 * 0 + 0 * 0 + -1 * -1).
  { replace (0 * 0 + 0 * 0 + -1 * -1) with 1 by ring. rewrite <- cos_0. apply cos_decreasing_1; pose proof PI_RGT_0; lra. }
  destruct (Rlt_dec (cos (PI / 4)) _) as [_|X]; [|contradiction].
  replace (0 * 10 + 0 * 0 + -1 * 1030 + 1000) with (- (30)) by ring. rewrite Rabs_Ropp, Rabs_pos_eq by lra.
  split; (destruct (Rlt_dec 30 _); [try lra; reflexivity|try lra; reflexivity]).
Qed.

(** C129: the points of the organised cloud, with the rounding of the machine. *)
From Coq Require Import Reals ZArith Lra Lia Psatz List.
From Flocq Require Import Core.
From Verif Require Import RoundedCameraModel RoundedCameraSpec RoundedCameraProps DepthMapModel DepthMapSpec DepthMapProps.
From Verif Require Import RoundedDepthMapModel RoundedDepthMapSpec RoundedDepthMapProps RoundedTransformSpec RoundedCloudModel.
Local Open Scope R_scope.

Lemma pixel_usual row column z : (0 <= row <= 10000)%Z -> (0 <= column <= 10000)%Z -> usual_depth z -> usual_pixel (mkV (IZR column) (IZR row) z).
Proof.
  intros R C (F & Z). assert (D : forall n, (0 <= n <= 10000)%Z -> a_double (IZR n)).
  { intros n N. pose proof (exact_double n 0 ltac:(lia) ltac:(lia)) as H. change (bpow radix2 0) with 1 in H. now rewrite Rmult_1_r in H. }
  split; [repeat split; cbn [vx vy vz]; [now apply D|now apply D|now apply float_double]|]. cbn [vx vy vz].
  assert (0 <= IZR column <= 10000) by (split; apply IZR_le; lia). assert (0 <= IZR row <= 10000) by (split; apply IZR_le; lia). lra.
Qed.

(** one coordinate: near the exact one, and seen at its pixel *)
Lemma cloud_near f c z v x : 100 <= f <= 10000 -> 1 <= c <= 10000 -> 0 <= v <= 10000 -> 1 <= z <= 100000 ->
  Rabs (x - at_depth f c z v) <= z / 10 ^ 12 ->
  Rabs (to_float x - at_depth f c z v) <= / 10000000 * (Rabs (at_depth f c z v) + z / 1000) /\
  Rabs (f * (to_float x / z) - (v - c)) <= / 400.
Proof.
  intros F C V Z H. replace (10 ^ 12) with 1000000000000 in H by ring. pose proof (float_error x) as E. pose proof tiny_100 as T. set (a := at_depth f c z v) in *.
  assert (Hx : Rabs x <= Rabs a + z / 1000000000000). { replace x with ((x - a) + a) by ring. eapply Rle_trans; [apply Rabs_triang|]. lra. }
  assert (N : Rabs (to_float x - a) <= / 10000000 * Rabs a + z / 10000000000).
  { replace (to_float x - a) with ((to_float x - x) + (x - a)) by ring. eapply Rle_trans; [apply Rabs_triang|]. pose proof (Rabs_pos a). lra. }
  split; [lra|].
  assert (Fa : f * Rabs a <= 10000 * z).
  { unfold a, at_depth. rewrite Rabs_mult, (Rabs_pos_eq z) by lra. unfold Rdiv. rewrite Rabs_mult, (Rabs_pos_eq (/ f)) by (left; apply Rinv_0_lt_compat; lra).
    replace (f * (z * (Rabs (v - c) * / f))) with (z * Rabs (v - c)) by (field; lra). assert (Rabs (v - c) <= 10000) by (apply Rabs_le; lra). nra. }
  replace (f * (to_float x / z) - (v - c)) with (f * (to_float x - a) * / z) by (unfold a, at_depth; field; lra).
  rewrite Rabs_mult, Rabs_mult, (Rabs_pos_eq f) by lra. rewrite (Rabs_pos_eq (/ z)) by (left; apply Rinv_0_lt_compat; lra).
  apply Rmult_le_reg_r with z; [lra|]. rewrite Rmult_assoc, Rinv_l by lra. rewrite Rmult_1_r.
  eapply Rle_trans; [apply Rmult_le_compat_l; [lra|exact N]|]. assert (f * z <= 10000 * z) by (apply Rmult_le_compat_r; lra). nra.
Qed.

(** C129: for every schedule, the slot of a measured pixel has the depth of the pixel and a point next to the exact
    one, within a ten-millionth of its coordinates: the first camera sees this point at its pixel, and a
    plane through the exact point passes as near to the stored point. The slot of another pixel is null. *)
Theorem C129_cloud : forall fx fy cx cy depth width height cell_size trace, usual_camera fx fy cx cy -> usual_image depth ->
  (width <= 10000)%Z -> (height <= 10000)%Z -> divided width height cell_size ->
  schedule (rcloud_tasks (intrinsics fx fy cx cy) depth width height cell_size) trace ->
  forall row column id, pixel width height row column -> cell_map width cell_size row column = Done id ->
  let z := depth row column in let cloud := execute 0 trace in
  let stored := mkV (cloud (id, 0%Z)) (cloud (id, 1%Z)) (cloud (id, 2%Z)) in
  let exact := measured fx fy cx cy row column z in
  (z <= 0 -> stored = v0) /\
  (0 < z -> vz stored = z /\ (exists c, rscreen_to_camera (intrinsics fx fy cx cy) (mkV (IZR column) (IZR row) z) = Value c) /\
    Rabs (vx stored - vx exact) <= / 10000000 * (Rabs (vx exact) + z / 1000) /\
    Rabs (vy stored - vy exact) <= / 10000000 * (Rabs (vy exact) + z / 1000) /\
    (exists s, rcamera_to_screen (intrinsics fx fy cx cy) stored = Some s /\
       Rabs (vx s - IZR column) <= / 300 /\ Rabs (vy s - IZR row) <= / 300) /\
    (forall n d, dot n n = 1 -> dot n exact + d = 0 ->
       Rabs (dot n stored + d) <= / 10000000 * (Rabs (vx exact) + Rabs (vy exact) + z / 500))).
Proof.
  intros fx fy cx cy depth width height cs trace Cam U Wd Hg Dv S row column id P E z cloud stored exact.
  pose proof (C38_same_cloud_for_every_schedule 0 depth measured_depth (cloud_coordinate vx (intrinsics fx fy cx cy)) (cloud_coordinate vy (intrinsics fx fy cx cy)) width height cs Dv trace S row column id P E) as H.
  cbv zeta in H. fold z cloud in H. unfold measured_depth in H. destruct (Rlt_dec 0 z) as [L|L].
  2:{ destruct H as (H0 & H1 & H2). split; [intros _; unfold stored; rewrite H0, H1, H2; reflexivity|intros; contradiction]. }
  split; [intros; lra|intros _]. destruct H as (H0 & H1 & H2). destruct (U row column) as [N|D]; [fold z in N; lra|]. fold z in D. destruct P as (P1 & P2).
  pose proof (pixel_usual row column z ltac:(lia) ltac:(lia) D) as Px. destruct (C126_round_trip fx fy cx cy _ Cam Px) as (c & s' & Ec & _ & _ & _ & Xc & Yc & _).
  unfold cloud_coordinate in H0, H1. rewrite Ec in H0, H1. cbn [vx vy vz] in Xc, Yc. pose proof Cam as (_ & Fx & Fy & Cx & Cy).
  destruct Px as (_ & Bx & By & Bz). cbn [vx vy vz] in Bx, By, Bz.
  destruct (cloud_near fx cx z (IZR column) (vx c) Fx Cx Bx Bz Xc) as (Ax & Sx). destruct (cloud_near fy cy z (IZR row) (vy c) Fy Cy By Bz Yc) as (Ay & Sy).
  assert (Es : stored = mkV (to_float (vx c)) (to_float (vy c)) z) by (unfold stored; rewrite H0, H1, H2; reflexivity). rewrite Es. clear Es stored. unfold exact, measured. cbn [vx vy vz].
  split; [reflexivity|]. split; [now exists c|]. split; [exact Ax|]. split; [exact Ay|]. split.
  - apply Rabs_le_inv in Sx as Sx'. apply Rabs_le_inv in Sy as Sy'.
    destruct (C126_projection fx fy cx cy (mkV (to_float (vx c)) (to_float (vy c)) z) Cam) as (s & Eq & _ & Qx & Qy); cbn [vx vy vz]; [exact Bz|apply Rabs_le; lra|apply Rabs_le; lra|].
    exists s. split; [exact Eq|]. unfold seen_x, seen_y in *. cbn [vx vy vz] in *. replace (10 ^ 9) with 1000000000 in * by ring.
    apply Rabs_le_inv in Qx, Qy. split; apply Rabs_le; lra.
  - intros n d Un Pl. unfold dot in *. cbn [vx vy vz] in *. set (ax := at_depth fx cx z (IZR column)) in *. set (ay := at_depth fy cy z (IZR row)) in *.
    replace (vx n * to_float (vx c) + vy n * to_float (vy c) + vz n * z + d) with (vx n * (to_float (vx c) - ax) + vy n * (to_float (vy c) - ay)) by lra.
    eapply Rle_trans; [apply Rabs_triang|]. rewrite !Rabs_mult.
    assert (Nx : Rabs (vx n) <= 1) by (apply Rabs_le; nra). assert (Ny : Rabs (vy n) <= 1) by (apply Rabs_le; nra).
    assert (K : forall a b e, Rabs a <= 1 -> Rabs b <= e -> Rabs a * Rabs b <= e) by (intros a b e A B; pose proof (Rabs_pos a); pose proof (Rabs_pos b); nra).
    pose proof (K _ _ _ Nx Ax). pose proof (K _ _ _ Ny Ay). lra.
Qed.
Print Assumptions C129_cloud.
(** The hypotheses are met by an image with one measure, in cells of 16 pixels, its rows one after the other. *)
Example C129_example : usual_camera 512 512 448 240 /\ usual_image (one_depth 240 453) /\ divided 896 480 16 /\ pixel 896 480 240 453 /\
  (exists id, cell_map 896 16 240 453 = Done id) /\ 0 < one_depth 240 453 240 453 /\
  schedule (rcloud_tasks cam (one_depth 240 453) 896 480 16) (concat (rcloud_tasks cam (one_depth 240 453) 896 480 16)).
Proof.
  split; [apply cam_usual|]. split; [apply one_usual|]. split; [repeat split; try lia; [now exists 56%Z|now exists 30%Z]|]. split; [unfold pixel; lia|].
  split; [eexists; reflexivity|]. split; [change (one_depth 240 453 240 453) with depth_z; rewrite depth_value; lra|apply schedule_sequential].
Qed.

(** C128: the rectification of a depth image by a camera that needs none, with the rounding of the machine. *)
From Coq Require Import Reals ZArith Lra Lia Psatz List.
From Flocq Require Import Core.
From Verif Require Import RoundedCameraModel RoundedCameraSpec RoundedCameraProps DepthMapModel DepthMapSpec DepthMapProps.
From Verif Require RoundedSegmentModel RoundedSegmentProps.
From Verif Require Import RoundedDepthMapModel RoundedDepthMapSpec.
Import ListNotations.
Local Open Scope R_scope.

Lemma float_error x : Rabs (to_float x - x) <= / 16777216 * Rabs x + / 2 ^ 100.
Proof. apply RoundedSegmentProps.rf_error. Qed.
Lemma float_double x : a_float x -> a_double x.
Proof.
  intros H. apply FLT_format_generic in H; [|reflexivity]. destruct H as [f -> M E]. apply generic_format_FLT. exists f; [reflexivity| |lia].
  eapply Z.lt_le_trans; [exact M|]. apply (Zpower_le radix2). lia.
Qed.
Lemma float_float x : a_float (to_float x). Proof. apply generic_format_round; [apply FLT_exp_valid; reflexivity|apply valid_rnd_N]. Qed.
Lemma float_id x : a_float x -> to_float x = x. Proof. intros. apply round_generic; [apply valid_rnd_N|assumption]. Qed.
Lemma double_to_float x : a_double (to_float x). Proof. apply float_double, float_float. Qed.

Lemma aligned_transform p : doubles p -> rtransformed aligned p = p.
Proof.
  intros (X & Y & Z). unfold rtransformed, aligned, rdot4, rdot, v0. cbn [lin col r0 r1 r2 vx vy vz].
  rewrite !rmul_0_l, !rmul_1_l by assumption. destruct p as [x y z]. cbn [vx vy vz] in *. rewrite ?(radd_0_l 0), ?(radd_0_r x), ?(radd_0_l y), ?(radd_0_l z), ?(radd_0_r y), ?(radd_0_r z) by (assumption || apply double_0).
  rewrite ?(radd_0_r x), ?(radd_0_r y), ?(radd_0_r z) by assumption. reflexivity.
Qed.
(** the direction of a pixel *)
Definition direction (f g c v : R) : R := radd (rmul (rmul g (rdiv 1 (rnd (f * g)))) v) (rmul (- rmul c g) (rdiv 1 (rnd (f * g)))).
Lemma precomputed_value fx fy cx cy row column : usual_camera fx fy cx cy ->
  precomputed (intrinsics fx fy cx cy) row column = (to_float (direction fx fy cx (IZR column)), to_float (direction fy fx cy (IZR row))).
Proof.
  intros Cam. unfold precomputed, direction, rmvmul, rdot. destruct (rinverse_value fx fy cx cy Cam) as (R0 & R1). rewrite R0, R1. cbn [vx vy vz].
  rewrite !rmul_0_l, !radd_0_r, !radd_0_l, !(rmul_1_r (rmul _ _)) by (apply double_radd || apply double_rmul || apply double_0). unfold inv_det, rmul.
  rewrite (Rmult_comm cy fx), (Rmult_comm fy fx). reflexivity.
Qed.
Definition shown (f g c v z : R) : R :=
  rmul (rdiv 1 z) (radd (rmul f (to_float (to_float (direction f g c v) * z))) (rmul c z)).
Lemma project_value fx fy cx cy row column z : usual_camera fx fy cx cy -> usual_depth z ->
  rproject (intrinsics fx fy cx cy) aligned row column z =
  Projects (Finite (Zfloor (shown fx fy cx (IZR column) z))) (Finite (Zfloor (shown fy fx cy (IZR row) z))) z.
Proof.
  intros Cam (Fl & Z). unfold rproject, undistorted. rewrite (precomputed_value _ _ _ _ _ _ Cam).
  rewrite aligned_transform by (repeat split; cbn [vx vy vz]; (apply double_to_float || now apply float_double)).
  rewrite (project_x _ _ _ _ _ Cam) by (cbn [vz]; lra). cbn [vx vy vz]. rewrite (float_id z Fl). reflexivity.
Qed.
Lemma direction_close f g c v : 100 <= f <= 10000 -> 100 <= g <= 10000 -> 1 <= c <= 10000 -> 0 <= v <= 10000 ->
  close 16 (direction f g c v) ((v - c) / f) ((v + 2 * c) / f).
Proof.
  intros F G C V. pose proof (row_close f g c (f * g) v 1 F G C V ltac:(lra) eq_refl) as H.
  fold (direction f g c v) in H. rewrite rmul_1_l in H by apply double_radd. unfold at_depth in H. now rewrite !Rmult_1_l in H.
Qed.
Lemma shown_near f g c v z : 100 <= f <= 10000 -> 100 <= g <= 10000 -> 1 <= c <= 10000 -> 0 <= v <= 10000 -> 1 <= z <= 100000 ->
  Rabs (shown f g c v z - v) <= / 200.
Proof.
  intros F G C V Z. destruct (direction_close f g c v F G C V) as (Dn & Dw & _). set (h := direction f g c v) in *. set (H := (v - c) / f) in *. set (W := (v + 2 * c) / f) in *.
  assert (Wl : / 10000 <= W). { unfold W. apply Rmult_le_reg_r with f; [lra|]. unfold Rdiv. rewrite Rmult_assoc, Rinv_l by lra. nra. }
  assert (WW : f * W <= 30000) by (unfold W; replace (f * ((v + 2 * c) / f)) with (v + 2 * c) by (field; lra); lra).
  pose proof u_value as UV. pose proof tiny_100 as T.
  assert (Dn' : Rabs (h - H) <= / 100000000000000 * W). { eapply Rle_trans; [exact Dn|]. apply Rmult_le_compat_r; [lra|]. rewrite UV. lra. }
  assert (Hh : Rabs h <= 1001 / 1000 * W). { replace h with (h - H + H) by ring. eapply Rle_trans; [apply Rabs_triang|]. lra. }
  pose proof (float_error h) as E1. set (p := to_float h) in *.
  assert (Ep : Rabs (p - H) <= 61 / 1000000000 * W). { replace (p - H) with ((p - h) + (h - H)) by ring. eapply Rle_trans; [apply Rabs_triang|]. lra. }
  assert (Hp : Rabs p <= 101 / 100 * W). { replace p with (p - H + H) by ring. eapply Rle_trans; [apply Rabs_triang|]. lra. }
  pose proof (float_error (p * z)) as E2. set (X := to_float (p * z)) in *.
  assert (Pz : Rabs (p * z) <= 101 / 100 * (W * z)). { rewrite Rabs_mult, (Rabs_pos_eq z) by lra. rewrite <- Rmult_assoc. apply Rmult_le_compat_r; lra. }
  assert (Wz : / 10000 <= W * z) by nra.
  assert (EX : Rabs (X - H * z) <= 13 / 100000000 * (W * z)).
  { replace (X - H * z) with ((X - p * z) + (p - H) * z) by ring. eapply Rle_trans; [apply Rabs_triang|]. rewrite (Rabs_mult (p - H)), (Rabs_pos_eq z) by lra.
    assert (Rabs (p - H) * z <= 61 / 1000000000 * W * z) by (apply Rmult_le_compat_r; lra). lra. }
  assert (Xb : Rabs X <= 2 * (W * z)).
  { replace X with ((X - H * z) + H * z) by ring. eapply Rle_trans; [apply Rabs_triang|]. rewrite (Rabs_mult H), (Rabs_pos_eq z) by lra.
    assert (Rabs H * z <= W * z) by (apply Rmult_le_compat_r; lra). lra. }
  destruct (project_close 0 f c z X X (2 * (W * z)) F C Z ltac:(lra) ltac:(eapply close_wider; [apply close_exact|exact Xb])) as (S & _).
  fold (shown f g c v z) in S. change (rmul (rdiv 1 z) (radd (rmul f X) (rmul c z))) with (shown f g c v z) in S.
  replace (f * (2 * (W * z) / z)) with (2 * (f * W)) in S by (field; lra).
  assert (S' : Rabs (shown f g c v z - (f * (X / z) + c)) <= / 1000). { eapply Rle_trans; [exact S|]. rewrite UV. nra. }
  assert (D : Rabs (f * (X / z) + c - v) <= 39 / 10000).
  { replace (f * (X / z) + c - v) with (f * ((X - H * z) / z)) by (unfold H; field; lra).
    rewrite Rabs_mult, (Rabs_pos_eq f) by lra. unfold Rdiv at 1. rewrite Rabs_mult, (Rabs_pos_eq (/ z)) by (left; apply Rinv_0_lt_compat; lra).
    assert (Rabs (X - H * z) * / z <= 13 / 100000000 * W).
    { apply Rmult_le_reg_r with z; [lra|]. rewrite Rmult_assoc, Rinv_l by lra. lra. }
    assert (f * (Rabs (X - H * z) * / z) <= f * (13 / 100000000 * W)) by (apply Rmult_le_compat_l; lra). lra. }
  replace (shown f g c v z - v) with ((shown f g c v z - (f * (X / z) + c)) + (f * (X / z) + c - v)) by ring. eapply Rle_trans; [apply Rabs_triang|]. lra.
Qed.
Lemma near_floor x k : Rabs (x - IZR k) <= / 200 -> Zfloor x = k \/ Zfloor x = (k - 1)%Z.
Proof.
  intros H. apply Rabs_le_inv in H. destruct (Rle_dec (IZR k) x) as [L|L].
  - left. apply Zfloor_imp. rewrite plus_IZR. lra.
  - right. apply Zfloor_imp. replace (k - 1 + 1)%Z with k by ring. rewrite minus_IZR. lra.
Qed.

(** C128: with aligned cameras a depth pixel lands on itself or on the pixel before it, on its row or on
    the row before it, with its depth unchanged. *)
Theorem C128_target : forall fx fy cx cy row column z, usual_camera fx fy cx cy ->
  (0 <= row <= 10000)%Z -> (0 <= column <= 10000)%Z -> usual_depth z ->
  exists r c, rproject (intrinsics fx fy cx cy) aligned row column z = Projects (Finite c) (Finite r) z /\
    (r = row \/ r = row - 1)%Z /\ (c = column \/ c = column - 1)%Z.
Proof.
  intros fx fy cx cy row column z Cam R C Dz. rewrite (project_value _ _ _ _ _ _ _ Cam Dz). do 2 eexists. split; [reflexivity|].
  destruct Cam as (_ & Fx & Fy & Cx & Cy). destruct Dz as (_ & Z).
  split; apply near_floor; apply shown_near; auto; (split; [apply IZR_le; lia|apply (IZR_le _ 10000); lia]).
Qed.
Print Assumptions C128_target.

Lemma positive_usual depth row column : usual_image depth -> rpositive (depth row column) = true -> usual_depth (depth row column).
Proof. intros U P. unfold rpositive in P. destruct (Rle_dec _ 0); [discriminate|]. destruct (U row column); [contradiction|assumption]. Qed.
(** C128: so in the rectified image, whatever the schedule, a pixel is null or has the depth of itself or
    of one of the three pixels after it; *)
Theorem C128_image : forall fx fy cx cy depth width height trace, usual_camera fx fy cx cy -> usual_image depth ->
  (0 <= width <= 10000)%Z -> (0 <= height <= 10000)%Z ->
  schedule (rrectify_tasks (intrinsics fx fy cx cy) aligned depth width height) trace ->
  forall r c, execute 0 trace (r, c) = 0 \/
    exists row column, pixel width height row column /\ (row = r \/ row = r + 1)%Z /\ (column = c \/ column = c + 1)%Z /\
      0 < depth row column /\ execute 0 trace (r, c) = depth row column.
Proof.
  intros fx fy cx cy depth width height trace Cam U W H S r c.
  destruct (C39_value_of_one_source 0 depth rpositive (rproject (intrinsics fx fy cx cy) aligned) width height trace ltac:(change (2 ^ 32)%Z with 4294967296%Z; lia) ltac:(change (2 ^ 32)%Z with 4294967296%Z; lia) S r c) as (N & Y).
  destruct (Req_EM_T (execute 0 trace (r, c)) 0) as [E|E]; [now left|]. right.
  destruct Y as (row & column & (P & Po & Pr & _)).
  { apply Classical_Prop.NNPP. intros X. apply E, N, X. }
  exists row, column. pose proof (positive_usual _ _ _ U Po) as D. pose proof P as (P1 & P2).
  destruct (C128_target fx fy cx cy row column _ Cam ltac:(lia) ltac:(lia) D) as (r' & c' & T & Hr & Hc). rewrite T in Pr. injection Pr as -> -> V.
  destruct D as (_ & D). repeat split; try lia; try lra.
Qed.
Print Assumptions C128_image.
(** and each measure inside the image fills its pixel or one of the three pixels before it, with its own depth
    or the one of a pixel next to it; *)
Theorem C128_kept : forall fx fy cx cy depth width height trace, usual_camera fx fy cx cy -> usual_image depth ->
  (0 <= width <= 10000)%Z -> (0 <= height <= 10000)%Z ->
  schedule (rrectify_tasks (intrinsics fx fy cx cy) aligned depth width height) trace ->
  forall row column, pixel width height row column -> (1 < row)%Z -> (1 < column)%Z -> 0 < depth row column ->
    exists r c, (r = row \/ r = row - 1)%Z /\ (c = column \/ c = column - 1)%Z /\ 0 < execute 0 trace (r, c).
Proof.
  intros fx fy cx cy depth width height trace Cam U W H S row column P Rw Cl D. pose proof P as (P1 & P2).
  assert (Po : rpositive (depth row column) = true) by (unfold rpositive; destruct (Rle_dec _ 0); [lra|reflexivity]).
  destruct (C128_target fx fy cx cy row column _ Cam ltac:(lia) ltac:(lia) (positive_usual _ _ _ U Po)) as (r & c & T & Hr & Hc).
  exists r, c. split; [exact Hr|]. split; [exact Hc|].
  destruct (proj2 (C39_value_of_one_source 0 depth rpositive (rproject (intrinsics fx fy cx cy) aligned) width height trace ltac:(change (2 ^ 32)%Z with 4294967296%Z; lia) ltac:(change (2 ^ 32)%Z with 4294967296%Z; lia) S r c)) as (row' & column' & (P' & Po' & Pr' & _)).
  { exists row, column, (depth row column). split; [exact P|]. split; [exact Po|]. split; [exact T|lia]. }
  pose proof (positive_usual _ _ _ U Po') as D'. destruct P' as (P1' & P2').
  destruct (C128_target fx fy cx cy row' column' _ Cam ltac:(lia) ltac:(lia) D') as (r' & c' & T' & _). rewrite T' in Pr'. injection Pr' as _ _ V.
  destruct D' as (_ & D'). lra.
Qed.
Print Assumptions C128_kept.

(** and no pixel outside of the first row and column misbehaves, no pixel at all makes the program exit. *)
Theorem C128_defined : forall fx fy cx cy depth width height row column, usual_camera fx fy cx cy -> usual_image depth ->
  (0 <= row <= 10000)%Z -> (0 <= column <= 10000)%Z ->
  let does := rrectify_pixel (intrinsics fx fy cx cy) aligned depth width height row column in
  does <> Exits /\ ((0 < row)%Z -> (0 < column)%Z -> does <> Misbehaves).
Proof.
  intros fx fy cx cy depth width height row column Cam U R C does. unfold does, rrectify_pixel, rectify_pixel.
  destruct (rpositive (depth row column)) eqn:Po; [|split; discriminate].
  destruct (C128_target fx fy cx cy row column _ Cam R C (positive_usual _ _ _ U Po)) as (r & c & -> & Hr & Hc).
  unfold to_uint. change (2 ^ 32)%Z with 4294967296%Z.
  destruct ((0 <=? c)%Z && (c <? 4294967296)%Z) eqn:Ec, ((0 <=? r)%Z && (r <? 4294967296)%Z) eqn:Er;
    [split; intros; match goal with |- context [if ?b then _ else _] => destruct b end; discriminate|..];
    (split; [discriminate|intros R0 C0; exfalso; lia]).
Qed.
Print Assumptions C128_defined.

(** *** a camera without rounding, and a depth just above 1024 mm *)
Definition cam := intrinsics 512 512 448 240.
Definition depth_z : R := IZR 8388609 * bpow radix2 (-13).
Lemma exact_double k e : (Z.abs k < 2 ^ 53)%Z -> (-1074 <= e)%Z -> a_double (IZR k * bpow radix2 e).
Proof. intros K E. apply generic_format_FLT. exists (Float radix2 k e); [reflexivity|exact K|exact E]. Qed.
Lemma rnd_exact x k e : x = IZR k * bpow radix2 e -> (Z.abs k < 2 ^ 53)%Z -> (-1074 <= e)%Z -> rnd x = x.
Proof. intros -> K E. apply rnd_id. now apply exact_double. Qed.
Lemma cam_usual : usual_camera 512 512 448 240.
Proof.
  assert (D : forall k, (Z.abs k < 2 ^ 53)%Z -> a_double (IZR k)).
  { intros k K. pose proof (exact_double k 0 K ltac:(lia)) as H. change (bpow radix2 0) with 1 in H. now rewrite Rmult_1_r in H. }
  split; [repeat split; apply D; reflexivity|lra].
Qed.
Lemma depth_value : depth_z = 8388609 / 8192. Proof. unfold depth_z. change (bpow radix2 (-13)) with (/ IZR 8192). reflexivity. Qed.
Lemma depth_usual : usual_depth depth_z.
Proof. split; [apply generic_format_FLT; exists (Float radix2 8388609 (-13)); [reflexivity|reflexivity|cbn; lia]|]. rewrite depth_value. lra. Qed.
Lemma direction_exact v : (Z.abs v < 10000)%Z -> direction 512 512 448 (IZR v) = IZR (v - 448) * bpow radix2 (-9).
Proof.
  intros V. unfold direction, rmul, radd, rdiv. change (bpow radix2 (-9)) with (/ IZR 512).
  rewrite (rnd_exact (512 * 512) 1 18) by (try reflexivity; try lia; change (bpow radix2 18) with 262144; lra).
  rewrite (rnd_exact (1 / (512 * 512)) 1 (-18)) by (try reflexivity; try lia; change (bpow radix2 (-18)) with (/ IZR 262144); lra).
  rewrite (rnd_exact (512 * (1 / (512 * 512))) 1 (-9)) by (try reflexivity; try lia; change (bpow radix2 (-9)) with (/ IZR 512); lra).
  rewrite (rnd_exact (448 * 512) 448 9) by (try reflexivity; try lia; change (bpow radix2 9) with 512; lra).
  rewrite (rnd_exact (- (448 * 512) * _) (-7) (-3)) by (try reflexivity; try lia; change (bpow radix2 (-3)) with (/ IZR 8); lra).
  rewrite (rnd_exact (512 * (1 / (512 * 512)) * IZR v) v (-9)) by (try lia; change (bpow radix2 (-9)) with (/ IZR 512); lra).
  rewrite (rnd_exact _ (v - 448) (-9)); try lia; change (bpow radix2 (-9)) with (/ IZR 512); rewrite minus_IZR; lra.
Qed.
Lemma to_float_exact x k e : x = IZR k * bpow radix2 e -> (Z.abs k < 2 ^ 24)%Z -> (-149 <= e)%Z -> to_float x = x.
Proof. intros -> K E. apply float_id. apply generic_format_FLT. exists (Float radix2 k e); [reflexivity|exact K|exact E]. Qed.
Lemma to_float_26 a b e : (2 ^ 25 <= a < 2 ^ 26)%Z -> (2 * Z.abs (a - 4 * b) < 4)%Z -> (-140 <= e)%Z -> to_float (IZR a * bpow radix2 e) = IZR b * bpow radix2 (2 + e).
Proof.
  intros A H He. unfold to_float, RoundedSegmentModel.rf, round. assert (M : cexp radix2 (FLT_exp (-149) 24) (IZR a * bpow radix2 e) = (2 + e)%Z).
  { unfold cexp. rewrite (mag_unique_pos radix2 _ (26 + e)); [unfold FLT_exp; lia|]. replace (26 + e - 1)%Z with (25 + e)%Z by ring. rewrite !bpow_plus.
    change (bpow radix2 25) with (IZR (2 ^ 25)). change (bpow radix2 26) with (IZR (2 ^ 26)). pose proof (bpow_gt_0 radix2 e).
    split; [apply Rmult_le_compat_r; [lra|apply IZR_le; lia]|apply Rmult_lt_compat_r; [lra|apply IZR_lt; lia]]. }
  unfold scaled_mantissa. rewrite M. replace (IZR a * bpow radix2 e * bpow radix2 (- (2 + e))) with (IZR a / 4).
  2:{ replace (- (2 + e))%Z with (- (2) + - e)%Z by ring. rewrite bpow_plus. change (bpow radix2 (- (2))) with (/ IZR 4). rewrite bpow_opp. field. apply Rgt_not_eq, bpow_gt_0. }
  rewrite (Znearest_imp _ _ b); [reflexivity|].
  replace (IZR a / 4 - IZR b) with (IZR (a - 4 * b) / 4) by (rewrite minus_IZR, mult_IZR; lra).
  assert (-2 < a - 4 * b < 2)%Z as [L Up] by lia. apply IZR_lt in L, Up. apply Rabs_lt. lra.
Qed.
(** computed column of a pixel of [cam] at [depth_z], from the rounded coordinate [X] *)
Lemma shown_from v X : (Z.abs v < 10000)%Z -> to_float (IZR (v - 448) * bpow radix2 (-9) * depth_z) = X -> (Z.abs (v - 448) < 2 ^ 24)%Z ->
  Rabs X <= 2000 -> Rabs (shown 512 512 448 (IZR v) depth_z - (512 * (X / depth_z) + 448)) <= / 1000000000.
Proof.
  intros V E K B. unfold shown. rewrite (direction_exact v V). rewrite (to_float_exact (IZR (v - 448) * _) (v - 448) (-9)) by (reflexivity || lia). rewrite E.
  destruct (project_close 0 512 448 depth_z X X 2000 ltac:(lra) ltac:(lra) ltac:(rewrite depth_value; lra) ltac:(lra) ltac:(eapply close_wider; [apply close_exact|exact B])) as (S & _).
  eapply Rle_trans; [exact S|]. rewrite u_value, depth_value. lra.
Qed.
Lemma down : Zfloor (shown 512 512 448 (IZR 453) depth_z) = 452%Z.
Proof.
  pose proof (shown_from 453 (IZR 10485761 * bpow radix2 (2 + -22)) ltac:(lia)) as H. apply Zfloor_imp. change (bpow radix2 (2 + -22)) with (/ IZR 1048576) in H.
  assert (E : to_float (IZR (453 - 448) * bpow radix2 (-9) * depth_z) = IZR 10485761 * / IZR 1048576).
  { replace (IZR (453 - 448) * bpow radix2 (-9) * depth_z) with (IZR 41943045 * bpow radix2 (-22)).
    - apply (to_float_26 41943045 10485761 (-22)); lia.
    - rewrite depth_value. change (bpow radix2 (-9)) with (/ IZR 512). change (bpow radix2 (-22)) with (/ IZR 4194304). change (453 - 448)%Z with 5%Z. lra. }
  specialize (H E ltac:(lia) ltac:(apply Rabs_le; lra)). rewrite depth_value in *. apply Rabs_le_inv in H. change (452 + 1)%Z with 453%Z. lra.
Qed.
Lemma outside : Zfloor (shown 512 512 448 (IZR 0) depth_z) = (-1)%Z.
Proof.
  pose proof (shown_from 0 (- (IZR 14680066 * bpow radix2 (2 + -16))) ltac:(lia)) as H. apply Zfloor_imp. change (bpow radix2 (2 + -16)) with (/ IZR 16384) in H.
  assert (E : to_float (IZR (0 - 448) * bpow radix2 (-9) * depth_z) = - (IZR 14680066 * / IZR 16384)).
  { replace (IZR (0 - 448) * bpow radix2 (-9) * depth_z) with (- (IZR 58720263 * bpow radix2 (-16))).
    - unfold to_float, RoundedSegmentModel.rf. rewrite round_NE_opp. f_equal. apply (to_float_26 58720263 14680066 (-16)); lia.
    - rewrite depth_value. change (bpow radix2 (-9)) with (/ IZR 512). change (bpow radix2 (-16)) with (/ IZR 65536). change (0 - 448)%Z with (-448)%Z. lra. }
  specialize (H E ltac:(lia) ltac:(apply Rabs_le; lra)). rewrite depth_value in *. apply Rabs_le_inv in H. change (-1 + 1)%Z with 0%Z. lra.
Qed.

(** C128: the rectification is not the identity: a depth is moved to the pixel before it. *)
Definition one_depth (row column : Z) : Z -> Z -> R := fun r c => if (r =? row)%Z && (c =? column)%Z then depth_z else 0.
Lemma one_usual row column : usual_image (one_depth row column).
Proof. intros r c. unfold one_depth. destruct (_ && _); [right; apply depth_usual|left; lra]. Qed.
Theorem C128_identity_refuted : exists fx fy cx cy depth width height row column,
  usual_camera fx fy cx cy /\ usual_image depth /\ pixel width height row column /\ (0 < row)%Z /\ (0 < column)%Z /\ 0 < depth row column /\
  forall trace, schedule (rrectify_tasks (intrinsics fx fy cx cy) aligned depth width height) trace ->
    execute 0 trace (row, column) = 0 /\
    exists r, execute 0 trace (r, column - 1)%Z = depth row column.
Proof.
  exists 512, 512, 448, 240, (one_depth 240 453), 896%Z, 480%Z, 240%Z, 453%Z.
  assert (D : one_depth 240 453 240 453 = depth_z) by reflexivity. pose proof depth_usual as (_ & Dz).
  split; [apply cam_usual|]. split; [apply one_usual|]. split; [unfold pixel; lia|]. split; [lia|]. split; [lia|]. rewrite D. split; [lra|].
  assert (P : rproject cam aligned 240 453 depth_z = Projects (Finite 452) (Finite (Zfloor (shown 512 512 240 (IZR 240) depth_z))) depth_z).
  { unfold cam. rewrite (project_value _ _ _ _ _ _ _ cam_usual depth_usual), down. reflexivity. }
  destruct (C128_target _ _ _ _ 240 453 depth_z cam_usual ltac:(lia) ltac:(lia) depth_usual) as (r & c & T & Hr & _).
  fold cam in T. rewrite P in T. injection T as Ec Er. intros trace S.
  pose proof (C39_value_of_one_source 0 (one_depth 240 453) rpositive (rproject cam aligned) 896 480 trace ltac:(lia) ltac:(lia) S) as Src.
  assert (Only : forall row column, rpositive (one_depth 240 453 row column) = true -> row = 240%Z /\ column = 453%Z).
  { intros row column Po. unfold one_depth, rpositive in Po. destruct ((row =? 240)%Z && (column =? 453)%Z) eqn:E; [lia|]. destruct (Rle_dec 0 0); [discriminate|lra]. }
  split.
  - apply Src. intros (row & column & v & _ & Po & L & _). destruct (Only _ _ Po) as (-> & ->). rewrite D in L. fold cam in L. rewrite P in L. injection L as L _. lia.
  - exists r. destruct (proj2 (Src r 452%Z)) as (row & column & (_ & Po & L & _)).
    + exists 240%Z, 453%Z, depth_z. split; [unfold pixel; lia|]. rewrite D. split; [unfold rpositive; destruct (Rle_dec depth_z 0); [lra|reflexivity]|].
      split; [fold cam; rewrite P; now rewrite Er|lia].
    + destruct (Only _ _ Po) as (-> & ->). rewrite D in L. fold cam in L. rewrite P in L. injection L as _ L. now symmetry.
Qed.
Print Assumptions C128_identity_refuted.
(** C128: and it is not always defined: a depth of the first column may be seen left of the image. *)
Theorem C128_defined_refuted : exists fx fy cx cy depth width height row column,
  usual_camera fx fy cx cy /\ usual_image depth /\ pixel width height row column /\
  rrectify_pixel (intrinsics fx fy cx cy) aligned depth width height row column = Misbehaves.
Proof.
  exists 512, 512, 448, 240, (one_depth 240 0), 896%Z, 480%Z, 240%Z, 0%Z. split; [apply cam_usual|]. split; [apply one_usual|]. split; [unfold pixel; lia|].
  unfold rrectify_pixel, rectify_pixel. change (one_depth 240 0 240 0) with depth_z.
  assert (rpositive depth_z = true) as -> by (unfold rpositive; rewrite depth_value; destruct (Rle_dec _ 0); [lra|reflexivity]).
  rewrite (project_value _ _ _ _ _ _ _ cam_usual depth_usual), outside. reflexivity.
Qed.
Print Assumptions C128_defined_refuted.
(** The hypotheses are met by this camera, an image and its rows one after the other. *)
Example C128_example : usual_camera 512 512 448 240 /\ usual_image (one_depth 240 453) /\
  schedule (rrectify_tasks cam aligned (one_depth 240 453) 896 480) (concat (rrectify_tasks cam aligned (one_depth 240 453) 896 480)).
Proof. split; [apply cam_usual|]. split; [apply one_usual|]. apply schedule_sequential. Qed.

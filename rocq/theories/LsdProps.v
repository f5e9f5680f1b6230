(** The properties of the line segment detector. *)
From Verif Require Import LsdSpec LsdGrow LsdRect LsdDetect LsdRefine Atan2.
From Coq Require Import Reals ZArith List Bool Lia Lra Psatz ZifyBool Permutation Sorted.
Import ListNotations.
Local Open Scope R_scope.

(** ** An exact arc tangent meets the hypotheses *)
Lemma exact_atan2_value y x : exact_atan2 y x * (PI / 180) = atan2 y x \/ exact_atan2 y x * (PI / 180) = atan2 y x + 2 * PI.
Proof.
  unfold exact_atan2. pose proof PI_RGT_0. destruct (Rlt_dec (atan2 y x * (180 / PI)) 0); [right|left]; field; lra.
Qed.
Lemma exact_in_degrees : in_degrees exact_atan2.
Proof.
  intros y x. unfold exact_atan2. pose proof (atan2_range y x) as [A B]. pose proof PI_RGT_0 as P.
  assert (E : atan2 y x * (180 / PI) * PI = atan2 y x * 180) by (field; lra).
  set (t := atan2 y x * (180 / PI)) in *. clearbody t.
  destruct (Rlt_dec t 0); split; nra.
Qed.
Lemma exact_accurate : accurate 0 exact_atan2.
Proof.
  intros y x. destruct (atan2_polar y x) as [C S]. exists (exact_atan2 y x * (PI / 180)).
  rewrite Rminus_diag_eq, Rabs_R0 by reflexivity. split; [lra|].
  destruct (exact_atan2_value y x) as [-> | ->].
  - split; symmetry; assumption.
  - replace (atan2 y x + 2 * PI) with (atan2 y x + 2 * INR 1 * PI) by (cbn; ring). rewrite cos_period, sin_period.
    split; symmetry; assumption.
Qed.

(** ** C95: the regions *)
(** The gradient angles: defined where the gradient is large enough, but in the last row and in
    the last column, *)
Theorem C95_field fa im t :
  in_degrees fa -> 0 <= t ->
  sound_field (ll_field fa im t) /\
  forall x y, f_angle (ll_field fa im t) (x, y) <> None <->
    (0 <= x < cols im - 1 /\ 0 <= y < rows im - 1)%Z /\
    t < / 2 * sqrt (IZR (right_minus_left im x y * right_minus_left im x y + bottom_minus_top im x y * bottom_minus_top im x y)).
Proof.
  intros FA T. split; [apply ll_field_sound; auto|]. intros x y. cbn [ll_field f_angle].
  assert (G : gradient_norm im (x, y) =
     / 2 * sqrt (IZR (right_minus_left im x y * right_minus_left im x y + bottom_minus_top im x y * bottom_minus_top im x y))).
  { unfold gradient_norm, gradient. replace (/ 2) with (sqrt (/ 4)).
    - rewrite <- sqrt_mult_alt by lra. f_equal. unfold Rdiv. rewrite Rmult_comm. f_equal. f_equal.
      unfold right_minus_left, bottom_minus_top. ring.
    - apply sqrt_lem_1; lra. }
  rewrite <- G. split; [apply pixel_angle_defined|]. intros [B N]. unfold pixel_angle. cbn [fst snd].
  destruct (gradient im (x, y)) as [gx gy].
  destruct ((0 <=? x)%Z && (x <? cols im - 1)%Z && (0 <=? y)%Z && (y <? rows im - 1)%Z) eqn:B'; [|lia].
  destruct (rle_spec (gradient_norm im (x, y)) t); [lra|discriminate].
Qed.
(** and their direction is a quarter of turn from the gradient, always on the same side. *)
Theorem C95_level_line fa e im t x y a :
  accurate e fa -> f_angle (ll_field fa im t) (x, y) = Some a ->
  exists v, Rabs (a - v) <= e /\
    let n := sqrt (IZR (right_minus_left im x y) * IZR (right_minus_left im x y) + IZR (bottom_minus_top im x y) * IZR (bottom_minus_top im x y)) in
    IZR (right_minus_left im x y) = n * sin v /\ IZR (bottom_minus_top im x y) = - n * cos v.
Proof.
  intros AC. cbn [ll_field f_angle]. unfold pixel_angle.
  assert (G : gradient im (x, y) = (right_minus_left im x y, bottom_minus_top im x y)).
  { unfold gradient, right_minus_left, bottom_minus_top. f_equal; ring. }
  rewrite G. destruct (_ && _ && _ && _); [|discriminate]. destruct (rle _ t); [discriminate|]. intros E. injection E as <-.
  set (u := IZR (right_minus_left im x y)). set (w := IZR (bottom_minus_top im x y)).
  destruct (AC u (- w)) as (v & A & C & S). exists v. split; [exact A|].
  replace (- w * - w + u * u) with (u * u + w * w) in C, S by ring. cbn zeta.
  set (n := sqrt (u * u + w * w)) in *. split; lra.
Qed.
(** Two angles are aligned when they differ by at most the tolerance, up to turns, *)
Theorem C95_alignment f q t prec :
  sound_field f -> 0 <= t < 2 * PI -> prec < PI / 2 ->
  is_aligned f q t prec = true <-> f_angle f q <> None /\ near_angle prec (angle_at f q) t.
Proof. apply is_aligned_near. Qed.
(** but this is wrong for tolerances of more than a quarter of turn, that the constructor
    accepts. *)
Definition one_angle (a : R) : field :=
  mkField 2 2 (fun p => if pixel_eqb p (0, 0)%Z then Some a else None) (fun _ => 1).
Lemma one_angle_sound a : 0 <= a < 2 * PI -> sound_field (one_angle a).
Proof.
  intros A p b. cbn. destruct (pixel_eqb_spec p (0, 0)%Z) as [->|]; [|discriminate]. intros E. injection E as <-.
  cbn. repeat split; try lia; lra.
Qed.
Theorem C95_wide_tolerance_refuted :
  exists f q t prec, sound_field f /\ 0 <= t < 2 * PI /\ PI / 2 <= prec < PI /\
    f_angle f q <> None /\ near_angle prec (angle_at f q) t /\ is_aligned f q t prec = false.
Proof.
  pose proof PI_RGT_0 as P. exists (one_angle (5 / 4 * PI)), (0, 0)%Z, 0, (3 / 4 * PI).
  split; [apply one_angle_sound; lra|]. split; [lra|]. split; [lra|]. split; [discriminate|]. split.
  - exists (-1)%Z. cbn. apply Rabs_le. lra.
  - unfold is_aligned. cbn. destruct (rlt_spec (0 - 5 / 4 * PI) 0); [|lra].
    destruct (rlt_spec (3 * PI / 2) (- (0 - 5 / 4 * PI))); [lra|]. destruct (rle_spec (- (0 - 5 / 4 * PI)) (3 / 4 * PI)); [lra|auto].
Qed.
(** A region is grown from its seed, always ends, and is what it has to be. *)
Theorem C95_region fa f used s prec :
  in_degrees fa -> sound_field f -> prec < PI / 2 -> f_angle f s <> None -> used s = false ->
  exists g, region_grow fa f used s prec = Some g /\ grown fa f used s prec (g_reg g) /\
    g_angle g = region_angle fa f (g_reg g) /\
    (forall q, g_used g q = true <-> used q = true \/ In q (g_reg g)).
Proof. intros FA SF PR SA SU. apply region_grow_ok; auto. Qed.

(** ** C96: the rectangles *)
(** The loops of the difference of angles end, with the smallest difference. *)
Theorem C96_turns a b :
  (exists n, forall m, angle_loops (n + m) a b = Some (angle_diff_signed a b)) /\
  - PI < angle_diff_signed a b <= PI /\ (exists k : Z, angle_diff_signed a b = a - b + 2 * PI * IZR k) /\
  forall e, angle_diff a b <= e <-> near_angle e a b.
Proof.
  split; [apply angle_loops_value|]. split; [apply angle_diff_signed_range|]. split; [eexists; reflexivity|]. intros e. exact (angle_diff_near e a b).
Qed.
(** A region of two pixels or more has a rectangle. *)
Theorem C96_defined fa f reg a prec :
  (forall p, In p reg -> 0 < f_norm f p) -> (exists p q, In p reg /\ In q reg /\ p <> q) ->
  exists r, region2rect fa f reg a prec = Some r.
Proof.
  intros N D. pose proof (region2rect_defined fa f reg a prec N D) as H.
  destruct (region2rect fa f reg a prec) as [r|]; [eauto|congruence].
Qed.
Lemma along_mean fa f reg a prec r :
  region2rect fa f reg a prec = Some r ->
  sum (map (fun p => f_norm f p * along r p) reg) = 0.
Proof.
  intros H. destruct (region2rect_value _ _ _ _ _ _ H) as (W & X & Y & _). cbn zeta in *.
  set (w := sum (map (f_norm f) reg)) in *.
  assert (EX : sum (map (fun p => px p * f_norm f p) reg) = cx r * w) by (rewrite X; field; lra).
  assert (EY : sum (map (fun p => py p * f_norm f p) reg) = cy r * w) by (rewrite Y; field; lra).
  transitivity (cos (theta r) * (sum (map (fun p => px p * f_norm f p) reg) - cx r * w)
                + sin (theta r) * (sum (map (fun p => py p * f_norm f p) reg) - cy r * w)); [|rewrite EX, EY; ring].
  unfold w, along, sum. clear. induction reg as [|p l IH]; cbn; [ring|]. rewrite IH. ring.
Qed.
Lemma extreme_reached (w h : pixel -> R) reg m :
  (forall p, In p reg -> 0 < w p) -> reg <> [] -> sum (map (fun p => w p * h p) reg) = 0 ->
  (forall p, In p reg -> h p <= m) -> m = 0 \/ (exists p, In p reg /\ h p = m) -> exists p, In p reg /\ h p = m.
Proof.
  intros W N S U [-> | H]; auto.
  assert (Z : forall p, In p reg -> w p * - h p = 0).
  { apply (sum_map_null (fun p => w p * - h p) reg).
    - intros p P. pose proof (W p P). pose proof (U p P). nra.
    - transitivity (-1 * sum (map (fun p => w p * h p) reg)); [|rewrite S; ring]. rewrite <- sum_map_scal.
      apply sum_map_ext. intros p _. ring. }
  destruct reg as [|p t]; [congruence|]. exists p. split; [left; auto|].
  specialize (Z p (or_introl eq_refl)). pose proof (W p (or_introl eq_refl)). apply Rmult_integral in Z as [Z | Z]; lra.
Qed.
(** The segment goes from the first pixel of the region to the last one along its axis, and
    the width of the rectangle is the extent of the region across this axis, of one pixel at least. *)
Theorem C96_rectangle fa f reg a prec r :
  (forall p, In p reg -> 0 < f_norm f p) -> reg <> [] -> region2rect fa f reg a prec = Some r ->
  exists l1 l2 w1 w2,
    (x1 r, y1 r) = on_axis r l1 /\ (x2 r, y2 r) = on_axis r l2 /\ l1 <= 0 <= l2 /\ w1 <= 0 <= w2 /\
    (forall p, In p reg -> l1 <= along r p <= l2 /\ w1 <= across r p <= w2) /\
    (exists p, In p reg /\ along r p = l1) /\ (exists p, In p reg /\ along r p = l2) /\
    (w1 = 0 \/ exists p, In p reg /\ across r p = w1) /\ (w2 = 0 \/ exists p, In p reg /\ across r p = w2) /\
    width r = Rmax 1 (w2 - w1).
Proof.
  intros NP NE H. pose proof (along_mean _ _ _ _ _ _ H) as ME.
  destruct (region2rect_value _ _ _ _ _ _ H) as (W & X & Y & T & e & C & X1 & Y1 & X2 & Y2 & WD).
  cbn zeta in *. rewrite <- X, <- Y in *. destruct C as [L0 W0 L WW A1 A2 A3 A4].
  assert (AC : forall p, w_of (cx r) (cy r) (cos (theta r)) (sin (theta r)) p = across r p) by (intros p; unfold w_of, across; ring).
  exists (l_min e), (l_max e), (w_min e), (w_max e). unfold on_axis. rewrite X1, Y1, X2, Y2.
  do 4 (split; [auto|]). split; [|split; [|split; [|split; [|split]]]].
  - intros p P. rewrite <- AC. split; [apply (L p P) | apply (WW p P)].
  - destruct (extreme_reached (f_norm f) (fun p => - along r p) reg (- l_min e)) as (p & P & E); auto.
    + transitivity (-1 * sum (map (fun p => f_norm f p * along r p) reg)); [|rewrite ME; ring]. rewrite <- sum_map_scal.
      apply sum_map_ext. intros p _. ring.
    + intros p P. pose proof (proj1 (L p P)) as B. change (l_min e <= along r p) in B. lra.
    + destruct A1 as [-> | (p & P & E)]; [left; ring | right]. exists p. split; [auto|]. change (along r p = l_min e) in E. lra.
    + exists p. split; [auto|lra].
  - apply (extreme_reached (f_norm f) (along r) reg); auto. intros p P. apply (L p P).
  - destruct A3 as [A3 | (p & P & E)]; auto. right. exists p. rewrite <- AC. auto.
  - destruct A4 as [A4 | (p & P & E)]; auto. right. exists p. rewrite <- AC. auto.
  - exact WD.
Qed.
(** Its center is the weighted mean of the pixels, and no line is a better fit of the weighted
    pixels than its axis, up to the accuracy of the arc tangent. *)
Theorem C96_axis fa e f reg a prec r :
  accurate e fa -> (forall p, In p reg -> 0 < f_norm f p) -> region2rect fa f reg a prec = Some r ->
  sum (map (fun p => f_norm f p * (px p - cx r)) reg) = 0 /\ sum (map (fun p => f_norm f p * (py p - cy r)) reg) = 0 /\
  forall x y c s, c * c + s * s = 1 ->
    scatter f reg (cx r) (cy r) (cos (theta r)) (sin (theta r)) <= scatter f reg x y c s + e * e * spread f reg (cx r) (cy r).
Proof.
  intros AC NP H. destruct (region2rect_value _ _ _ _ _ _ H) as (W & X & Y & T & _). cbn zeta in *.
  pose proof (scatter_center f reg) as SC. cbn zeta in SC.
  set (w := sum (map (f_norm f) reg)) in *.
  assert (EX : sum (map (fun p => px p * f_norm f p) reg) = cx r * w) by (rewrite X; field; lra).
  assert (EY : sum (map (fun p => py p * f_norm f p) reg) = cy r * w) by (rewrite Y; field; lra).
  split; [|split].
  - transitivity (sum (map (fun p => px p * f_norm f p) reg) - cx r * w); [|lra]. unfold w, sum. clear.
    induction reg as [|p l IH]; cbn; [ring|]. rewrite IH. ring.
  - transitivity (sum (map (fun p => py p * f_norm f p) reg) - cy r * w); [|lra]. unfold w, sum. clear.
    induction reg as [|p l IH]; cbn; [ring|]. rewrite IH. ring.
  - intros x y c s U. specialize (SC x y c s W). rewrite <- X, <- Y in *. rewrite SC. clear SC.
    assert (0 <= w * ((cx r - x) * s - (cy r - y) * c) * ((cx r - x) * s - (cy r - y) * c)) as P.
    { rewrite Rmult_assoc. apply Rmult_le_pos; [lra | apply Rle_0_sqr]. }
    set (extra := w * ((cx r - x) * s - (cy r - y) * c) * ((cx r - x) * s - (cy r - y) * c)) in *. clearbody extra.
    rewrite !scatter_form, spread_form.
    set (ixx := sum (map (fun p => (py p - cy r) * (py p - cy r) * f_norm f p) reg)) in *.
    set (iyy := sum (map (fun p => (px p - cx r) * (px p - cx r) * f_norm f p) reg)) in *.
    set (ixy := - sum (map (fun p => (px p - cx r) * (py p - cy r) * f_norm f p) reg)) in *.
    assert (0 <= ixx) as IX.
    { apply sum_map_nonneg. intros p Q. pose proof (NP p Q). apply Rmult_le_pos; [apply Rle_0_sqr | lra]. }
    assert (0 <= iyy) as IY.
    { apply sum_map_nonneg. intros p Q. pose proof (NP p Q). apply Rmult_le_pos; [apply Rle_0_sqr | lra]. }
    pose proof (form_min ixx iyy ixy c s U) as FM. cbn beta in FM.
    assert (ixy * ixy <= ixx * iyy) as CS.
    { (* the sum of squares [scatter] is never negative *)
      assert (NN : forall c s, 0 <= c * c * ixx + s * s * iyy + 2 * c * s * ixy).
      { intros c' s'. unfold ixx, iyy, ixy. rewrite <- scatter_form. unfold scatter. apply sum_map_nonneg. intros p Q.
        pose proof (NP p Q). rewrite Rmult_assoc. apply Rmult_le_pos; [lra | apply Rle_0_sqr]. }
      destruct (Req_dec ixx 0) as [Z|NZ].
      - pose proof (NN (- (iyy + 1)) ixy) as Q. rewrite Z in *. nra.
      - pose proof (NN ixy (- ixx)) as Q. assert (0 <= ixx * (ixx * iyy - ixy * ixy)) by lra.
        assert (0 < ixx) by lra. apply Rmult_le_reg_l with ixx; lra. }
    set (lambda := / 2 * (ixx + iyy - sqrt ((ixx - iyy) * (ixx - iyy) + 4 * ixy * ixy))) in *.
    assert (0 <= lambda) as LP.
    { unfold lambda. assert (sqrt ((ixx - iyy) * (ixx - iyy) + 4 * ixy * ixy) <= ixx + iyy); [|lra].
      apply Rsqr_incr_0_var; [|lra]. rewrite Rsqr_sqrt by (pose proof (Rle_0_sqr (ixx - iyy)); pose proof (Rle_0_sqr ixy); unfold Rsqr in *; lra).
      unfold Rsqr. lra. }
    pose proof (axis_form ixx iyy ixy fa e a prec AC IX IY LP) as AF. cbn zeta in AF. rewrite <- T in AF. fold lambda in AF.
    lra.
Qed.
(** The segment has the direction of the region when its axis has it up to the tolerance, *)
Theorem C96_orientation fa f reg a prec r :
  prec < PI / 2 -> region2rect fa f reg a prec = Some r ->
  near_angle prec (theta r) a \/ near_angle prec (theta r + PI) a -> near_angle prec (theta r) a.
Proof.
  intros PR H N. destruct (region2rect_value _ _ _ _ _ _ H) as (_ & _ & _ & T & _). cbn zeta in T. revert T.
  unfold axis_angle. cbn zeta. match goal with |- _ = (if rlt prec (angle_diff ?t a) then _ else _) -> _ => set (u := t) end.
  clearbody u. pose proof PI_RGT_0 as P. destruct (rlt_spec prec (angle_diff u a)) as [L|L]; intros T.
  - destruct N as [N | [k K]]; auto. exfalso. apply (Rlt_not_le _ _ L). apply angle_diff_near.
    exists (k + 1)%Z. rewrite plus_IZR. rewrite T in K. replace (u - a + 2 * PI * (IZR k + 1)) with (u + PI + PI - a + 2 * PI * IZR k) by ring. exact K.
  - rewrite T. apply angle_diff_near. lra.
Qed.
(** but it can have the opposite direction: two pixels of angle 5 pi / 6 side by side. *)
Definition two_pixels (a : R) : field :=
  mkField 3 2 (fun p => if pixel_eqb p (0, 0)%Z || pixel_eqb p (1, 0)%Z then Some a else None) (fun _ => 1).
Lemma two_pixels_sound a : 0 <= a < 2 * PI -> sound_field (two_pixels a).
Proof.
  intros A p b. cbn. destruct (pixel_eqb_spec p (0, 0)%Z) as [->|]; [|destruct (pixel_eqb_spec p (1, 0)%Z) as [->|]; [|discriminate]].
  all: cbn; intros E; injection E as <-; cbn; repeat split; try lia; lra.
Qed.
Lemma two_pixels_in a p : f_angle (two_pixels a) p <> None <-> In p [(0, 0); (1, 0)]%Z.
Proof.
  cbn. destruct (pixel_eqb_spec p (0, 0)%Z) as [->|N]; [cbn; split; [auto | discriminate]|].
  destruct (pixel_eqb_spec p (1, 0)%Z) as [->|M]; cbn; split; auto; try discriminate; try congruence. intros [E | [E | []]]; congruence.
Qed.
Lemma two_pixels_grown fa a prec : 0 <= prec ->
  grown fa (two_pixels a) (fun _ => false) (0, 0)%Z prec [(0, 0); (1, 0)]%Z.
Proof.
  intros P. constructor.
  - eauto.
  - repeat constructor; cbn; intuition congruence.
  - intros p I. split; auto. apply two_pixels_in. auto.
  - intros before q after E NE. destruct before as [|b0 [|b1 [|b2 t]]]; cbn in E; [congruence| | |destruct t; discriminate].
    + injection E as <- <- _. split.
      * exists (0, 0)%Z. split; [left; auto|]. split; [congruence|]. cbn. lia.
      * exists 0%Z. cbn. rewrite Rmult_0_r, Rplus_0_r, Rminus_diag_eq, Rabs_R0 by reflexivity. exact P.
    + discriminate.
  - intros p q _ _ D N. apply two_pixels_in in D. contradiction.
Qed.
Lemma exact_half_turn x : x < 0 -> exact_atan2 0 x = 180.
Proof.
  intros X. pose proof PI_RGT_0 as P. unfold exact_atan2.
  assert (E : atan2 0 x = PI).
  { pose proof (atan2_unique (- x) PI) as U. rewrite sin_PI, cos_PI in U. rewrite Rmult_0_r in U. replace (- x * -1) with x in U by ring.
    apply U; lra. }
  rewrite E. replace (PI * (180 / PI)) with 180 by (field; lra). destruct (Rlt_dec 180 0); lra.
Qed.
Lemma exact_scaled n a : 0 < n -> 0 <= a < 2 * PI -> exact_atan2 (n * sin a) (n * cos a) * (PI / 180) = a.
Proof.
  intros N A. pose proof PI_RGT_0 as P. unfold exact_atan2.
  destruct (Rle_dec a PI) as [L|L].
  - rewrite atan2_unique by lra. replace (a * (180 / PI) * (PI / 180)) with a by (field; lra).
    destruct (Rlt_dec (a * (180 / PI)) 0) as [G|G]; [|field; lra].
    exfalso. assert (0 <= a * (180 / PI)); [|lra]. apply Rmult_le_pos; [lra|]. apply Rlt_le, Rdiv_lt_0_compat; lra.
  - assert (E : atan2 (n * sin a) (n * cos a) = a - 2 * PI).
    { rewrite <- (atan2_unique n (a - 2 * PI)) by lra.
      replace (sin (a - 2 * PI)) with (sin a); [replace (cos (a - 2 * PI)) with (cos a)|]; auto.
      - replace (cos a) with (cos (a - 2 * PI + 2 * INR 1 * PI)) by (f_equal; cbn; ring). apply cos_period.
      - replace (sin a) with (sin (a - 2 * PI + 2 * INR 1 * PI)) by (f_equal; cbn; ring). apply sin_period. }
    rewrite E. destruct (Rlt_dec ((a - 2 * PI) * (180 / PI)) 0) as [G|G]; [field; lra|].
    exfalso. apply G. assert (0 < (2 * PI - a) * (180 / PI)); [|lra]. apply Rmult_lt_0_compat; [lra|]. apply Rdiv_lt_0_compat; lra.
Qed.
Theorem C96_orientation_refuted :
  exists fa f s reg r, in_degrees fa /\ accurate 0 fa /\ sound_field f /\ grown fa f (fun _ => false) s (PI / 8) reg /\
    region2rect fa f reg (region_angle fa f reg) (PI / 8) = Some r /\
    (forall p, In p reg -> near_angle 0 (angle_at f p) (region_angle fa f reg)) /\
    cos (theta r - region_angle fa f reg) < 0.
Proof.
  pose proof PI_RGT_0 as P. set (a := 5 / 6 * PI).
  exists exact_atan2, (two_pixels a), (0, 0)%Z, [(0, 0); (1, 0)]%Z.
  assert (A : region_angle exact_atan2 (two_pixels a) [(0, 0); (1, 0)]%Z = a).
  { unfold region_angle. cbn. rewrite !Rplus_0_r.
    replace (sin a + sin a) with (2 * sin a) by ring. replace (cos a + cos a) with (2 * cos a) by ring.
    apply exact_scaled; unfold a; lra. }
  rewrite A.
  assert (R : exists r, region2rect exact_atan2 (two_pixels a) [(0, 0); (1, 0)]%Z a (PI / 8) = Some r).
  { apply C96_defined; [intros; cbn; lra|]. exists (0, 0)%Z, (1, 0)%Z. cbn. repeat split; auto. congruence. }
  destruct R as [r R]. exists r. split; [apply exact_in_degrees|]. split; [apply exact_accurate|].
  split; [apply two_pixels_sound; unfold a; lra|]. split; [apply two_pixels_grown; lra|]. split; [exact R|]. split.
  - intros p I. exists 0%Z. replace (angle_at (two_pixels a) p) with a.
    + rewrite Rmult_0_r, Rplus_0_r, Rminus_diag_eq, Rabs_R0 by reflexivity. lra.
    + destruct I as [<- | [<- | []]]; reflexivity.
  - destruct (region2rect_value _ _ _ _ _ _ R) as (_ & _ & _ & T & _). cbn zeta in T.
    unfold px, py, sum in T. cbn in T.
    replace (theta r) with (2 * PI).
    + replace (2 * PI - a) with (PI + PI / 6) by (unfold a; field). rewrite Rplus_comm, neg_cos, cos_PI6.
      assert (0 < sqrt 3) by (apply sqrt_lt_R0; lra). lra.
    + rewrite T. unfold axis_angle. cbn zeta.
      match goal with |- context [rlt (Rabs ?iyy) (Rabs ?ixx)] =>
        replace iyy with (/ 2) by field; replace ixx with 0 by field end.
      match goal with |- context [exact_atan2 ?ixy (?l - / 2)] => replace ixy with 0 by field end.
      match goal with |- context [exact_atan2 0 (?l - / 2)] => replace l with 0 end.
      * rewrite Rabs_R0. rewrite (Rabs_pos_eq (/ 2)) by lra. destruct (rlt_spec (/ 2) 0); [lra|].
        rewrite exact_half_turn by lra. unfold to_radians. replace (180 * (PI / 180)) with PI by field.
        destruct (rlt_spec (PI / 8) (angle_diff PI a)) as [L|L]; [ring|]. exfalso. apply L. apply Rnot_le_lt. intros N.
        apply angle_diff_near in N as [k K]. apply abs_le_inv in K. unfold a in K.
        destruct (Z_lt_le_dec k 0) as [Q|Q].
        -- assert (IZR k <= -1) by (apply IZR_le; lia). nra.
        -- destruct (Z.eq_dec k 0) as [->|Q']; [lra|]. assert (1 <= IZR k) by (apply IZR_le; lia). nra.
      * match goal with |- context [sqrt ?x] => replace x with (/ 2 * / 2) by field end. rewrite sqrt_square by lra. field.
Qed.

(** ** C97: the detection *)
Lemma segmentation_ext fa f s s' prec parts :
  (forall p, f_angle f p <> None -> s p = s' p) -> segmentation fa f s prec parts -> segmentation fa f s' prec parts.
Proof.
  intros E [O A G]. constructor; auto. intros before reg after P. destruct (G before reg after P) as (sd & used & GR & U & ST).
  exists sd, used. split; [exact GR|]. split; [exact U|]. intros q D N.
  assert (f_angle f sd <> None) as DS. { apply (grown_free _ _ _ _ _ _ GR). destruct (grown_seed _ _ _ _ _ _ GR) as [t ->]. left. auto. }
  rewrite <- !E by auto. apply ST; auto.
Qed.
Lemma max_gradient_is fa im t m :
  0 <= t -> strongest (ll_field fa im t) m -> (exists p, f_angle (ll_field fa im t) p <> None) -> max_gradient im t = m.
Proof.
  intros T [U M] [p0 D0]. destruct M as [(pm & DM & EM)|N]; [|exfalso; apply D0; apply N].
  assert (DEF : forall p, f_angle (ll_field fa im t) p <> None <-> In p (inner_pixels im) /\ t < gradient_norm im p).
  { intros p. cbn. rewrite inner_pixels_in. split; [intros H; apply pixel_angle_defined in H; tauto|]. intros [B N].
    unfold pixel_angle. destruct (gradient im p).
    destruct (_ && _ && _ && _) eqn:B'; [|lia]. destruct (rle_spec (gradient_norm im p) t); [lra|discriminate]. }
  unfold max_gradient. cbn in EM, U.
  assert (K : forall l acc, (forall p, In p l -> t < gradient_norm im p -> gradient_norm im p <= m) -> acc <= m ->
     acc = m \/ (exists p, In p l /\ t < gradient_norm im p /\ gradient_norm im p = m) ->
     fold_left (fun mm p => if rle (gradient_norm im p) t then mm else if rlt mm (gradient_norm im p) then gradient_norm im p else mm) l acc = m).
  { induction l as [|p l IH]; intros acc UL AM EX; cbn [fold_left].
    - destruct EX as [E | (p & [] & _)]; auto.
    - destruct (rle_spec (gradient_norm im p) t) as [L|L].
      + apply IH; auto. { intros q Q. apply UL. right; auto. }
        destruct EX as [E | (q & [-> | Q] & E1 & E2)]; [auto | lra | right; eauto].
      + assert (gradient_norm im p <= m) by (apply UL; [left; auto | lra]).
        destruct (rlt_spec acc (gradient_norm im p)) as [L'|L']; apply IH; auto.
        1,3: intros q Q; apply UL; right; auto.
        * destruct EX as [E | (q & [-> | Q] & E1 & E2)]; [lra | auto | right; eauto].
        * destruct EX as [E | (q & [-> | Q] & E1 & E2)]; [auto | left; lra | right; eauto]. }
  apply DEF in DM as [IM LM]. apply K.
  - intros p I L. apply U. apply DEF. auto.
  - lra.
  - right. exists pm. auto.
Qed.
Lemma sin_pos a : 0 < a < 90 -> 0 < sin (PI * a / 180) /\ PI * a / 180 < PI / 2.
Proof.
  intros A. pose proof PI_RGT_0. split; [|nra]. apply sin_gt_0; [|nra]. apply Rmult_lt_0_compat; [|lra]. nra.
Qed.
(** The lines of an image are the segments of its large enough regions. *)
Theorem C97_detection fa sort rescale fuel a im m :
  in_degrees fa -> sorts sort -> p_refine a = false -> p_scale a <> 0 -> 0 <= p_quant a -> 0 < p_angle a < 90 ->
  let sc := if Req_EM_T (p_scale a) 1 then im else rescale (p_scale a) im in
  let prec := PI * p_angle a / 180 in
  let f := ll_field fa sc (p_quant a / sin prec) in
  let min_size := min_region_size a (cols sc) (rows sc) in
  (2 <= min_size)%Z -> strongest f m ->
  exists parts segs lines,
    segmentation fa f (level f m (p_bins a)) prec parts /\
    map fst segs = filter (fun reg => (min_size <=? Z.of_nat (length reg))%Z) parts /\
    (forall reg r, In (reg, r) segs -> region2rect fa f reg (region_angle fa f reg) prec = Some r) /\
    fst (detect fa sort rescale fuel a [] im) = Some lines /\
    Forall2 (fun l g => ends_of (p_scale a) l (snd g)) lines segs.
Proof.
  intros FA SO RF SC Q A sc prec f min_size MS ST. destruct (sin_pos _ A) as [SP PP]. fold prec in SP, PP.
  assert (T : 0 <= p_quant a / sin prec) by (apply Rmult_le_pos; [lra | apply Rlt_le, Rinv_0_lt_compat; lra]).
  assert (SF : sound_field f) by (apply ll_field_sound; auto).
  destruct (sorted_pixels sort sc (p_quant a / sin prec) (p_bins a) SO) as [OI OS].
  destruct (search_ok fa f prec (p_density a) min_size fuel (bin_of sc (p_quant a / sin prec) (p_bins a)) FA SF PP MS
              (map fst (sort (binned_points sc (p_quant a / sin prec) (p_bins a))))) as (st & parts & E & SG & MF & RE); auto.
  { intros p D. apply OI. apply inner_pixels_in. unfold f in D. cbn in D. apply pixel_angle_defined in D. tauto. }
  exists parts, (s_found st), (map (to_line (p_scale a)) (s_found st)). split; [|split; [exact MF|split; [exact RE|split]]].
  - revert SG. apply segmentation_ext. intros p D. unfold bin_of, level. cbn [f_norm f ll_field].
    rewrite (max_gradient_is fa sc _ m) by (auto; exists p; exact D).
    assert (0 < f_norm f p) as NP. { destruct (f_angle f p) as [b|] eqn:B; [|congruence]. apply (SF p b B). }
    pose proof (proj1 ST p D). destruct (rlt_spec 0 m); [reflexivity|lra].
  - unfold detect, flsd. fold sc. cbn [fst app]. change (scaled_image rescale a im) with sc.
    change (gradient_threshold a) with (p_quant a / sin prec). change (precision a) with prec. rewrite RF.
    fold f. fold min_size. rewrite E. reflexivity.
  - clear - SC. induction (s_found st) as [|g l IH]; cbn; constructor; auto. unfold ends_of, to_line. destruct (Req_EM_T (p_scale a) 1) as [->|]; cbn.
    + repeat split; ring.
    + repeat split; field; exact SC.
Qed.
(** The least size is the largest one for which the number of the rectangles of the image, times
    the probability that as many pixels have the same direction, is one or more. *)
Lemma power_bounds p k n : 0 < p < 1 -> 1 <= k -> n = Int_part (- ln k / ln p) ->
  (0 <= n)%Z /\ p ^ (Z.to_nat n + 1) * k < 1 <= p ^ (Z.to_nat n) * k.
Proof.
  intros [P0 P1] K ->. pose proof (int_part_bounds (- ln k / ln p)) as B.
  assert (LP : ln p < 0) by (rewrite <- ln_1; apply ln_increasing; lra).
  assert (LK : 0 <= ln k) by (rewrite <- ln_1; destruct K as [K| <-]; [apply Rlt_le, ln_increasing; lra | lra]).
  assert (E : - ln k / ln p * ln p = - ln k) by (field; lra).
  set (z := - ln k / ln p) in *. assert (0 <= z) by nra.
  assert (N : (0 <= Int_part z)%Z). { assert (-1 < Int_part z)%Z; [|lia]. apply lt_IZR. lra. }
  split; [exact N|].
  assert (IN : INR (Z.to_nat (Int_part z)) = IZR (Int_part z)) by (rewrite INR_IZR_INZ, Z2Nat.id; auto).
  assert (PW : forall n, p ^ n * k = exp (INR n * ln p + ln k)).
  { intros n. rewrite exp_plus, exp_ln by lra. f_equal. rewrite <- Rpower_pow by lra. reflexivity. }
  rewrite !PW, plus_INR, IN. cbn [INR]. split.
  - apply Rlt_le_trans with (exp 0); [apply exp_increasing; nra | rewrite exp_0; lra].
  - assert (0 <= IZR (Int_part z) * ln p + ln k) as [L | <-] by nra; [|rewrite exp_0; lra].
    apply Rle_trans with (exp 0); [rewrite exp_0; lra | apply Rlt_le, exp_increasing; lra].
Qed.
Theorem C97_min_size a c r :
  0 < p_angle a < 180 -> (0 < c)%Z -> (0 < r)%Z ->
  let n := min_region_size a c r in
  let p := p_angle a / 180 in
  let rectangles := 11 * sqrt (IZR (c * r)) ^ 5 in
  (0 <= n)%Z /\ p ^ (Z.to_nat n + 1) * rectangles < 1 <= p ^ (Z.to_nat n) * rectangles.
Proof.
  intros A C R. cbn zeta.
  assert (1 <= IZR c) as C1 by (apply IZR_le; lia). assert (1 <= IZR r) as R1 by (apply IZR_le; lia).
  assert (1 <= IZR (c * r)) as CR by (apply IZR_le; nia).
  assert (1 <= sqrt (IZR (c * r))) as SQ by (rewrite <- sqrt_1; apply sqrt_le_1_alt; exact CR).
  assert (1 <= sqrt (IZR (c * r)) ^ 5) as P5 by (apply pow_R1_Rle; exact SQ).
  apply power_bounds; [lra | lra |].
  unfold min_region_size. f_equal. unfold log_nt, log10.
  assert (L10 : 0 < ln 10) by (rewrite <- ln_1; apply ln_increasing; lra).
  assert (LP : ln (p_angle a / 180) < 0) by (rewrite <- ln_1; apply ln_increasing; lra).
  rewrite ln_mult by (try apply pow_lt; lra).
  replace (ln (sqrt (IZR (c * r)) ^ 5)) with (5 * (ln (IZR c) + ln (IZR r)) / 2).
  - field. split; lra.
  - rewrite <- Rpower_pow by lra. unfold Rpower. rewrite ln_exp. cbn [INR].
    assert (ln (IZR (c * r)) = 2 * ln (sqrt (IZR (c * r)))) as E.
    { rewrite <- (sqrt_sqrt (IZR (c * r))) at 1 by lra. rewrite ln_mult by lra. ring. }
    rewrite mult_IZR, ln_mult in E by lra. rewrite mult_IZR. lra.
Qed.
Theorem C97_default_size s c r : (2 <= c)%Z -> (2 <= r)%Z -> (2 <= min_region_size (line_detection_params s) c r)%Z.
Proof.
  intros C R. destruct (C97_min_size (line_detection_params s) c r) as (N & U & _); try lia; [cbn; lra|]. cbn zeta in *.
  set (n := min_region_size (line_detection_params s) c r) in *. clearbody n.
  replace (p_angle (line_detection_params s) / 180) with (/ 8) in U by (cbn; field).
  destruct (Z_lt_le_dec n 2) as [L|L]; auto. exfalso.
  assert (2 <= sqrt (IZR (c * r))) as SQ.
  { replace 2 with (sqrt (2 * 2)) by (apply sqrt_square; lra). apply sqrt_le_1_alt. rewrite <- mult_IZR. apply IZR_le. nia. }
  assert (2 ^ 5 <= sqrt (IZR (c * r)) ^ 5) as P5 by (apply pow_incr; lra).
  set (q := sqrt (IZR (c * r)) ^ 5) in *. clearbody q.
  assert (n = 0 \/ n = 1)%Z as [-> | ->] by lia; change (Z.to_nat 0 + 1)%nat with 1%nat in *; change (Z.to_nat 1 + 1)%nat with 2%nat in *; lra.
Qed.
(** There are no more lines than the image can have regions of this size. *)
Lemma concat_length {A} (n : Z) (l : list (list A)) :
  (0 <= n)%Z -> (Z.of_nat (length (filter (fun x => (n <=? Z.of_nat (length x))%Z) l)) * n <= Z.of_nat (length (concat l)))%Z.
Proof.
  intros N. induction l as [|x l IH]; cbn [filter concat]; [cbn; lia|]. rewrite app_length.
  destruct (Z.leb_spec n (Z.of_nat (length x))); cbn [length]; nia.
Qed.
Theorem C97_count fa sort rescale fuel a im lines :
  in_degrees fa -> sorts sort -> p_refine a = false -> p_scale a <> 0 -> 0 <= p_quant a -> 0 < p_angle a < 90 ->
  let sc := if Req_EM_T (p_scale a) 1 then im else rescale (p_scale a) im in
  let min_size := min_region_size a (cols sc) (rows sc) in
  (2 <= min_size)%Z -> (1 <= cols sc)%Z -> (1 <= rows sc)%Z ->
  fst (detect fa sort rescale fuel a [] im) = Some lines ->
  (Z.of_nat (length lines) * min_size <= (cols sc - 1) * (rows sc - 1))%Z.
Proof.
  intros FA SO RF SC Q A sc min_size MS C R D.
  set (f := ll_field fa sc (p_quant a / sin (PI * p_angle a / 180))).
  assert (M : exists m, strongest f m).
  { set (def := fun p => match f_angle f p with Some _ => true | None => false end).
    assert (K : forall l : list pixel, (forall p, In p l -> def p = false) \/
              exists p, In p l /\ def p = true /\ forall q, In q l -> def q = true -> f_norm f q <= f_norm f p).
    { induction l as [|q l [IH | (p & I & DP & U)]].
      - left. intros p [].
      - destruct (def q) eqn:DQ.
        + right. exists q. repeat split; auto. { left; auto. } intros q' [<- | I] D'; [lra|]. rewrite IH in D' by auto. discriminate.
        + left. intros p [<- | I]; auto.
      - right. destruct (def q) eqn:DQ.
        + destruct (Rle_lt_dec (f_norm f q) (f_norm f p)) as [L|L].
          * exists p. repeat split; auto. { right; auto. } intros q' [<- | I'] D'; auto.
          * exists q. repeat split; auto. { left; auto. } intros q' [<- | I'] D'; [lra|]. specialize (U q' I' D'). lra.
        + exists p. repeat split; auto. { right; auto. } intros q' [<- | I'] D'; [congruence|auto]. }
    assert (IN : forall p, f_angle f p <> None -> In p (inner_pixels sc)).
    { intros p D'. apply inner_pixels_in. unfold f in D'. cbn in D'. apply pixel_angle_defined in D'. tauto. }
    assert (DD : forall p, def p = true <-> f_angle f p <> None).
    { intros p. unfold def. destruct (f_angle f p); split; congruence. }
    destruct (K (inner_pixels sc)) as [NO | (p & I & DP & U)].
    - exists 0. assert (Z : forall p, f_angle f p = None).
      { intros p. destruct (f_angle f p) eqn:E; auto. exfalso. assert (f_angle f p <> None) as E' by congruence.
        pose proof (NO p (IN p E')). apply DD in E'. congruence. }
      split; [intros p E; rewrite Z in E; congruence | right; exact Z].
    - exists (f_norm f p). split; [intros q E; apply U; [apply IN; auto | apply DD; auto]|]. left. exists p. split; [apply DD; auto | auto]. }
  destruct M as [m M].
  destruct (C97_detection fa sort rescale fuel a im m FA SO RF SC Q A MS M) as (parts & segs & lines' & SG & MF & _ & E & F2).
  rewrite D in E. injection E as <-. assert (length lines = length segs) as LS by (clear - F2; induction F2; cbn; lia).
  rewrite LS, <- (map_length fst), MF.
  eapply Z.le_trans; [apply concat_length; lia|].
  assert (NoDup (concat parts)) as ND by apply SG.
  assert (incl (concat parts) (inner_pixels sc)) as I.
  { intros p P. apply SG in P. apply inner_pixels_in. cbn in P. apply pixel_angle_defined in P. tauto. }
  pose proof (NoDup_incl_length ND I) as LE. unfold inner_pixels in LE. rewrite pixels_of_length in LE. nia.
Qed.
(** The detector keeps nothing from an image to the next one. *)
Theorem C97_stateless fa sort rescale fuel a ims :
  detect_all fa sort rescale fuel a [] ims = map (fun im => fst (detect fa sort rescale fuel a [] im)) ims.
Proof. induction ims as [|im t IH]; cbn; [reflexivity|]. f_equal. exact IH. Qed.
(** ** C98: the refinement of the regions, when it is asked for *)
Lemma mean_square l : l <> [] ->
  mean (map (fun x => (x - mean l) * (x - mean l)) l)
  = (sum (map (fun x => x * x) l) - 2 * mean l * sum l) / INR (length l) + mean l * mean l.
Proof.
  intros N. assert (0 < INR (length l)) as P by (apply lt_0_INR; destruct l; cbn; [congruence|lia]).
  set (m := mean l). clearbody m. unfold mean. rewrite map_length.
  replace (sum (map (fun x => (x - m) * (x - m)) l)) with (sum (map (fun x => x * x) l) - 2 * m * sum l + m * m * INR (length l)).
  - field. lra.
  - clear. induction l as [|x l IH]; [cbn; ring|]. change (length (x :: l)) with (S (length l)). rewrite S_INR. cbn [map sum fold_right].
    change (fold_right Rplus 0) with sum. rewrite <- IH. ring.
Qed.
(** The new tolerance is twice the deviation of the angles, from the one of the seed, of the pixels
    closer to the seed than the width of the rectangle. *)
Theorem C98_tolerance f s reg r :
  hd_error reg = Some s -> 1 <= width r ->
  refined_tolerance f reg r =
    2 * deviation (map (fun p => angle_diff_signed (angle_at f p) (angle_at f s))
                       (filter (fun p => if Rlt_dec (sqrt ((px p - px s) * (px p - px s) + (py p - py s) * (py p - py s))) (width r)
                                         then true else false) reg)).
Proof.
  intros H W. unfold refined_tolerance. replace (hd (0, 0)%Z reg) with s by (destruct reg; cbn in *; congruence).
  change (fun p => rlt (LsdModel.dist (px s) (py s) (px p) (py p)) (width r)) with
    (fun p => if Rlt_dec (sqrt ((px p - px s) * (px p - px s) + (py p - py s) * (py p - py s))) (width r) then true else false).
  set (near := filter _ reg).
  assert (In s near) as I.
  { apply filter_In. split; [destruct reg; cbn in H; [discriminate|]; injection H as ->; left; auto|].
    destruct (Rlt_dec _ _) as [|N]; auto. exfalso. apply N.
    replace ((px s - px s) * (px s - px s) + (py s - py s) * (py s - py s)) with 0 by ring. rewrite sqrt_0. lra. }
  cbn zeta. f_equal. unfold deviation. f_equal. rewrite mean_square.
  - unfold mean. rewrite map_map, map_length. reflexivity.
  - destruct near; [destruct I | discriminate].
Qed.
(** A region that fills its rectangle enough is kept. Another one is grown again from its seed with
    this tolerance, then reduced around its seed if needed: it always ends. *)
Theorem C98_refinement fa f prec th used reg r s :
  in_degrees fa -> sound_field f -> hd_error reg = Some s -> f_angle f s <> None ->
  exists n, forall m,
    (dense reg r th -> refine fa (n + m) f prec th used reg r = Kept used reg r) /\
    (~ dense reg r th -> exists g,
       region_grow fa f (fold_left (fun u p => mark u p false) reg used) s (refined_tolerance f reg r) = Some g /\
       refinement fa f prec th s used reg g (refine fa (n + m) f prec th used reg r)).
Proof. intros FA SF H D. apply refine_ok; auto. Qed.

(** ** C99: the display of the lines *)
Lemma round_quarter_mono a b : (a <= b)%Z -> (round_quarter a <= round_quarter b)%Z.
Proof.
  intros L. assert (K : forall n, (4 * round_quarter n - 2 <= n <= 4 * round_quarter n + 2)%Z /\
                    (n mod 4 = 2 -> Z.even (round_quarter n) = true)%Z).
  { intros n. unfold round_quarter. pose proof (Z.div_mod n 4 ltac:(lia)). pose proof (Z.mod_pos_bound n 4 ltac:(lia)).
    assert (n mod 4 = 0 \/ n mod 4 = 1 \/ n mod 4 = 2 \/ n mod 4 = 3)%Z as [E | [E | [E | E]]] by lia; rewrite E.
    1,2,4: split; [lia | discriminate].
    destruct (Z.even (n / 4)) eqn:EV; (split; [lia|]); auto. intros _. rewrite Z.even_add, EV. reflexivity. }
  destruct (K a) as [A EA]. destruct (K b) as [B EB].
  destruct (Z_lt_le_dec (round_quarter b) (round_quarter a)) as [G|]; auto. exfalso.
  assert (a = 4 * round_quarter a - 2 /\ b = a /\ round_quarter a = round_quarter b + 1)%Z as (E1 & -> & E3) by lia. lia.
Qed.
Lemma round_quarters n : (round_quarter n + round_quarter (3 * n) = n)%Z.
Proof.
  assert (K : forall q m, (0 <= m < 4)%Z -> n = (4 * q + m)%Z -> (round_quarter n + round_quarter (3 * n) = n)%Z).
  { intros q m M ->. unfold round_quarter.
    assert (D : ((4 * q + m) / 4 = q /\ (4 * q + m) mod 4 = m)%Z).
    { split; [symmetry; apply Z.div_unique with m; lia | symmetry; apply Z.mod_unique with q; lia]. }
    destruct D as [-> ->].
    assert (m = 0 \/ m = 1 \/ m = 2 \/ m = 3)%Z as [-> | [-> | [-> | ->]]] by lia.
    - assert ((3 * (4 * q + 0)) / 4 = 3 * q /\ (3 * (4 * q + 0)) mod 4 = 0)%Z as [-> ->].
      { split; [symmetry; apply Z.div_unique with 0%Z; lia | symmetry; apply Z.mod_unique with (3 * q)%Z; lia]. } lia.
    - assert ((3 * (4 * q + 1)) / 4 = 3 * q /\ (3 * (4 * q + 1)) mod 4 = 3)%Z as [-> ->].
      { split; [symmetry; apply Z.div_unique with 3%Z; lia | symmetry; apply Z.mod_unique with (3 * q)%Z; lia]. } lia.
    - assert ((3 * (4 * q + 2)) / 4 = 3 * q + 1 /\ (3 * (4 * q + 2)) mod 4 = 2)%Z as [-> ->].
      { split; [symmetry; apply Z.div_unique with 2%Z; lia | symmetry; apply Z.mod_unique with (3 * q + 1)%Z; lia]. }
      replace (Z.even (3 * q + 1)) with (negb (Z.even q)) by (rewrite Z.even_add, Z.even_mul; destruct (Z.even q); reflexivity).
      destruct (Z.even q); cbn [negb]; lia.
    - assert ((3 * (4 * q + 3)) / 4 = 3 * q + 2 /\ (3 * (4 * q + 3)) mod 4 = 1)%Z as [-> ->].
      { split; [symmetry; apply Z.div_unique with 1%Z; lia | symmetry; apply Z.mod_unique with (3 * q + 2)%Z; lia]. } lia. }
  apply (K (n / 4)%Z (n mod 4)%Z); [apply Z.mod_pos_bound; lia | apply Z.div_mod; lia].
Qed.
(** The two points tested on a line are between its ends. *)
Theorem C99_quarters a b :
  lies_between (fst a) (fst b) (fst (quarter_point a b)) /\ lies_between (snd a) (snd b) (snd (quarter_point a b)).
Proof.
  assert (K : forall x y, lies_between x y (round_quarter x + round_quarter (3 * y))).
  { intros x y. unfold lies_between. pose proof (round_quarters x). pose proof (round_quarters y).
    destruct (Z_le_gt_dec x y).
    - pose proof (round_quarter_mono x y ltac:(lia)). pose proof (round_quarter_mono (3 * x) (3 * y) ltac:(lia)). lia.
    - pose proof (round_quarter_mono y x ltac:(lia)). pose proof (round_quarter_mono (3 * y) (3 * x) ltac:(lia)). lia. }
  split; apply K.
Qed.
(** A line with its ends in the image is drawn between them: in yellow if both ends have a depth,
    else in red if a quarter point has one, else in purple. *)
Lemma truncate_toward x n : toward_zero x n -> truncate x = n.
Proof.
  intros [P N]. unfold truncate, rle. destruct (Rle_dec 0 x) as [L|L].
  - specialize (P L). unfold Int_part. rewrite <- (tech_up x (n + 1)); [lia| |]; rewrite plus_IZR; lra.
  - specialize (N ltac:(lra)). unfold Int_part. rewrite <- (tech_up (- x) (- n + 1)); [lia| |]; rewrite plus_IZR, opp_IZR; lra.
Qed.
Theorem C99_colour c r mask xa ya xb yb a b :
  toward_zero xa (fst a) -> toward_zero ya (snd a) -> toward_zero xb (fst b) -> toward_zero yb (snd b) ->
  (0 <= fst a < c)%Z -> (0 <= snd a < r)%Z -> (0 <= fst b < c)%Z -> (0 <= snd b < r)%Z ->
  exists k, draw_line c r mask ((xa, ya), (xb, yb)) = Drawn a b k /\
    (k = Yellow <-> mask a = true /\ mask b = true) /\
    (k = Red <-> ~ (mask a = true /\ mask b = true) /\ (mask (quarter_point a b) = true \/ mask (quarter_point b a) = true)) /\
    (k = Purple <-> ~ (mask a = true /\ mask b = true) /\ mask (quarter_point a b) = false /\ mask (quarter_point b a) = false).
Proof.
  intros XA YA XB YB CA RA CB RB. apply truncate_toward in XA, YA, XB, YB.
  assert (IA : inside c r a = true) by (unfold inside; lia). assert (IB : inside c r b = true) by (unfold inside; lia).
  assert (IN : forall x y, inside c r x = true -> inside c r y = true -> inside c r (quarter_point x y) = true).
  { intros x y X Y. destruct (C99_quarters x y) as [H V]. unfold lies_between, inside in *. lia. }
  unfold draw_line. rewrite XA, YA, XB, YB, <- !surjective_pairing. cbv zeta. unfold read. rewrite IA, IB, !IN by auto.
  destruct (mask a) eqn:MA, (mask b) eqn:MB, (mask (quarter_point a b)) eqn:M1, (mask (quarter_point b a)) eqn:M2;
    eexists; (split; [reflexivity|]);
    repeat split; intros; try discriminate; try tauto; try reflexivity; intuition discriminate.
Qed.

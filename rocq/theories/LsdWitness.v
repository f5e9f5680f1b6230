(** An image for which the detector returns a line with its ends out of the image. *)
From Verif Require Import LsdSpec LsdGrow LsdRect LsdDetect LsdProps Atan2.
From Coq Require Import Reals ZArith List Bool Lia Lra Psatz ZifyBool Permutation Sorted.
Import ListNotations.
Local Open Scope R_scope.

(** ** A sort *)
Fixpoint insert_point (a : pixel * Z) (l : list (pixel * Z)) : list (pixel * Z) :=
  match l with
  | [] => [a]
  | b :: t => if (snd b <=? snd a)%Z then a :: l else b :: insert_point a t
  end.
Definition insertion_sort (l : list (pixel * Z)) : list (pixel * Z) := fold_right insert_point [] l.
Lemma insert_permutation a l : Permutation (a :: l) (insert_point a l).
Proof.
  induction l as [|b l IH]; cbn; auto. destruct (_ <=? _)%Z; auto.
  eapply perm_trans; [apply perm_swap|]. constructor. exact IH.
Qed.
Lemma insert_sorted a l : StronglySorted (fun a b => (snd b <= snd a)%Z) l -> StronglySorted (fun a b => (snd b <= snd a)%Z) (insert_point a l).
Proof.
  induction l as [|b l IH]; cbn; intros S; [repeat constructor|]. inversion S as [|? ? S' F]; subst.
  destruct (Z.leb_spec (snd b) (snd a)).
  - constructor; auto. constructor; auto. eapply Forall_impl; [|exact F]. cbn. lia.
  - constructor; auto. eapply Permutation_Forall; [apply insert_permutation|]. constructor; [lia|exact F].
Qed.
Lemma insertion_sorts : sorts insertion_sort.
Proof.
  intros l. induction l as [|a l [P S]]; cbn; [split; constructor|]. split.
  - eapply perm_trans; [apply perm_skip; exact P | apply insert_permutation].
  - apply insert_sorted. exact S.
Qed.

(** ** A ramp on one side of the diagonal *)
Definition ramp : image := mkImage 11 11 (fun p => 20 * Z.max 0 (snd p - fst p))%Z.
Definition slope : R := 2 / sin (PI * (225 / 10) / 180).
Definition ramp_field : field := ll_field exact_atan2 ramp slope.
Definition side (p : pixel) : bool := (0 <=? fst p)%Z && (fst p <=? snd p)%Z && (snd p <? 10)%Z.
Definition weight (p : pixel) : Z := if (fst p =? snd p)%Z then 10 else 20.
Notation diagonal := (5 / 4 * PI).

Lemma sqrt_two : 0 < sqrt 2 /\ sqrt 2 * sqrt 2 = 2.
Proof. split; [apply sqrt_lt_R0; lra | apply sqrt_sqrt; lra]. Qed.
Lemma diagonal_value : sin diagonal = - / sqrt 2 /\ cos diagonal = - / sqrt 2.
Proof.
  replace (5 / 4 * PI) with (PI / 4 + PI) by field. rewrite neg_sin, neg_cos, sin_PI4, cos_PI4. unfold Rdiv. split; ring.
Qed.
Lemma slope_bound : 0 <= slope < 10 * sqrt 2.
Proof.
  unfold slope. destruct (sin_pos (225 / 10)) as [P _]; [lra|]. set (a := PI * (225 / 10) / 180) in *.
  assert (E : sin (2 * a) = 2 * sin a * cos a) by apply sin_2a. pose proof (COS_bound a) as [_ C].
  replace (2 * a) with (PI / 4) in E by (unfold a; field). rewrite sin_PI4 in E.
  destruct sqrt_two as [S0 S2]. set (s := sin a) in *. set (q := sqrt 2) in *.
  assert (E' : 1 = 2 * s * cos a * q) by (rewrite <- E; field; lra).
  assert (S1 : 1 <= 2 * s * q). { assert (s * q * cos a <= s * q * 1) by (apply Rmult_le_compat_l; nra). lra. }
  split; [apply Rmult_le_pos; [lra | apply Rlt_le, Rinv_0_lt_compat; lra]|].
  apply Rmult_lt_reg_r with s; [lra|]. replace (2 / s * s) with 2 by (field; lra). lra.
Qed.
Lemma ramp_gradient x y : gradient ramp (x, y) =
  if (x <? y)%Z then (-40, 40)%Z else if (x =? y)%Z then (-20, 20)%Z else (0, 0)%Z.
Proof.
  cbn [gradient ramp at_pixel fst snd]. destruct (Z.ltb_spec x y); [f_equal; lia|]. destruct (Z.eqb_spec x y); f_equal; lia.
Qed.
Lemma sqrt_eight k : 0 <= k -> sqrt (k * k * 2) = k * sqrt 2.
Proof. intros K. rewrite sqrt_mult by (try lra; apply Rle_0_sqr). rewrite sqrt_square by exact K. reflexivity. Qed.
Lemma ramp_norm p : (fst p <= snd p)%Z -> f_norm ramp_field p = IZR (weight p) * sqrt 2.
Proof.
  destruct p as [x y]. intros L. cbn [ramp_field ll_field f_norm gradient_norm]. unfold gradient_norm. rewrite ramp_gradient. unfold weight. cbn [fst snd] in *.
  destruct (Z.ltb_spec x y); [destruct (Z.eqb_spec x y); [lia|] | destruct (Z.eqb_spec x y); [|lia]].
  - rewrite <- sqrt_eight by lra. f_equal. cbn. lra.
  - rewrite <- sqrt_eight by lra. f_equal. cbn. lra.
Qed.
Lemma ramp_angle p : f_angle ramp_field p = if side p then Some diagonal else None.
Proof.
  destruct p as [x y]. cbn [ramp_field ll_field f_angle]. unfold pixel_angle. rewrite ramp_gradient. unfold side. cbn [fst snd cols rows ramp].
  destruct (Z.leb_spec x y) as [L|L].
  - pose proof (ramp_norm (x, y) L) as N. cbn [ramp_field ll_field f_norm] in N. rewrite N. clear N.
    destruct slope_bound as [_ SB]. destruct sqrt_two as [S0 _].
    assert (10 * sqrt 2 <= IZR (weight (x, y)) * sqrt 2) as W by (unfold weight; destruct (_ =? _)%Z; lra).
    destruct (rle_spec (IZR (weight (x, y)) * sqrt 2) slope) as [G|_]; [lra|].
    assert (A : forall n, 0 < n -> to_radians (exact_atan2 (- n) (- n)) = diagonal).
    { intros n Q. unfold to_radians. pose proof PI_RGT_0 as P.
      assert (E : exact_atan2 (n * sqrt 2 * sin diagonal) (n * sqrt 2 * cos diagonal) * (PI / 180) = diagonal)
        by (apply exact_scaled; [nra | lra]).
      destruct diagonal_value as [VS VC]. rewrite VS, VC in E.
      replace (n * sqrt 2 * - / sqrt 2) with (- n) in E by (field; lra). exact E. }
    pose proof (A 40 ltac:(lra)) as A40. pose proof (A 20 ltac:(lra)) as A20.
    destruct (Z.ltb_spec x y) as [L'|L']; [|destruct (Z.eqb_spec x y); [|lia]].
    + change (IZR (-40)) with (- (40)). change (IZR 40) with 40. rewrite A40.
      replace ((0 <=? x)%Z && (x <? 11 - 1)%Z && (0 <=? y)%Z && (y <? 11 - 1)%Z) with ((0 <=? x)%Z && true && (y <? 10)%Z) by lia. reflexivity.
    + change (IZR (-20)) with (- (20)). change (IZR 20) with 20. rewrite A20.
      replace ((0 <=? x)%Z && (x <? 11 - 1)%Z && (0 <=? y)%Z && (y <? 11 - 1)%Z) with ((0 <=? x)%Z && true && (y <? 10)%Z) by lia. reflexivity.
  - destruct (Z.ltb_spec x y); [lia|]. destruct (Z.eqb_spec x y); [lia|].
    assert (G : gradient_norm ramp (x, y) = 0).
    { unfold gradient_norm. rewrite ramp_gradient. destruct (Z.ltb_spec x y); [lia|]. destruct (Z.eqb_spec x y); [lia|].
      cbn. replace (0 / 4) with 0 by field. apply sqrt_0. }
    rewrite G. destruct slope_bound as [SB _]. destruct (rle_spec 0 slope) as [_|N]; [|lra].
    rewrite andb_false_r. cbn. destruct (_ && _ && _ && _); reflexivity.
Qed.

(** ** Its only region *)
Lemma ramp_defined p : f_angle ramp_field p <> None <-> side p = true.
Proof. rewrite ramp_angle. destruct (side p); split; congruence. Qed.
Lemma uniform_angle reg : reg <> [] -> (forall p, In p reg -> side p = true) -> region_angle exact_atan2 ramp_field reg = diagonal.
Proof.
  intros N S.
  assert (AT : forall p, In p reg -> angle_at ramp_field p = diagonal).
  { intros p I. unfold angle_at. rewrite ramp_angle, S; auto. }
  assert (SI : sum (map (fun p => sin (angle_at ramp_field p)) reg) = INR (length reg) * sin diagonal).
  { clear - AT. induction reg as [|p l IH]; [cbn; ring|]. change (length (p :: l)) with (Datatypes.S (length l)). rewrite S_INR.
    cbn [map sum fold_right]. change (fold_right Rplus 0) with sum. rewrite IH by (intros; apply AT; right; auto). rewrite AT by (left; auto). ring. }
  assert (CO : sum (map (fun p => cos (angle_at ramp_field p)) reg) = INR (length reg) * cos diagonal).
  { clear - AT. induction reg as [|p l IH]; [cbn; ring|]. change (length (p :: l)) with (Datatypes.S (length l)). rewrite S_INR.
    cbn [map sum fold_right]. change (fold_right Rplus 0) with sum. rewrite IH by (intros; apply AT; right; auto). rewrite AT by (left; auto). ring. }
  pose proof PI_RGT_0. destruct reg as [|p [|q l]]; [congruence | cbn [region_angle]; apply AT; left; auto |].
  unfold region_angle. rewrite SI, CO. apply exact_scaled; [apply lt_0_INR; cbn; lia | lra].
Qed.
Definition triangle : list pixel := filter side (pixels_of 0 9 0 9).
Lemma triangle_in p : In p triangle <-> side p = true.
Proof.
  unfold triangle. rewrite filter_In. split; [tauto|]. intros S. split; auto. destruct p as [x y]. apply pixels_of_in. unfold side in S. cbn in *. lia.
Qed.
Lemma whole_region s prec used reg :
  0 <= prec -> (forall q, used q = false) -> grown exact_atan2 ramp_field used s prec reg -> Permutation reg triangle.
Proof.
  intros P U G. pose proof (fun p I => proj1 (ramp_defined p) (proj2 (grown_free _ _ _ _ _ _ G p I))) as IN.
  assert (ST : forall p q, In p reg -> adjacent p q -> side q = true -> In q reg).
  { intros p q I A S. destruct (in_dec pixel_dec q reg) as [|N]; auto. exfalso.
    destruct (grown_refused _ _ _ _ _ _ G p q I A (proj2 (ramp_defined q) S) N) as [E | (b & a & E & IB & NA)]; [rewrite U in E; discriminate|].
    apply NA. rewrite uniform_angle.
    - unfold angle_at. rewrite ramp_angle, S. exists 0%Z. rewrite Rmult_0_r, Rplus_0_r, Rminus_diag_eq, Rabs_R0 by reflexivity. exact P.
    - destruct b; [destruct IB | discriminate].
    - intros p' I'. apply IN. rewrite E. apply in_app_iff. auto. }
  assert (AD : forall x y x' y', (x, y) <> (x', y') -> (-1 <= x - x' <= 1)%Z -> (-1 <= y - y' <= 1)%Z -> adjacent (x, y) (x', y')).
  { intros. split; auto. }
  assert (ROW : forall n y, side (Z.of_nat n, y) = true -> In (Z.of_nat n, y) reg <-> In (0, y)%Z reg).
  { induction n as [|n IH]; intros y S; [reflexivity|]. assert (side (Z.of_nat n, y) = true) as S' by (unfold side in *; cbn [fst snd] in *; lia).
    rewrite <- IH by exact S'. split; intros I; eapply ST; eauto; apply AD; try lia; intros E; injection E; lia. }
  assert (COL : forall n, (Z.of_nat n < 10)%Z -> In (0, Z.of_nat n)%Z reg <-> In (0, 0)%Z reg).
  { induction n as [|n IH]; intros L; [reflexivity|]. rewrite <- IH by lia.
    split; intros I; eapply ST; eauto; [apply AD; try lia; intros E; injection E; lia | unfold side; cbn [fst snd]; lia
                                       |apply AD; try lia; intros E; injection E; lia | unfold side; cbn [fst snd]; lia]. }
  assert (ALL : forall p, side p = true -> In p reg <-> In (0, 0)%Z reg).
  { intros [x y] S. assert (B : (0 <= x <= y /\ y < 10)%Z) by (unfold side in S; cbn [fst snd] in S; lia).
    pose proof (ROW (Z.to_nat x) y) as R. rewrite Z2Nat.id in R by lia. pose proof (COL (Z.to_nat y)) as C. rewrite Z2Nat.id in C by lia.
    rewrite R by exact S. apply C. lia. }
  assert (ZI : In (0, 0)%Z reg).
  { destruct (grown_seed _ _ _ _ _ _ G) as [t E]. assert (In s reg) as I by (rewrite E; left; auto). apply (ALL s); auto. }
  apply NoDup_Permutation; [apply (grown_once _ _ _ _ _ _ G) | apply NoDup_filter, pixels_of_nodup |].
  intros p. rewrite triangle_in. split; [apply IN | intros S; apply ALL; auto].
Qed.
Lemma sum_permutation {A} (g : A -> R) l m : Permutation l m -> sum (map g l) = sum (map g m).
Proof.
  intros P. induction P; [reflexivity | | | congruence].
  - change (g x + sum (map g l) = g x + sum (map g l')). congruence.
  - change (g y + (g x + sum (map g l)) = g x + (g y + sum (map g l))). ring.
Qed.
Definition zsum (h : pixel -> Z) (l : list pixel) : Z := fold_right Z.add 0%Z (map h l).
Lemma zsum_sum h l k : sum (map (fun p => IZR (h p) * k) l) = IZR (zsum h l) * k.
Proof.
  induction l as [|p l IH]; [unfold zsum, sum; cbn; ring|]. change (zsum h (p :: l)) with (h p + zsum h l)%Z. rewrite plus_IZR.
  change (sum (map (fun p => IZR (h p) * k) (p :: l))) with (IZR (h p) * k + sum (map (fun p => IZR (h p) * k) l)). rewrite IH. ring.
Qed.
(** a weighted sum over the region *)
Lemma region_sum reg (g : pixel -> R) (h : pixel -> Z) n :
  Permutation reg triangle -> (forall p, side p = true -> g p = IZR (h p) * (sqrt 2 / 400)) -> zsum h triangle = n -> sum (map g reg) = IZR n * (sqrt 2 / 400).
Proof.
  intros P E <-. rewrite (sum_permutation _ _ _ P). rewrite (sum_map_ext _ (fun p => IZR (h p) * (sqrt 2 / 400))).
  - apply zsum_sum.
  - intros p I. apply E. apply triangle_in. exact I.
Qed.
Lemma side_norm p : side p = true -> f_norm ramp_field p = IZR (weight p) * sqrt 2.
Proof. intros S. apply ramp_norm. unfold side in S. lia. Qed.
Lemma ramp_rect reg prec r :
  0 <= prec -> Permutation reg triangle -> region2rect exact_atan2 ramp_field reg diagonal prec = Some r ->
  cx r = 285 / 100 /\ cy r = 615 / 100 /\ theta r = diagonal.
Proof.
  intros PR P H. destruct (region2rect_value _ _ _ _ _ _ H) as (_ & X & Y & T & _). cbn zeta in *. destruct sqrt_two as [S0 S2].
  assert (W : sum (map (f_norm ramp_field) reg) = IZR 400000 * (sqrt 2 / 400)).
  { apply (region_sum _ _ (fun p => 400 * weight p)%Z); [exact P| |vm_compute; reflexivity].
    intros p S. rewrite side_norm, mult_IZR by auto. field. }
  assert (SX : sum (map (fun p => px p * f_norm ramp_field p) reg) = IZR 1140000 * (sqrt 2 / 400)).
  { apply (region_sum _ _ (fun p => 400 * fst p * weight p)%Z); [exact P| |vm_compute; reflexivity].
    intros p S. rewrite side_norm, !mult_IZR by auto. unfold px. field. }
  assert (SY : sum (map (fun p => py p * f_norm ramp_field p) reg) = IZR 2460000 * (sqrt 2 / 400)).
  { apply (region_sum _ _ (fun p => 400 * snd p * weight p)%Z); [exact P| |vm_compute; reflexivity].
    intros p S. rewrite side_norm, !mult_IZR by auto. unfold py. field. }
  rewrite W, SX in X. rewrite W, SY in Y.
  assert (X' : cx r = 285 / 100) by (rewrite X; field; lra). assert (Y' : cy r = 615 / 100) by (rewrite Y; field; lra).
  split; [exact X'|]. split; [exact Y'|].
  rewrite W, SX, SY in T. rewrite <- X, <- Y, X', Y' in T.
  assert (IXX : exists i, 0 < i /\ sum (map (fun p => (py p - 615 / 100) * (py p - 615 / 100) * f_norm ramp_field p) reg) = i /\
                 sum (map (fun p => (px p - 285 / 100) * (px p - 285 / 100) * f_norm ramp_field p) reg) = i).
  { exists (IZR (zsum (fun p => (20 * snd p - 123) * (20 * snd p - 123) * weight p)%Z triangle) * (sqrt 2 / 400)). split; [|split].
    - apply Rmult_lt_0_compat; [apply IZR_lt; vm_compute; reflexivity | lra].
    - apply (region_sum _ _ (fun p => (20 * snd p - 123) * (20 * snd p - 123) * weight p)%Z); [exact P| |reflexivity].
      intros p S. rewrite side_norm, !mult_IZR, !minus_IZR, !mult_IZR by auto. unfold py. field.
    - apply (region_sum _ _ (fun p => (20 * fst p - 57) * (20 * fst p - 57) * weight p)%Z); [exact P| |vm_compute; reflexivity].
      intros p S. rewrite side_norm, !mult_IZR, !minus_IZR, !mult_IZR by auto. unfold px. field. }
  assert (IXY : exists c, 0 < c /\ sum (map (fun p => (px p - 285 / 100) * (py p - 615 / 100) * f_norm ramp_field p) reg) = c).
  { exists (IZR (zsum (fun p => (20 * fst p - 57) * (20 * snd p - 123) * weight p)%Z triangle) * (sqrt 2 / 400)). split.
    - apply Rmult_lt_0_compat; [apply IZR_lt; vm_compute; reflexivity | lra].
    - apply (region_sum _ _ (fun p => (20 * fst p - 57) * (20 * snd p - 123) * weight p)%Z); [exact P| |reflexivity].
      intros p S. rewrite side_norm, !mult_IZR, !minus_IZR, !mult_IZR by auto. unfold px, py. field. }
  destruct IXX as (i & I0 & E1 & E2). destruct IXY as (c & C0 & E3). rewrite E1, E2, E3 in T. rewrite T. unfold axis_angle. cbn zeta.
  destruct (rlt_spec (Rabs i) (Rabs i)); [lra|].
  replace (/ 2 * (i + i - sqrt ((i - i) * (i - i) + 4 * - c * - c)) - i) with (- c).
  - assert (A : to_radians (exact_atan2 (- c) (- c)) = diagonal).
    { unfold to_radians. pose proof PI_RGT_0 as PP.
      assert (E : exact_atan2 (c * sqrt 2 * sin diagonal) (c * sqrt 2 * cos diagonal) * (PI / 180) = diagonal)
        by (apply exact_scaled; [nra | lra]).
      destruct diagonal_value as [VS VC]. rewrite VS, VC in E.
      replace (c * sqrt 2 * - / sqrt 2) with (- c) in E by (field; lra). exact E. }
    rewrite A. destruct (rlt_spec prec (angle_diff diagonal diagonal)) as [L|L]; auto. exfalso. apply (Rlt_not_le _ _ L).
    apply angle_diff_near. exists 0%Z. rewrite Rmult_0_r, Rplus_0_r, Rminus_diag_eq, Rabs_R0 by reflexivity. exact PR.
  - replace ((i - i) * (i - i) + 4 * - c * - c) with (2 * c * (2 * c)) by ring. rewrite sqrt_square by lra. field.
Qed.
Lemma ramp_ends reg prec r :
  0 <= prec -> Permutation reg triangle -> region2rect exact_atan2 ramp_field reg diagonal prec = Some r ->
  x1 r = 735 / 100 /\ y1 r = 1065 / 100 /\ x2 r = - (165 / 100) /\ y2 r = 165 / 100.
Proof.
  intros PR P H. destruct (ramp_rect reg prec r PR P H) as (X & Y & T). destruct sqrt_two as [S0 S2].
  assert (IN : forall p, In p reg <-> side p = true).
  { intros p. rewrite <- triangle_in. split; apply Permutation_in; [exact P | symmetry; exact P]. }
  assert (NP : forall p, In p reg -> 0 < f_norm ramp_field p).
  { intros p I. rewrite side_norm by (apply IN; exact I). apply Rmult_lt_0_compat; [unfold weight; destruct (_ =? _)%Z; lra | lra]. }
  assert (NE : reg <> []) by (intros ->; destruct (proj2 (IN (0, 0)%Z) eq_refl)).
  destruct (C96_rectangle _ _ _ _ _ _ NP NE H) as (l1 & l2 & w1 & w2 & E1 & E2 & _ & _ & B & (p1 & I1 & A1) & (p2 & I2 & A2) & _).
  destruct diagonal_value as [VS VC].
  assert (AL : forall p, along r p = (9 - px p - py p) * / sqrt 2).
  { intros p. unfold along. rewrite T, VS, VC, X, Y. field. lra. }
  assert (I00 : In (0, 0)%Z reg) by (apply IN; reflexivity). assert (I99 : In (9, 9)%Z reg) by (apply IN; reflexivity).
  assert (IS : 0 < / sqrt 2) by (apply Rinv_0_lt_compat; lra).
  assert (R : forall p, In p reg -> 0 <= px p + py p <= 18).
  { intros p I. apply IN in I. unfold side in I. unfold px, py. rewrite <- plus_IZR. split; apply IZR_le; lia. }
  assert (L1 : l1 = - 9 * / sqrt 2).
  { apply Rle_antisym.
    - pose proof (proj1 (proj1 (B _ I99))) as L. rewrite AL in L. unfold px, py in L. cbn [fst snd] in L. lra.
    - rewrite <- A1, AL. apply Rmult_le_compat_r; [lra|]. pose proof (R p1 I1). lra. }
  assert (L2 : l2 = 9 * / sqrt 2).
  { apply Rle_antisym.
    - rewrite <- A2, AL. apply Rmult_le_compat_r; [lra|]. pose proof (R p2 I2). lra.
    - pose proof (proj2 (proj1 (B _ I00))) as L. rewrite AL in L. unfold px, py in L. cbn [fst snd] in L. lra. }
  unfold on_axis in E1, E2. rewrite T, VS, VC, X, Y in E1, E2.
  assert (Q : / sqrt 2 * / sqrt 2 = / 2) by (rewrite <- Rinv_mult, S2; reflexivity).
  injection E1 as -> ->. injection E2 as -> ->. rewrite L1, L2.
  replace (-9 * / sqrt 2 * - / sqrt 2) with (9 * (/ sqrt 2 * / sqrt 2)) by ring.
  replace (9 * / sqrt 2 * - / sqrt 2) with (- 9 * (/ sqrt 2 * / sqrt 2)) by ring. rewrite Q. repeat split; lra.
Qed.

(** ** The detector on this image *)
Lemma ramp_min_size : (2 <= min_region_size (line_detection_params 1) 11 11 <= 54)%Z.
Proof.
  split; [apply C97_default_size; lia|].
  destruct (C97_min_size (line_detection_params 1) 11 11) as (N & _ & L); try lia; [cbn; lra|]. cbn zeta in L.
  set (n := min_region_size (line_detection_params 1) 11 11) in *. clearbody n.
  destruct (Z_le_gt_dec n 54) as [|G]; auto. exfalso.
  replace (p_angle (line_detection_params 1) / 180) with (/ 8) in L by (cbn; field).
  change (11 * 11)%Z with 121%Z in L. replace (sqrt 121) with 11 in L by (symmetry; apply sqrt_lem_1; lra).
  replace (Z.to_nat n) with (7 + (Z.to_nat n - 7))%nat in L by lia. rewrite pow_add in L.
  assert (0 < (/ 8) ^ (Z.to_nat n - 7) <= 1) as [Q0 Q1].
  { split; [apply pow_lt; lra|]. rewrite <- (pow1 (Z.to_nat n - 7)). apply pow_incr. lra. }
  set (q := (/ 8) ^ (Z.to_nat n - 7)) in *. clearbody q. lra.
Qed.
Lemma ramp_strongest : strongest ramp_field (20 * sqrt 2).
Proof.
  destruct sqrt_two as [S0 _]. split.
  - intros p D. apply ramp_defined in D. rewrite side_norm by auto. unfold weight. destruct (_ =? _)%Z; lra.
  - left. exists (0, 1)%Z. split; [apply ramp_defined; reflexivity|]. rewrite side_norm by reflexivity. reflexivity.
Qed.
Theorem ramp_line rescale fuel :
  fst (detect exact_atan2 insertion_sort rescale fuel (line_detection_params 1) [] ramp)
  = Some [((785 / 100, 1115 / 100), (- (115 / 100), 215 / 100))].
Proof.
  destruct (C97_detection exact_atan2 insertion_sort rescale fuel (line_detection_params 1) ramp (20 * sqrt 2))
    as (parts & segs & lines & SG & MF & RE & E & F2).
  1: apply exact_in_degrees. 1: apply insertion_sorts. 1: reflexivity. 1: cbn; lra. 1: cbn; lra. 1: cbn; lra.
  1,2: change (p_scale (line_detection_params 1)) with 1; destruct (Req_EM_T 1 1) as [_|N]; [|congruence].
  1: apply ramp_min_size. 1: apply ramp_strongest.
  rewrite E. change (p_scale (line_detection_params 1)) with 1 in *.
  destruct (Req_EM_T 1 1) as [_|N]; [|congruence].
  change (ll_field exact_atan2 ramp _) with ramp_field in *. change (cols ramp) with 11%Z in MF. change (rows ramp) with 11%Z in MF.
  set (prec := PI * p_angle (line_detection_params 1) / 180) in *.
  assert (PR : 0 <= prec) by (unfold prec; cbn; pose proof PI_RGT_0; lra).
  destruct parts as [|reg parts].
  { exfalso. assert (In (0, 0)%Z (concat [])) as [] by (apply SG; apply ramp_defined; reflexivity). }
  destruct (seg_grown _ _ _ _ _ SG [] reg parts eq_refl) as (s & used & G & U & _).
  assert (P : Permutation reg triangle).
  { apply (whole_region s prec used); auto. intros q. destruct (used q) eqn:Q; auto. apply U in Q. destruct Q. }
  assert (parts = []) as ->.
  { destruct parts as [|reg' parts]; auto. exfalso.
    destruct (seg_grown _ _ _ _ _ SG [reg] reg' parts eq_refl) as (s' & used' & G' & _ & _).
    destruct (grown_seed _ _ _ _ _ _ G') as [t ->]. pose proof (seg_once _ _ _ _ _ SG) as ND. cbn [concat] in ND.
    assert (side s' = true) as S'. { apply ramp_defined. apply (grown_free _ _ _ _ _ _ G'). left. auto. }
    assert (In s' reg) as I. { apply triangle_in in S'. eapply Permutation_in; [symmetry; exact P | exact S']. }
    clear - ND I. apply in_split in I as (a & b & ->). rewrite <- app_assoc in ND. apply NoDup_remove_2 in ND. apply ND.
    rewrite !in_app_iff. right. right. left. left. reflexivity. }
  cbn [filter] in MF. pose proof (Permutation_length P) as LP. assert (length triangle = 55%nat) as LT by (vm_compute; reflexivity).
  rewrite LT in LP. pose proof ramp_min_size as MS. change (@length (Z * Z) reg) with (@length pixel reg) in *. rewrite LP in MF.
  destruct (Z.leb_spec (min_region_size (line_detection_params 1) 11 11) (Z.of_nat 55)) as [_|L]; [|lia].
  destruct segs as [|[reg0 r] [|? ?]]; try discriminate. cbn in MF. injection MF as ->.
  pose proof (RE reg r (or_introl eq_refl)) as RR.
  assert (NE : reg <> []) by (intros ->; discriminate).
  assert (SI : forall p, In p reg -> side p = true) by (intros p I; apply triangle_in; eapply Permutation_in; eauto).
  rewrite (uniform_angle reg NE SI) in RR. destruct (ramp_ends reg prec r PR P RR) as (X1 & Y1 & X2 & Y2).
  inversion F2 as [|l ? ls ? EN F2']; subst. inversion F2'; subst. f_equal. f_equal.
  destruct l as [[xa ya] [xb yb]]. unfold ends_of in EN. cbn [fst snd] in EN. rewrite X1, Y1, X2, Y2 in EN.
  destruct EN as (E1 & E2 & E3 & E4). f_equal; f_equal; lra.
Qed.
Lemma truncate_value z x : (0 <= z)%Z -> IZR z <= x < IZR z + 1 -> truncate x = z.
Proof.
  intros Z0 B. assert (0 <= IZR z) by (apply IZR_le; exact Z0). unfold truncate. destruct (rle_spec 0 x); [|lra]. apply int_part_unique. lra.
Qed.
(** An end of a line can be out of the image: the display then reads out of the mask. *)
Theorem C99_outside_refuted :
  exists fa sort im, in_degrees fa /\ accurate 0 fa /\ sorts sort /\
    (forall x y, 0 <= x < cols im -> 0 <= y < rows im -> 0 <= at_pixel im (x, y) < 256)%Z /\
    exists l, (forall rescale fuel, fst (detect fa sort rescale fuel (line_detection_params 1) [] im) = Some [l]) /\
      forall mask, draw_lines (cols im) (rows im) mask [l] = [OutOfImage (7, 11)%Z].
Proof.
  exists exact_atan2, insertion_sort, ramp. split; [apply exact_in_degrees|]. split; [apply exact_accurate|]. split; [apply insertion_sorts|].
  split; [cbn [cols rows at_pixel ramp fst snd]; lia|]. eexists. split; [intros rescale fuel; apply ramp_line|].
  intros mask. cbn [draw_lines map draw_line]. unfold draw_line.
  rewrite (truncate_value 7 (785 / 100)), (truncate_value 11 (1115 / 100)) by (lia || lra). reflexivity.
Qed.

(** ** The theorems apply *)
(** a region of two pixels, as [C95_region] finds it *)
Example growth_of_two : exists g, region_grow exact_atan2 (two_pixels 1) (fun _ => false) (0, 0)%Z (PI / 8) = Some g /\
  Permutation (g_reg g) [(0, 0); (1, 0)]%Z.
Proof.
  pose proof PI_RGT_0 as P. pose proof PI2_3_2 as P2. assert (A : 0 <= 1 < 2 * PI) by lra.
  destruct (C95_region exact_atan2 (two_pixels 1) (fun _ => false) (0, 0)%Z (PI / 8)) as (g & E & G & _); auto.
  1: apply exact_in_degrees. 1: apply two_pixels_sound; exact A. 1: lra. 1: discriminate.
  exists g. split; [exact E|]. destruct (grown_seed _ _ _ _ _ _ G) as [t ER].
  assert (AD : adjacent (0, 0)%Z (1, 0)%Z) by (split; [congruence | cbn; lia]).
  assert (I1 : In (1, 0)%Z (g_reg g)).
  { destruct (in_dec pixel_dec (1, 0)%Z (g_reg g)) as [|N]; auto. exfalso.
    assert (I0 : In (0, 0)%Z (g_reg g)) by (rewrite ER; left; auto).
    assert (ON : g_reg g = [(0, 0)%Z]).
    { destruct t as [|q t]; [exact ER|]. exfalso. assert (In q (g_reg g)) as IQ by (rewrite ER; right; left; auto).
      pose proof (proj2 (grown_free _ _ _ _ _ _ G q IQ)) as D. apply two_pixels_in in D as [<- | [<- | []]]; [|contradiction].
      pose proof (grown_once _ _ _ _ _ _ G) as ND. rewrite ER in ND. inversion ND as [|? ? H]; subst. apply H. left. auto. }
    destruct (grown_refused _ _ _ _ _ _ G (0, 0)%Z (1, 0)%Z I0 AD (proj2 (two_pixels_in 1 (1, 0)%Z) (or_intror (or_introl eq_refl))) N)
      as [E' | (b & a & E' & IB & NA)]; [discriminate|].
    rewrite ON in E'. destruct b as [|b0 [|? ?]]; [destruct IB | injection E' as <- _ | discriminate].
    apply NA. exists 0%Z. cbn. rewrite Rmult_0_r, Rplus_0_r, Rminus_diag_eq, Rabs_R0 by reflexivity. lra. }
  apply NoDup_Permutation; [apply (grown_once _ _ _ _ _ _ G) | repeat constructor; cbn; intuition congruence |].
  intros p. split; [|intros [<- | [<- | []]]; [rewrite ER; left; auto | exact I1]].
  intros I. apply (two_pixels_in 1). apply (grown_free _ _ _ _ _ _ G p I).
Qed.
(** its rectangle: [C96_axis] and [C96_rectangle] apply *)
Example rect_of_two : exists r, region2rect exact_atan2 (two_pixels 1) [(0, 0); (1, 0)]%Z 1 (PI / 8) = Some r /\ cx r = / 2 /\ cy r = 0.
Proof.
  destruct (C96_defined exact_atan2 (two_pixels 1) [(0, 0); (1, 0)]%Z 1 (PI / 8)) as [r R].
  - intros; cbn; lra.
  - exists (0, 0)%Z, (1, 0)%Z. cbn. repeat split; auto. congruence.
  - exists r. split; auto. destruct (region2rect_value _ _ _ _ _ _ R) as (_ & X & Y & _). rewrite X, Y. unfold px, py, sum. cbn. split; field.
Qed.
(** a region that does not fill its rectangle enough *)
Example sparse_two : exists r, region2rect exact_atan2 (two_pixels 1) [(0, 0); (1, 0)]%Z 1 (PI / 8) = Some r /\ ~ dense [(0, 0); (1, 0)]%Z r 3.
Proof.
  destruct rect_of_two as (r & R & X & Y). exists r. split; auto. unfold dense.
  assert (NP : forall p, In p [(0, 0); (1, 0)]%Z -> 0 < f_norm (two_pixels 1) p) by (intros; cbn; lra).
  assert (NE : [(0, 0); (1, 0)]%Z <> @nil pixel) by discriminate.
  destruct (C96_rectangle _ _ _ _ _ _ NP NE R) as (l1 & l2 & w1 & w2 & E1 & E2 & L & W & B & _ & _ & _ & _ & WD).
  assert (TH : theta r = PI \/ theta r = PI + PI).
  { destruct (region2rect_value _ _ _ _ _ _ R) as (_ & _ & _ & T & _). cbn zeta in T. unfold px, py, sum in T. cbn in T.
    revert T. unfold axis_angle. cbn zeta.
    match goal with |- context [rlt (Rabs ?iyy) (Rabs ?ixx)] => replace iyy with (/ 2) by field; replace ixx with 0 by field end.
    match goal with |- context [exact_atan2 ?ixy (?l - / 2)] => replace ixy with 0 by field end.
    match goal with |- context [exact_atan2 0 (?l - / 2)] => replace l with 0 end.
    - rewrite Rabs_R0. rewrite (Rabs_pos_eq (/ 2)) by lra. destruct (rlt_spec (/ 2) 0); [lra|].
      rewrite exact_half_turn by lra. unfold to_radians. replace (180 * (PI / 180)) with PI by field. destruct (rlt _ _); auto.
    - match goal with |- context [sqrt ?x] => replace x with (/ 2 * / 2) by field end. rewrite sqrt_square by lra. field. }
  assert (CS : (cos (theta r) = -1 \/ cos (theta r) = 1) /\ sin (theta r) = 0).
  { destruct TH as [-> | ->]; [rewrite cos_PI, sin_PI; auto|]. rewrite neg_cos, neg_sin, cos_PI, sin_PI. split; [right|]; ring. }
  destruct CS as [C S]. unfold on_axis in E1, E2. rewrite S, X, Y in E1, E2. injection E1 as -> ->. injection E2 as -> ->.
  pose proof (B (0, 0)%Z ltac:(left; auto)) as [B0 _]. pose proof (B (1, 0)%Z ltac:(right; left; auto)) as [B1 _].
  unfold along, px, py in B0, B1. rewrite X, Y, S in B0, B1. cbn [fst snd] in B0, B1.
  assert (LL : 1 <= l2 - l1) by (destruct C as [C | C]; rewrite C in B0, B1; lra).
  match goal with |- context [sqrt ?x] => replace x with ((l2 - l1) * (l2 - l1)) by (destruct C as [-> | ->]; ring) end.
  rewrite sqrt_square by lra. pose proof (Rmax_l 1 (w2 - w1)) as M. rewrite <- WD in M. cbn [length INR]. intros D.
  assert (1 * 1 <= (l2 - l1) * width r) by (apply Rmult_le_compat; lra). lra.
Qed.
(** the ramp meets the hypotheses of [C97_detection]: it has one line *)
Example ramp_lines : forall rescale fuel,
  option_map (@length line) (fst (detect exact_atan2 insertion_sort rescale fuel (line_detection_params 1) [] ramp)) = Some 1%nat.
Proof. intros. rewrite ramp_line. reflexivity. Qed.
(** a line inside the image *)
Example drawn_line : draw_line 4 4 (fun p => (fst p =? 1)%Z) ((0, 0), (2, 2)) = Drawn (0, 0)%Z (2, 2)%Z Purple.
Proof.
  unfold draw_line. rewrite (truncate_value 0 0), (truncate_value 2 2) by (lia || lra). reflexivity.
Qed.
(** a line that starts a little out of the image is drawn from its border *)
Example drawn_line_border : exists k, draw_line 4 4 (fun _ => true) ((- / 2, 1), (5 / 2, 3)) = Drawn (0, 1)%Z (2, 3)%Z k.
Proof.
  destruct (C99_colour 4 4 (fun _ => true) (- / 2) 1 (5 / 2) 3 (0, 1)%Z (2, 3)%Z) as (k & E & _);
    try (unfold toward_zero; cbn [fst snd]; split; intros; lra); try (cbn; lia). exists k. exact E.
Qed.

Print Assumptions C95_field.
Print Assumptions C95_level_line.
Print Assumptions C95_alignment.
Print Assumptions C95_wide_tolerance_refuted.
Print Assumptions C95_region.
Print Assumptions C96_turns.
Print Assumptions C96_defined.
Print Assumptions C96_rectangle.
Print Assumptions C96_axis.
Print Assumptions C96_orientation.
Print Assumptions C96_orientation_refuted.
Print Assumptions C97_detection.
Print Assumptions C97_min_size.
Print Assumptions C97_default_size.
Print Assumptions C97_count.
Print Assumptions C97_stateless.
Print Assumptions C98_tolerance.
Print Assumptions C98_refinement.
Print Assumptions C99_quarters.
Print Assumptions C99_colour.
Print Assumptions C99_outside_refuted.

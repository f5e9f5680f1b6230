(** C123: the decisions on counts taken with floating point numbers are the ones of exact fractions. *)
From Coq Require Import ZArith Reals Bool Lra Lia.
From Flocq Require Import Core Relative.
From Verif Require Import ProportionModel.
Local Open Scope R_scope.

Section Format.
Variables (emin prec : Z).
Hypothesis (P : (1 < prec)%Z).
Local Notation fexp := (FLT_exp emin prec).
Local Notation rnd := (round radix2 fexp ZnearestE).
Lemma valid_fexp : Valid_exp fexp.
Proof using P. apply FLT_exp_valid. unfold Prec_gt_0. lia. Qed.
Lemma rnd_le x y : x <= y -> rnd x <= rnd y.
Proof using P. intros H. apply round_le; [apply valid_fexp|typeclasses eauto|exact H]. Qed.
Lemma format_F2R m e : (Z.abs m < 2 ^ prec)%Z -> (emin <= e)%Z -> generic_format radix2 fexp (IZR m * bpow radix2 e).
Proof using P. intros H E. apply generic_format_FLT. exists (Float radix2 m e); [reflexivity|exact H|exact E]. Qed.
Lemma format_IZR z : (Z.abs z < 2 ^ prec)%Z -> (emin <= 0)%Z -> generic_format radix2 fexp (IZR z).
Proof using P. intros H E. rewrite <- (Rmult_1_r (IZR z)). apply (format_F2R z 0 H E). Qed.
Lemma rnd_format x : generic_format radix2 fexp x -> rnd x = x.
Proof using P. intros H. apply round_generic; [typeclasses eauto|exact H]. Qed.
Lemma rnd_int_ge z x : (Z.abs z < 2 ^ prec)%Z -> (emin <= 0)%Z -> IZR z <= x -> IZR z <= rnd x.
Proof using P. intros B E H. rewrite <- (rnd_format (IZR z)) by (apply format_IZR; assumption). apply rnd_le, H. Qed.
Lemma rnd_int_le z x : (Z.abs z < 2 ^ prec)%Z -> (emin <= 0)%Z -> x <= IZR z -> rnd x <= IZR z.
Proof using P. intros B E H. rewrite <- (rnd_format (IZR z)) by (apply format_IZR; assumption). apply rnd_le, H. Qed.
(** the value of a rounded number, from an approximation *)
Lemma rnd_value x m e : (2 ^ (prec - 1) < m < 2 ^ prec)%Z -> (emin <= e)%Z ->
  Rabs (x - IZR m * bpow radix2 e) < / 2 * bpow radix2 e -> rnd x = IZR m * bpow radix2 e.
Proof using P.
  intros M E H. pose proof (bpow_gt_0 radix2 e) as B.
  assert (S : Rabs (x * bpow radix2 (- e) - IZR m) < / 2).
  { replace (x * bpow radix2 (- e) - IZR m) with ((x - IZR m * bpow radix2 e) * bpow radix2 (- e)).
    - rewrite Rabs_mult, (Rabs_pos_eq (bpow radix2 (- e))) by apply bpow_ge_0.
      apply Rmult_lt_reg_r with (bpow radix2 e); [exact B|]. rewrite Rmult_assoc, <- bpow_plus.
      replace (- e + e)%Z with 0%Z by lia. cbn [bpow]. lra.
    - rewrite Rmult_minus_distr_r, Rmult_assoc, <- bpow_plus. replace (e + - e)%Z with 0%Z by lia. cbn [bpow]. ring. }
  assert (L : IZR (2 ^ (prec - 1)) + 1 <= IZR m) by (rewrite <- plus_IZR; apply IZR_le; lia).
  assert (U : IZR m + 1 <= IZR (2 ^ prec)) by (rewrite <- plus_IZR; apply IZR_le; lia).
  assert (W : forall p, (0 <= p)%Z -> IZR (2 ^ p) = bpow radix2 p) by (intros p Hp; rewrite <- IZR_Zpower by exact Hp; reflexivity).
  rewrite W in L by lia. rewrite W in U by lia.
  assert (X : bpow radix2 (prec - 1 + e) <= x < bpow radix2 (prec + e)).
  { apply Rabs_def2 in H. rewrite !bpow_plus. split.
    - apply Rle_trans with ((IZR m - / 2) * bpow radix2 e); [apply Rmult_le_compat_r; lra|]. lra.
    - apply Rlt_le_trans with ((IZR m + / 2) * bpow radix2 e); [lra|]. apply Rmult_le_compat_r; lra. }
  assert (G : mag radix2 x = (prec + e)%Z :> Z).
  { apply mag_unique_pos. replace (prec + e - 1)%Z with (prec - 1 + e)%Z by lia. exact X. }
  unfold round, F2R, scaled_mantissa, cexp. rewrite G. unfold FLT_exp. replace (Z.max (prec + e - prec) emin) with e by lia. cbn [Fnum Fexp].
  rewrite (Znearest_imp (fun z => negb (Z.even z)) _ m) by exact S. reflexivity.
Qed.
(** the distance of a positive integer to the number before it *)
Lemma gap n : (1 <= n < 2 ^ prec)%Z -> (emin <= 1 - prec)%Z ->
  bpow radix2 (- prec) * IZR n <= IZR n - pred radix2 fexp (IZR n).
Proof using P.
  intros N Em. assert (Np : 1 <= IZR n) by (apply IZR_le; lia).
  set (e := mag radix2 (IZR n) : Z).
  assert (M : bpow radix2 (e - 1) <= IZR n < bpow radix2 e).
  { unfold e. generalize (mag radix2 (IZR n)). intros [m Hm]. cbn [mag_val]. specialize (Hm ltac:(lra)). rewrite Rabs_pos_eq in Hm by lra. exact Hm. }
  assert (E1 : (1 <= e)%Z).
  { assert ((0 < e)%Z); [|lia]. apply (lt_bpow radix2). change (bpow radix2 0) with 1. lra. }
  assert (X' : bpow radix2 (e - prec) = bpow radix2 (- prec) * bpow radix2 e) by (rewrite <- bpow_plus; f_equal; lia).
  pose proof (bpow_gt_0 radix2 (- prec)) as P53.
  rewrite pred_eq_pos by lra. unfold pred_pos. fold e.
  destruct (Req_bool_spec (IZR n) (bpow radix2 (e - 1))) as [Eq|Ne].
  - unfold FLT_exp. replace (Z.max (e - 1 - prec) emin) with (Z.max (e - 1 - prec) emin) by reflexivity.
    replace (IZR n - (IZR n - bpow radix2 (Z.max (e - 1 - prec) emin))) with (bpow radix2 (Z.max (e - 1 - prec) emin)) by ring.
    rewrite Eq at 1. rewrite <- bpow_plus. apply bpow_le. lia.
  - assert (U : ulp radix2 fexp (IZR n) = bpow radix2 (e - prec)).
    { rewrite ulp_neq_0 by lra. unfold cexp. fold e. f_equal. unfold FLT_exp. lia. }
    rewrite U. replace (IZR n - (IZR n - bpow radix2 (e - prec))) with (bpow radix2 (e - prec)) by ring.
    rewrite X'. apply Rmult_le_compat_l; lra.
Qed.
(** a number a little under an integer is rounded to it *)
Lemma rnd_up n x : (1 <= n < 2 ^ prec)%Z -> (emin <= 1 - prec)%Z ->
  IZR n - / 2 * (bpow radix2 (- prec) * IZR n) < x -> IZR n <= rnd x.
Proof using P.
  intros N E H. pose proof (gap n N E) as G. assert (V := valid_fexp).
  apply round_N_ge_midp; [exact V|apply format_IZR; [lia|lia]|]. 
  set (p := pred radix2 fexp (IZR n)) in *. lra.
Qed.
Lemma error x : (emin <= -100)%Z -> Rabs (rnd x - x) <= / 2 * bpow radix2 (1 - prec) * Rabs x + / 1000000000000.
Proof using P.
  intros Em. destruct (error_N_FLT radix2 emin prec ltac:(lia) (fun t => negb (Z.even t)) x) as (e & h & E & H & _ & Q).
  rewrite Q. replace (x * (1 + e) + h - x) with (x * e + h) by ring.
  eapply Rle_trans; [apply Rabs_triang|]. rewrite Rabs_mult. apply Rplus_le_compat.
  - rewrite Rmult_comm. apply Rmult_le_compat_r; [apply Rabs_pos|]. replace (1 - prec)%Z with (- prec + 1)%Z by lia. exact E.
  - eapply Rle_trans; [exact H|]. apply Rle_trans with (bpow radix2 (-100)).
    + apply Rle_trans with (bpow radix2 emin); [pose proof (bpow_gt_0 radix2 emin); lra|apply bpow_le; lia].
    + change (bpow radix2 (-100)) with (/ IZR (2 ^ 100)). apply Rinv_le; [lra|]. apply IZR_le. lia.
Qed.
End Format.

Lemma double_error x : 0 <= x -> x - / 9007199254740992 * x - / 1000000000000 <= in_double x <= x + / 9007199254740992 * x + / 1000000000000.
Proof.
  intros Px. pose proof (error (-1074) 53 ltac:(lia) x ltac:(lia)) as E. rewrite (Rabs_pos_eq x Px) in E. fold (in_double x) in E.
  change (bpow radix2 (1 - 53)) with (/ 4503599627370496) in E. apply Rabs_le_inv in E. lra.
Qed.
Lemma single_error x : 0 <= x -> x - / 16777216 * x - / 1000000000000 <= in_single x <= x + / 16777216 * x + / 1000000000000.
Proof.
  intros Px. pose proof (error (-149) 24 ltac:(lia) x ltac:(lia)) as E. rewrite (Rabs_pos_eq x Px) in E. fold (in_single x) in E.
  change (bpow radix2 (1 - 24)) with (/ 8388608) in E. apply Rabs_le_inv in E. lra.
Qed.
Ltac value p q m e := unfold in_double, in_single; rewrite (rnd_value p q eq_refl _ m e);
  [simpl bpow; try lra | lia | lia | simpl bpow; apply Rabs_def1; lra].
Lemma tenth : in_double (1 / 10) = 7205759403792794 / 72057594037927936. Proof. value (-1074)%Z 53%Z 7205759403792794%Z (-56)%Z. Qed.
Lemma seven_tenths : in_double (7 / 10) = 6305039478318694 / 9007199254740992. Proof. value (-1074)%Z 53%Z 6305039478318694%Z (-53)%Z. Qed.
Lemma nine_tenths : in_double (9 / 10) = 8106479329266893 / 9007199254740992. Proof. value (-1074)%Z 53%Z 8106479329266893%Z (-53)%Z. Qed.
Lemma third : in_double (1 / 3) = 6004799503160661 / 18014398509481984. Proof. value (-1074)%Z 53%Z 6004799503160661%Z (-54)%Z. Qed.
Lemma eight_tenths : in_double (8 / 10) = 7205759403792794 / 9007199254740992. Proof. value (-1074)%Z 53%Z 7205759403792794%Z (-53)%Z. Qed.
Lemma eight_thousandths : in_double (in_double (8 / 10) / 100) = 4611686018427388 / 576460752303423488.
Proof. rewrite eight_tenths. value (-1074)%Z 53%Z 4611686018427388%Z (-59)%Z. Qed.
Lemma sixty_five : in_double (65 / 100) = 5854679515581645 / 9007199254740992. Proof. value (-1074)%Z 53%Z 5854679515581645%Z (-53)%Z. Qed.
Lemma sixty_five' : in_double (in_double (65 / 100) / 100) = 7493989779944506 / 1152921504606846976.
Proof. rewrite sixty_five. value (-1074)%Z 53%Z 7493989779944506%Z (-60)%Z. Qed.
Lemma single_seven_tenths : in_single (7 / 10) = 11744051 / 16777216. Proof. value (-149)%Z 24%Z 11744051%Z (-24)%Z. Qed.
Lemma single_eight_tenths : in_single (8 / 10) = 13421773 / 16777216. Proof. value (-149)%Z 24%Z 13421773%Z (-24)%Z. Qed.

(** ** Parts of an integer *)
Lemma floor_product c p q n :
  (0 < q <= 10000)%Z -> (0 <= p <= q)%Z -> (0 <= n < 2 ^ 32)%Z ->
  IZR p / IZR q <= c <= IZR p / IZR q + / 4503599627370496 * (IZR p / IZR q) ->
  Zfloor (in_double (c * IZR n)) = (p * n / q)%Z.
Proof.
  intros Q Pp N C. set (m := (p * n / q)%Z).
  assert (M : (q * m <= p * n <= q * m + q - 1)%Z).
  { unfold m. pose proof (Z.div_mod (p * n) q ltac:(lia)). pose proof (Z.mod_pos_bound (p * n) q ltac:(lia)). lia. }
  assert (M0 : (0 <= m < 2 ^ 53)%Z).
  { split; [apply Z.div_pos; nia|]. apply Z.le_lt_trans with n; [|lia]. apply Z.div_le_upper_bound; nia. }
  assert (Rq : 1 <= IZR q <= 10000) by (split; apply IZR_le; lia).
  set (z := IZR p / IZR q * IZR n). assert (Rn : 0 <= IZR n) by (apply IZR_le; lia).
  assert (Iq : / 10000 <= / IZR q) by (apply Rinv_le; lra).
  assert (Z0 : 0 <= IZR p / IZR q) by (apply Rmult_le_pos; [apply IZR_le; lia|lra]).
  assert (Zn : z = IZR (p * n) * / IZR q) by (unfold z; rewrite mult_IZR; field; lra).
  assert (Zm : IZR m <= z <= IZR m + 1 - / IZR q).
  { rewrite Zn. destruct M as [M1 M2]. apply IZR_le in M1, M2. rewrite minus_IZR, plus_IZR, !mult_IZR in M2. rewrite !mult_IZR in M1. rewrite mult_IZR. split.
    - apply Rmult_le_reg_r with (IZR q); [lra|]. rewrite Rmult_assoc, Rinv_l by lra. lra.
    - apply Rmult_le_reg_r with (IZR q); [lra|]. rewrite Rmult_assoc, Rinv_l by lra. rewrite Rmult_minus_distr_r, Rinv_l by lra. lra. }
  assert (Zb : 0 <= z <= 4294967296).
  { split; [unfold z; apply Rmult_le_pos; lra|]. apply Rle_trans with (1 * IZR n).
    - unfold z. apply Rmult_le_compat_r; [lra|]. apply Rmult_le_reg_r with (IZR q); [lra|]. unfold Rdiv. rewrite Rmult_assoc, Rinv_l by lra.
      rewrite Rmult_1_r, Rmult_1_l. apply IZR_le. lia.
    - rewrite Rmult_1_l. apply (IZR_le n 4294967296). lia. }
  assert (T : z <= c * IZR n <= z + / 4503599627370496 * z).
  { unfold z. split; [apply Rmult_le_compat_r; lra|]. replace (IZR p / IZR q * IZR n + / 4503599627370496 * (IZR p / IZR q * IZR n))
      with ((IZR p / IZR q + / 4503599627370496 * (IZR p / IZR q)) * IZR n) by ring. apply Rmult_le_compat_r; lra. }
  apply Zfloor_imp. split.
  - apply (rnd_int_ge (-1074) 53); [lia|lia|lia|lra].
  - pose proof (double_error (c * IZR n) ltac:(lra)) as E. rewrite plus_IZR. lra.
Qed.

(** A plane is grown from a bin that holds at least 8 cells of 1000, and kept with 65 of 10000. *)
Theorem C123_planes : forall cells, (0 <= cells < 2 ^ 32)%Z ->
  minimum_seeds cells = (8 * cells / 1000)%Z /\ minimum_activated cells = (65 * cells / 10000)%Z.
Proof.
  intros cells B. unfold minimum_seeds, minimum_activated. rewrite eight_thousandths, sixty_five'.
  split; apply floor_product; try lia; lra.
Qed.
Print Assumptions C123_planes.

Lemma Rlt_bool_iff x y b : (x < y <-> b = true) -> Rlt_bool x y = b.
Proof. intros H. destruct (Rlt_bool_spec x y) as [L|L]; destruct b; try reflexivity; [symmetry; apply H, L|]. assert (x < y) by (apply H; reflexivity). lra. Qed.
Lemma Rle_bool_iff x y b : (x <= y <-> b = true) -> Rle_bool x y = b.
Proof. intros H. destruct (Rle_bool_spec x y) as [L|L]; destruct b; try reflexivity; [symmetry; apply H, L|]. assert (x <= y) by (apply H; reflexivity). lra. Qed.

(** The search of parts of cylinders goes on while more than a tenth of the cells is left, and
    is content with nine tenths of them. *)
Theorem C123_cylinders : forall left activated, (0 <= left < 2 ^ 32)%Z -> (0 <= activated < 2 ^ 32)%Z ->
  enough_left left activated = (activated <? 10 * left)%Z /\ accepted_inliers left = (9 * left / 10)%Z.
Proof.
  intros left n L N. split.
  - unfold enough_left. apply Rlt_bool_iff. rewrite tenth, Z.ltb_lt.
    assert (Ln : 0 <= IZR left <= 4294967296) by (split; [apply (IZR_le 0); lia|apply (IZR_le left 4294967296); lia]).
    assert (Nn : 0 <= IZR n <= 4294967296) by (split; [apply (IZR_le 0); lia|apply (IZR_le n 4294967296); lia]).
    split.
    + intros H. destruct (Z.lt_ge_cases n (10 * left)) as [|G]; [assumption|exfalso]. apply IZR_le in G. rewrite mult_IZR in G.
      assert (IZR left <= in_double (7205759403792794 / 72057594037927936 * IZR n)) by (apply (rnd_int_ge (-1074) 53); [lia|lia|lia|lra]). lra.
    + intros H. assert (G : (n + 1 <= 10 * left)%Z) by lia. apply IZR_le in G. rewrite plus_IZR, mult_IZR in G.
      pose proof (double_error (7205759403792794 / 72057594037927936 * IZR n) ltac:(lra)) as E. lra.
  - unfold accepted_inliers. rewrite nine_tenths. apply floor_product; try lia; lra.
Qed.
Print Assumptions C123_cylinders.

(** A staged point is dropped when its count of matches is back to zero, and enters the map at three. *)
Theorem C123_staged : forall count, (- 2 ^ 31 <= count < 2 ^ 31)%Z ->
  should_remove count = (count <=? 0)%Z /\ should_add count = (3 <=? count)%Z.
Proof.
  intros n B. unfold should_remove, should_add, confidence. rewrite third, nine_tenths.
  set (v := in_double (IZR n * (6004799503160661 / 18014398509481984))).
  assert (V0 : (n <= 0)%Z -> v <= 0).
  { intros H. apply (rnd_int_le (-1074) 53 ltac:(lia) 0); [lia|lia|]. assert (IZR n <= 0) by (apply (IZR_le n 0); lia). lra. }
  assert (V : (0 < n)%Z -> let x := IZR n * (6004799503160661 / 18014398509481984) in
     1 <= IZR n <= 2147483648 /\ x - / 9007199254740992 * x - / 1000000000000 <= v <= x + / 9007199254740992 * x + / 1000000000000).
  { intros H x. assert (X : 1 <= IZR n <= 2147483648) by (split; [apply (IZR_le 1); lia|apply (IZR_le n 2147483648); lia]).
    split; [exact X|]. apply double_error. unfold x. lra. }
  split.
  - apply Rle_bool_iff. rewrite Z.leb_le. split.
    + intros H. destruct (Z.le_gt_cases n 0) as [|G]; [assumption|exfalso]. specialize (V ltac:(lia)). cbv zeta in V.
      destruct V as (X & V). unfold Rmax, Rmin in H. destruct (Rle_dec 1 v), (Rle_dec (-1) _) in H; lra.
    + intros H. specialize (V0 H). unfold Rmax, Rmin. destruct (Rle_dec 1 v), (Rle_dec (-1) _); lra.
  - apply Rlt_bool_iff. rewrite Z.leb_le. split.
    + intros H. destruct (Z.le_gt_cases 3 n) as [|G]; [assumption|exfalso]. destruct (Z.le_gt_cases n 0) as [G0|G0].
      * specialize (V0 G0). unfold Rmax, Rmin in H. destruct (Rle_dec 1 v), (Rle_dec (-1) _) in H; lra.
      * specialize (V G0). cbv zeta in V. destruct V as (X & V). assert (IZR n <= 2) by (apply (IZR_le n 2); lia).
        unfold Rmax, Rmin in H. destruct (Rle_dec 1 v), (Rle_dec (-1) _) in H; lra.
    + intros H. specialize (V ltac:(lia)). cbv zeta in V. destruct V as (X & V). assert (3 <= IZR n) by (apply (IZR_le 3); lia).
      unfold Rmax, Rmin. destruct (Rle_dec 1 v), (Rle_dec (-1) _); lra.
Qed.
Print Assumptions C123_staged.

(** A keypoint is matched when its distance is less than seven tenths of the one of the second. *)
Theorem C123_match : forall first second, (0 <= first <= 256)%Z -> (0 <= second <= 256)%Z ->
  is_good_match first second = (10 * first <? 7 * second)%Z.
Proof.
  intros a b A B. unfold is_good_match. rewrite seven_tenths. apply Rlt_bool_iff. rewrite Z.ltb_lt.
  assert (Bb : 0 <= IZR b <= 256) by (split; apply IZR_le; lia).
  pose proof (double_error (6305039478318694 / 9007199254740992 * IZR b) ltac:(lra)) as E. split.
  - intros H. destruct (Z.lt_ge_cases (10 * a) (7 * b)) as [|G]; [assumption|exfalso]. apply IZR_le in G. rewrite !mult_IZR in G.
    assert (in_double (6305039478318694 / 9007199254740992 * IZR b) <= IZR a) by (apply (rnd_int_le (-1074) 53); [lia|lia|lia|lra]). lra.
  - intros H. assert (G : (10 * a + 1 <= 7 * b)%Z) by lia. apply IZR_le in G. rewrite plus_IZR, !mult_IZR in G. lra.
Qed.
Print Assumptions C123_match.

(** A cell may miss seven tenths of its points, although 0.7 in single precision is less than that. *)
Theorem C123_zero_points : forall points, (0 <= points <= 2 ^ 20)%Z -> minimum_zero_points points = (7 * points / 10)%Z.
Proof.
  intros n N. unfold minimum_zero_points. rewrite single_seven_tenths.
  unfold in_single at 2. rewrite (rnd_format (-149) 24 ltac:(lia) (IZR n)) by (apply format_IZR; lia).
  set (m := (7 * n / 10)%Z).
  assert (M : (10 * m <= 7 * n <= 10 * m + 9)%Z).
  { unfold m. pose proof (Z.div_mod (7 * n) 10 ltac:(lia)). pose proof (Z.mod_pos_bound (7 * n) 10 ltac:(lia)). lia. }
  assert (Bn : 0 <= IZR n <= 1048576) by (split; [apply (IZR_le 0); lia|apply (IZR_le n 1048576); lia]).
  pose proof (single_error (IZR n * (11744051 / 16777216)) ltac:(lra)) as E.
  pose proof (proj2 M) as M2. apply IZR_le in M2. rewrite plus_IZR, !mult_IZR in M2.
  apply Zfloor_imp. rewrite plus_IZR. split; [|lra].
  destruct (Z.eq_dec (10 * m) (7 * n)) as [Eq|Ne].
  - destruct (Z.eq_dec m 0) as [->|Nz].
    + apply (rnd_int_ge (-149) 24); [lia|lia|lia|lra].
    + apply (rnd_up (-149) 24 ltac:(lia) m); [lia|lia|]. apply (f_equal IZR) in Eq. rewrite !mult_IZR in Eq.
      change (bpow radix2 (- (24))) with (/ 16777216). assert (1 <= IZR m) by (apply (IZR_le 1); lia). lra.
  - assert (G : (10 * m + 1 <= 7 * n)%Z) by lia. apply IZR_le in G. rewrite plus_IZR, !mult_IZR in G. lra.
Qed.
Print Assumptions C123_zero_points.

(** The RANSAC ends early from its fourth iteration on, with at least two inliers more than the
    integer part of four fifths of the matches. *)
Theorem C123_stop : forall iteration inliers matches, (1 <= matches <= 2 ^ 24)%Z ->
  inliers_to_stop matches = (4 * matches / 5 + 1)%Z /\
  stops iteration inliers matches = ((3 <=? iteration) && (4 * matches / 5 + 2 <=? inliers))%Z.
Proof.
  intros it k n N. assert (S : inliers_to_stop n = (4 * n / 5 + 1)%Z).
  { unfold inliers_to_stop. rewrite single_eight_tenths.
    unfold in_double at 3. rewrite (rnd_format (-1074) 53 ltac:(lia) (13421773 / 16777216)).
    2: { change (13421773 / 16777216) with (IZR 13421773 * bpow radix2 (-24)). apply format_F2R; lia. }
    unfold in_double at 2. rewrite (rnd_format (-1074) 53 ltac:(lia) (IZR n)) by (apply format_IZR; lia).
    unfold in_double. rewrite (rnd_format (-1074) 53 ltac:(lia)).
    2: { replace (IZR n * (13421773 / 16777216)) with (IZR (n * 13421773) * bpow radix2 (-24)) by (rewrite mult_IZR; change (bpow radix2 (-24)) with (/ 16777216); field). apply format_F2R; lia. }
    set (m := (4 * n / 5)%Z). assert (M : (5 * m <= 4 * n <= 5 * m + 4)%Z).
    { unfold m. pose proof (Z.div_mod (4 * n) 5 ltac:(lia)). pose proof (Z.mod_pos_bound (4 * n) 5 ltac:(lia)). lia. }
    destruct M as [M1 M2]. apply IZR_le in M1, M2. rewrite plus_IZR in M2. rewrite !mult_IZR in M1, M2.
    assert (Bn : 1 <= IZR n <= 16777216) by (split; [apply (IZR_le 1); lia|apply (IZR_le n 16777216); lia]).
    apply Zceil_imp. replace (m + 1 - 1)%Z with m by lia. rewrite plus_IZR. split; lra. }
  split; [exact S|]. unfold stops. rewrite S. f_equal. destruct (Z.ltb_spec (4 * n / 5 + 1) k), (Z.leb_spec (4 * n / 5 + 2) k); lia.
Qed.
Print Assumptions C123_stop.
(** With at most five matches it never ends early, even when all of them are inliers. *)
Theorem C123_stop_few_refuted : forall iteration inliers matches, (1 <= matches <= 5)%Z -> (inliers <= matches)%Z ->
  stops iteration inliers matches = false.
Proof.
  intros it k n N K. rewrite (proj2 (C123_stop it k n ltac:(lia))). apply andb_false_intro2. apply Z.leb_gt.
  assert (n = 1 \/ n = 2 \/ n = 3 \/ n = 4 \/ n = 5)%Z as D by lia. destruct D as [->|[->|[->|[->| ->]]]]; cbn; lia.
Qed.
Print Assumptions C123_stop_few_refuted.

(** ** Cases that meet the hypotheses *)
Example C123_example :
  minimum_seeds 768 = 6%Z /\ minimum_activated 768 = 4%Z /\ minimum_seeds 1000 = 8%Z /\ accepted_inliers 20 = 18%Z /\
  enough_left 2 20 = false /\ enough_left 3 20 = true /\ minimum_zero_points 400 = 280%Z /\
  is_good_match 70 100 = false /\ is_good_match 69 100 = true /\ should_add 2 = false /\ should_add 3 = true /\
  stops 3 9 10 = false /\ stops 3 10 10 = true /\ stops 2 10 10 = false.
Proof.
  assert (A := C123_planes 768 ltac:(lia)). assert (B := C123_planes 1000 ltac:(lia)).
  assert (C := C123_cylinders 20 0 ltac:(lia) ltac:(lia)). assert (D := C123_cylinders 2 20 ltac:(lia) ltac:(lia)).
  assert (E := C123_cylinders 3 20 ltac:(lia) ltac:(lia)). assert (F := C123_zero_points 400 ltac:(lia)).
  assert (G := C123_match 70 100 ltac:(lia) ltac:(lia)). assert (H := C123_match 69 100 ltac:(lia) ltac:(lia)).
  assert (I := C123_staged 2 ltac:(lia)). assert (J := C123_staged 3 ltac:(lia)).
  assert (K := C123_stop 3 9 10 ltac:(lia)). assert (L := C123_stop 3 10 10 ltac:(lia)). assert (M := C123_stop 2 10 10 ltac:(lia)).
  repeat split; first [apply A|apply B|apply C|apply D|apply E|apply F|apply G|apply H|apply I|apply J|apply K|apply L|apply M].
Qed.

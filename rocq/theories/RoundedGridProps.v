(** C121: the rounding of the machine does not move the keypoints in the grid of the search. *)
From Coq Require Import ZArith Reals List Bool Lra Lia ZifyBool.
From Flocq Require Import Core Relative.
From Verif Require Import RoundedGridModel RoundedGridSpec.
Import ListNotations.
Local Open Scope R_scope.

Local Notation fexp := (FLT_exp (-1074) 53).
Local Instance valid_fexp : Valid_exp fexp.
Proof. apply FLT_exp_valid. reflexivity. Qed.
Lemma format_F2R m e : (Z.abs m < 2 ^ 53)%Z -> (-1074 <= e)%Z -> double (IZR m * bpow radix2 e).
Proof. intros H E. apply generic_format_FLT. exists (Float radix2 m e); [reflexivity|exact H|exact E]. Qed.
Lemma format_IZR z : (Z.abs z < 2 ^ 53)%Z -> double (IZR z).
Proof. intros H. rewrite <- (Rmult_1_r (IZR z)). apply (format_F2R z 0 H). lia. Qed.
Lemma rounded_format x : double x -> rounded x = x.
Proof. intros H. apply round_generic; [typeclasses eauto|exact H]. Qed.
Lemma rounded_le x y : x <= y -> rounded x <= rounded y.
Proof. intros H. apply round_le; [typeclasses eauto|typeclasses eauto|exact H]. Qed.
Lemma rounded_int_ge z x : (Z.abs z < 2 ^ 53)%Z -> IZR z <= x -> IZR z <= rounded x.
Proof. intros B H. rewrite <- (rounded_format (IZR z)) by (apply format_IZR; exact B). apply rounded_le, H. Qed.
Lemma rounded_int_le z x : (Z.abs z < 2 ^ 53)%Z -> x <= IZR z -> rounded x <= IZR z.
Proof. intros B H. rewrite <- (rounded_format (IZR z)) by (apply format_IZR; exact B). apply rounded_le, H. Qed.

(** the distance of a positive integer to the number of the machine before it *)
Lemma gap n : (1 <= n < 2 ^ 53)%Z ->
  bpow radix2 (-53) * IZR n <= IZR n - pred radix2 fexp (IZR n) < bpow radix2 (-52) * IZR n.
Proof.
  intros N. assert (Np : 1 <= IZR n) by (apply IZR_le; lia).
  set (e := mag radix2 (IZR n) : Z).
  assert (M : bpow radix2 (e - 1) <= IZR n < bpow radix2 e).
  { unfold e. generalize (mag radix2 (IZR n)). intros [m Hm]. cbn [mag_val]. specialize (Hm ltac:(lra)). rewrite Rabs_pos_eq in Hm by lra. exact Hm. }
  assert (E1 : (1 <= e)%Z).
  { assert ((0 < e)%Z); [|lia]. apply (lt_bpow radix2). change (bpow radix2 0) with 1. lra. }
  assert (X : bpow radix2 (e - 53) = bpow radix2 (-52) * bpow radix2 (e - 1)) by (rewrite <- bpow_plus; f_equal; lia).
  assert (X' : bpow radix2 (e - 53) = bpow radix2 (-53) * bpow radix2 e) by (rewrite <- bpow_plus; f_equal; lia).
  pose proof (bpow_gt_0 radix2 (-52)) as P52. pose proof (bpow_gt_0 radix2 (-53)) as P53.
  rewrite pred_eq_pos by lra. unfold pred_pos. fold e.
  destruct (Req_bool_spec (IZR n) (bpow radix2 (e - 1))) as [Eq|Ne].
  - unfold FLT_exp. rewrite Z.max_l by lia.
    replace (IZR n - (IZR n - bpow radix2 (e - 1 - 53))) with (bpow radix2 (e - 1 - 53)) by ring. split.
    + rewrite Eq, <- bpow_plus. apply bpow_le. lia.
    + eapply Rlt_le_trans; [apply bpow_lt with (e2 := (e - 53)%Z); lia|]. rewrite X. apply Rmult_le_compat_l; lra.
  - assert (U : ulp radix2 fexp (IZR n) = bpow radix2 (e - 53)).
    { rewrite ulp_neq_0 by lra. unfold cexp. fold e. f_equal. unfold FLT_exp. lia. }
    rewrite U. replace (IZR n - (IZR n - bpow radix2 (e - 53))) with (bpow radix2 (e - 53)) by ring. split.
    + rewrite X'. apply Rmult_le_compat_l; lra.
    + rewrite X. apply Rmult_lt_compat_l; lra.
Qed.

(** a number of the machine less than [31 m] is divided by 31 under [m] *)
Lemma quotient_below x m : double x -> (1 <= m < 2 ^ 47)%Z -> x < 31 * IZR m -> rounded (x / 31) < IZR m.
Proof.
  intros F M L. assert (Fm : double (IZR m)) by (apply format_IZR; lia).
  assert (F31 : double (IZR (31 * m))) by (apply format_IZR; lia).
  destruct (gap m ltac:(lia)) as [_ G]. destruct (gap (31 * m) ltac:(lia)) as [G31 _].
  assert (P : x <= pred radix2 fexp (IZR (31 * m))).
  { apply pred_ge_gt; [typeclasses eauto|exact F|exact F31|]. rewrite mult_IZR. exact L. }
  assert (Mp : 1 <= IZR m) by (apply IZR_le; lia).
  assert (S : succ radix2 fexp (pred radix2 fexp (IZR m)) = IZR m) by (apply succ_pred; [typeclasses eauto|exact Fm]).
  eapply Rle_lt_trans; [|apply (pred_lt_id radix2 fexp (IZR m)); lra].
  apply round_N_le_midp; [typeclasses eauto|apply generic_format_pred; [typeclasses eauto|exact Fm]|].
  rewrite S. rewrite mult_IZR in P, G31.
  assert (Y : bpow radix2 (-52) = 2 * bpow radix2 (-53)) by (change (-52)%Z with (1 + -53)%Z; rewrite bpow_plus; reflexivity).
  rewrite Y in G. set (p := pred radix2 fexp (IZR m)) in *. set (q := pred radix2 fexp (31 * IZR m)) in *.
  apply Rmult_lt_reg_r with 31; [lra|]. replace (x / 31 * 31) with x by field. lra.
Qed.
Lemma Zfloor_lt' x z : x < IZR z -> (Zfloor x < z)%Z.
Proof. intros H. apply lt_IZR. eapply Rle_lt_trans; [apply Zfloor_lb|exact H]. Qed.
Lemma floor_quotient x : double x -> 0 <= x < 2 ^ 50 -> Zfloor (rounded (x / 31)) = Zfloor (x / 31).
Proof.
  intros F [L U]. set (n := Zfloor (x / 31)).
  assert (N1 : IZR n <= x / 31) by apply Zfloor_lb. assert (N2 : x / 31 < IZR n + 1) by apply Zfloor_ub.
  assert (N0 : (0 <= n)%Z). { unfold n. replace 0%Z with (Zfloor 0) by apply (Zfloor_IZR 0). apply Zfloor_le. apply Rmult_le_pos; lra. }
  assert (Nb : (n < 2 ^ 46)%Z). { apply lt_IZR. change (IZR (2 ^ 46)) with 70368744177664. lra. }
  apply Zfloor_imp. split.
  - apply rounded_int_ge; [lia|exact N1].
  - apply quotient_below; [exact F|lia|]. rewrite plus_IZR. lra.
Qed.

(** ** The cells *)
Theorem C121_cell :
  forall count v, (0 < count <= 2 ^ 32)%Z -> double v -> v < 2 ^ 50 ->
  forall c, cell_of count v = c <-> in_cell count c v.
Proof.
  intros count v C F U.
  assert (H : in_cell count (cell_of count v) v).
  { unfold cell_of, in_cell, cell_size. destruct (Rle_or_lt 0 v) as [P|N].
    - rewrite floor_quotient by (auto; lra). set (n := Zfloor (v / 31)).
      assert (N1 : IZR n <= v / 31) by apply Zfloor_lb. assert (N2 : v / 31 < IZR n + 1) by apply Zfloor_ub.
      assert (N0 : (0 <= n)%Z). { unfold n. replace 0%Z with (Zfloor 0) by apply (Zfloor_IZR 0). apply Zfloor_le. apply Rmult_le_pos; lra. }
      split; [lia|]. destruct (Z.le_gt_cases n (count - 1)) as [A|A].
      + replace (Z.max 0 (Z.min (count - 1) n)) with n by lia. split; right; lra.
      + replace (Z.max 0 (Z.min (count - 1) n)) with (count - 1)%Z by lia. split; [right|left; reflexivity].
        assert (IZR (count - 1) <= IZR n) by (apply IZR_le; lia). lra.
    - assert (R0 : rounded (v / 31) <= 0) by (apply (rounded_int_le 0); [lia|lra]).
      assert (Z0 : (Zfloor (rounded (v / 31)) <= 0)%Z). { rewrite <- (Zfloor_IZR 0). apply Zfloor_le. exact R0. }
      replace (Z.max 0 (Z.min (count - 1) (Zfloor (rounded (v / 31))))) with 0%Z by lia.
      split; [lia|]. split; [left; reflexivity|]. right. lra. }
  intros c. split; [intros <-; exact H|]. generalize dependent (cell_of count v). intros d (D & [D1|D1] & [D2|D2]) (E & [E1|E1] & [E2|E2]); try lia;
    assert (X : (d <= c)%Z \/ (c + 1 <= d)%Z) by lia; assert (Y : (c <= d)%Z \/ (d + 1 <= c)%Z) by lia;
    destruct X as [X|X]; destruct Y as [Y|Y]; try lia; apply IZR_le in X, Y; rewrite ?plus_IZR in *; subst; try lra; lia.
Qed.
Print Assumptions C121_cell.

(** The number of cells covers the image, whatever its size. *)
Theorem C121_count : forall n, (0 < n <= 2 ^ 32)%Z -> covers (cell_count n) n.
Proof.
  intros n N. unfold covers, cell_count, cell_size. set (q := ((n + 30) / 31)%Z).
  assert (Q : (31 * (q - 1) < n <= 31 * q)%Z).
  { unfold q. pose proof (Z.div_mod (n + 30) 31 ltac:(lia)). pose proof (Z.mod_pos_bound (n + 30) 31 ltac:(lia)). lia. }
  replace (Zceil (rounded (IZR n / 31))) with q; [exact Q|]. symmetry. apply Zceil_imp. split.
  - assert (F : double (IZR (32 * (q - 1) + 1) * bpow radix2 (-5))) by (apply format_F2R; lia).
    assert (L : IZR (32 * (q - 1) + 1) * bpow radix2 (-5) <= IZR n / 31).
    { change (bpow radix2 (-5)) with (/ 32). rewrite plus_IZR, mult_IZR.
      assert (IZR (31 * (q - 1) + 1) <= IZR n) by (apply IZR_le; lia). rewrite plus_IZR, mult_IZR in H. lra. }
    apply rounded_le in L. rewrite (rounded_format _ F) in L. change (bpow radix2 (-5)) with (/ 32) in L.
    rewrite plus_IZR, mult_IZR in L. lra.
  - apply rounded_int_le; [lia|]. assert (IZR n <= IZR (31 * q)) by (apply IZR_le; lia). rewrite mult_IZR in H. lra.
Qed.
Print Assumptions C121_count.

(** The searches look in one cell around (map_point.cpp:78) or two (79). *)
Theorem C121_radius : cell_radius 30 = 1%Z /\ cell_radius 60 = 2%Z.
Proof.
  assert (C : forall n q, (0 < n <= 2 ^ 32)%Z -> (31 * (q - 1) < n <= 31 * q)%Z -> cell_radius (IZR n) = q).
  { intros n q N Q. pose proof (C121_count n N) as H. unfold covers in H. change (cell_radius (IZR n)) with (cell_count n). lia. }
  split; apply C; lia.
Qed.
Print Assumptions C121_radius.

(** ** The distance *)
Definition u : R := / 2 ^ 53.
Definition eta : R := / 2 ^ 60.
Lemma error x : Rabs (rounded x - x) <= u * Rabs x + eta.
Proof.
  destruct (error_N_FLT radix2 (-1074) 53 ltac:(lia) (fun t => negb (Z.even t)) x) as (e & h & E & H & _ & Q).
  unfold rounded. rewrite Q.
  replace (x * (1 + e) + h - x) with (x * e + h) by ring.
  eapply Rle_trans; [apply Rabs_triang|]. rewrite Rabs_mult. apply Rplus_le_compat.
  - rewrite Rmult_comm. apply Rmult_le_compat_r; [apply Rabs_pos|]. eapply Rle_trans; [exact E|].
    change (bpow radix2 (- (53) + 1)) with (/ IZR (2 ^ 52)). unfold u. right.
    change (IZR (2 ^ 52)) with 4503599627370496. lra.
  - eapply Rle_trans; [exact H|]. unfold eta.
    apply Rle_trans with (bpow radix2 (-60)).
    + apply Rle_trans with (bpow radix2 (-1074)); [|apply bpow_le; lia]. pose proof (bpow_gt_0 radix2 (-1074)). lra.
    + change (bpow radix2 (-60)) with (/ IZR (2 ^ 60)). change (IZR (2 ^ 60)) with 1152921504606846976. lra.
Qed.
Lemma u_value : u = / 9007199254740992. Proof. unfold u. f_equal. simpl. ring. Qed.
Lemma eta_value : eta = / 1152921504606846976. Proof. unfold eta. f_equal. simpl. ring. Qed.
Lemma tiny_value : tiny = / 562949953421312. Proof. unfold tiny. f_equal. simpl. ring. Qed.
Lemma error_pos x : 0 <= x -> x - u * x - eta <= rounded x <= x + u * x + eta.
Proof. intros P. pose proof (error x) as E. rewrite (Rabs_pos_eq x P) in E. unfold Rabs in E; destruct (Rcase_abs _) in E; lra. Qed.
Lemma square_error a : Rabs a <= 40 ->
  a * a - 3 * u * (a * a) - 200 * eta <= rounded a * rounded a <= a * a + 3 * u * (a * a) + 200 * eta.
Proof.
  intros B. pose proof (error a) as E. set (r := rounded a) in *.
  assert (Sa : a * a = Rabs a * Rabs a) by (rewrite <- Rabs_mult; symmetry; apply Rabs_pos_eq; apply Rle_0_sqr).
  assert (Sr : r * r = Rabs r * Rabs r) by (rewrite <- Rabs_mult; symmetry; apply Rabs_pos_eq; apply Rle_0_sqr).
  assert (D : Rabs (Rabs r - Rabs a) <= u * Rabs a + eta) by (eapply Rle_trans; [apply Rabs_triang_inv2|exact E]).
  rewrite Sa, Sr. pose proof (Rabs_pos a) as Pa. pose proof (Rabs_pos r) as Pr.
  generalize dependent (Rabs r). generalize dependent (Rabs a). intros A H1 H2 H3 H4 R H5 H6 H7.
  assert (L : R <= A + u * A + eta) by (unfold Rabs in H6; destruct (Rcase_abs _) in H6; lra).
  assert (M : A - u * A - eta <= R) by (unfold Rabs in H6; destruct (Rcase_abs _) in H6; lra).
  clear - L M H1 H4 H7. rewrite u_value, eta_value in *.
  assert (A2 : 0 <= A * A) by apply Rle_0_sqr. split.
  - destruct (Rle_or_lt 0 (A - / 9007199254740992 * A - / 1152921504606846976)) as [P|N].
    + apply Rle_trans with ((A - / 9007199254740992 * A - / 1152921504606846976) * (A - / 9007199254740992 * A - / 1152921504606846976)).
      * lra.
      * apply Rmult_le_compat; lra.
    + assert (A * A <= A * (2 * / 1152921504606846976)) by (apply Rmult_le_compat_l; lra).
      assert (0 <= R * R) by apply Rle_0_sqr. lra.
  - apply Rle_trans with ((A + / 9007199254740992 * A + / 1152921504606846976) * (A + / 9007199254740992 * A + / 1152921504606846976)).
    + apply Rmult_le_compat; lra.
    + lra.
Qed.
Lemma sqr_bound a : a * a <= 1600 -> Rabs a <= 40.
Proof. intros H. apply Rnot_lt_le; intros L; assert (40 * 40 < Rabs a * Rabs a) by (apply Rmult_le_0_lt_compat; lra); rewrite <- Rabs_mult, (Rabs_pos_eq (a * a)) in * by apply Rle_0_sqr; lra. Qed.

(** a difference that is rounded to less than 35 was less than 40 *)
Lemma back a : rounded a * rounded a <= 1225 -> Rabs a <= 40.
Proof.
  intros H. pose proof (error a) as E.
  assert (Rabs (rounded a) <= 35).
  { apply Rnot_lt_le; intros L. assert (35 * 35 < Rabs (rounded a) * Rabs (rounded a)) by (apply Rmult_le_0_lt_compat; lra).
    rewrite <- Rabs_mult, (Rabs_pos_eq (rounded a * rounded a)) in * by apply Rle_0_sqr. lra. }
  assert (Rabs a - Rabs (rounded a) <= u * Rabs a + eta).
  { eapply Rle_trans; [|exact E]. rewrite (Rabs_minus_sym (rounded a) a). apply Rabs_triang_inv. }
  rewrite u_value, eta_value in *. lra.
Qed.
Lemma distance_sound k x y : squared_distance k x y <= 900 -> exact_distance2 k x y <= 900 * (1 + tiny).
Proof.
  unfold squared_distance, exact_distance2. cbv zeta. set (a := kx k - x). set (b := ky k - y). intros H.
  assert (Pa : 0 <= rounded a * rounded a) by apply Rle_0_sqr. assert (Pb : 0 <= rounded b * rounded b) by apply Rle_0_sqr.
  set (p := rounded a * rounded a) in *. set (q := rounded b * rounded b) in *.
  assert (P0 : 0 <= rounded p) by (apply (rounded_int_ge 0); [lia|exact Pa]).
  assert (Q0 : 0 <= rounded q) by (apply (rounded_int_ge 0); [lia|exact Pb]).
  pose proof (error_pos _ Pa) as Ep. pose proof (error_pos _ Pb) as Eq.
  pose proof (error_pos (rounded p + rounded q) ltac:(lra)) as Es.
  assert (S : p + q <= 900 + 1801 * 2 * u + 8 * eta) by (clear - H P0 Q0 Pa Pb Ep Eq Es; rewrite u_value, eta_value in *; lra).
  assert (Ba : Rabs a <= 40) by (apply back; fold p; rewrite u_value, eta_value in S; lra).
  assert (Bb : Rabs b <= 40) by (apply back; fold q; rewrite u_value, eta_value in S; lra).
  pose proof (square_error a Ba) as Sa. pose proof (square_error b Bb) as Sb. fold p in Sa. fold q in Sb.
  clear - S Sa Sb. rewrite u_value, eta_value, tiny_value in *. lra.
Qed.
Lemma distance_complete k x y : exact_distance2 k x y <= 900 * (1 - tiny) -> squared_distance k x y <= 900.
Proof.
  unfold squared_distance, exact_distance2. cbv zeta. set (a := kx k - x). set (b := ky k - y). intros H.
  assert (Pa : 0 <= rounded a * rounded a) by apply Rle_0_sqr. assert (Pb : 0 <= rounded b * rounded b) by apply Rle_0_sqr.
  assert (Aa : 0 <= a * a) by apply Rle_0_sqr. assert (Ab : 0 <= b * b) by apply Rle_0_sqr.
  assert (Ba : Rabs a <= 40) by (apply sqr_bound; rewrite tiny_value in H; lra).
  assert (Bb : Rabs b <= 40) by (apply sqr_bound; rewrite tiny_value in H; lra).
  pose proof (square_error a Ba) as Sa. pose proof (square_error b Bb) as Sb.
  pose proof (error_pos _ Pa) as Ep. pose proof (error_pos _ Pb) as Eq.
  apply (rounded_int_le 900); [lia|]. clear - H Aa Ab Sa Sb Ep Eq Pa Pb. rewrite u_value, eta_value, tiny_value in *. lra.
Qed.

(** ** The search *)
Lemma in_range a b z : List.In z (range a b) <-> (a <= z < b)%Z.
Proof.
  unfold range. rewrite in_map_iff. split.
  - intros (i & <- & I). apply in_seq in I. lia.
  - intros H. exists (Z.to_nat (z - a)). split; [lia|]. apply in_seq. lia.
Qed.
Lemma in_searched count c r z : (0 < count <= 100000)%Z -> (0 <= c < count)%Z -> (1 <= r <= 1000)%Z ->
  (List.In z (searched count c r) <-> (r <= c /\ 0 <= z < count /\ c - r <= z <= c + r)%Z).
Proof.
  intros N C R. unfold searched. rewrite in_range. unfold unsigned. rewrite (Z.mod_small (c + r + 1)) by lia.
  destruct (Z.le_gt_cases r c) as [L|G].
  - rewrite Z.mod_small by lia. lia.
  - replace ((c - r) mod 2 ^ 32)%Z with (2 ^ 32 + c - r)%Z; [lia|]. apply Z.mod_unique with (-1)%Z; lia.
Qed.
Lemma count_bound n : (0 < n <= 1000000)%Z -> (0 < cell_count n <= 100000)%Z.
Proof. intros N. pose proof (C121_count n ltac:(lia)) as H. unfold covers in H. lia. Qed.

(** [inside]: the cell of the position is at least [radius] cells away from the top and left borders
    (closer to them nothing is found, the defect of C15). *)
Theorem C121_candidates :
  forall cols rows k x y radius,
  (0 < rows <= cols)%Z -> (cols <= 1000000)%Z -> (1 <= radius <= 1000)%Z ->
  double (kx k) -> double (ky k) -> double x -> double y ->
  kx k < 2 ^ 50 -> ky k < 2 ^ 50 -> x < 2 ^ 50 -> y < 2 ^ 50 ->
  let inside := exists cx cy, in_cell (cell_count cols) cx x /\ in_cell (cell_count rows) cy y /\ (radius <= cx)%Z /\ (radius <= cy)%Z in
  (candidate cols rows k x y radius = true ->
     is_matched k = false /\ inside /\ exact_distance2 k x y <= 900 * (1 + tiny)) /\
  (is_matched k = false -> inside -> exact_distance2 k x y <= 900 * (1 - tiny) ->
     candidate cols rows k x y radius = true).
Proof.
  intros cols rows k x y radius R C Ra Fkx Fky Fx Fy Ukx Uky Ux Uy inside.
  pose proof (count_bound cols ltac:(lia)) as Nx. pose proof (count_bound rows ltac:(lia)) as Ny.
  pose proof (proj1 (C121_cell (cell_count cols) x ltac:(lia) Fx Ux _) eq_refl) as Cx.
  pose proof (proj1 (C121_cell (cell_count rows) y ltac:(lia) Fy Uy _) eq_refl) as Cy.
  pose proof (proj1 (C121_cell (cell_count cols) (kx k) ltac:(lia) Fkx Ukx _) eq_refl) as Ckx.
  pose proof (proj1 (C121_cell (cell_count rows) (ky k) ltac:(lia) Fky Uky _) eq_refl) as Cky.
  unfold candidate. cbv zeta. split.
  - intros H. apply existsb_exists in H. destruct H as (i & I & H). apply existsb_exists in H. destruct H as (j & J & H).
    apply andb_prop in H. destruct H as (H & D). apply andb_prop in H. destruct H as (_ & M).
    destruct (Rle_dec _ _) as [L|] in D; [|discriminate D].
    apply in_searched in I; [|lia|apply Cy|lia]. apply in_searched in J; [|lia|apply Cx|lia].
    split; [destruct (is_matched k); [discriminate M|reflexivity]|]. split; [|apply distance_sound, L].
    eexists _, _. repeat split; [apply Cx|apply Cx|apply Cx|apply Cx|apply Cy|apply Cy|apply Cy|apply Cy|lia|lia].
  - intros M (cx & cy & Ix & Iy & Lx & Ly) D.
    apply C121_cell in Ix, Iy; [|lia|auto|auto|lia|auto|auto].
    assert (Dl : Rabs (kx k - x) <= 30 /\ Rabs (ky k - y) <= 30).
    { unfold exact_distance2 in D. rewrite tiny_value in D. set (a := kx k - x) in *. set (b := ky k - y) in *.
      assert (0 <= a * a) by apply Rle_0_sqr. assert (0 <= b * b) by apply Rle_0_sqr.
      split; apply Rnot_lt_le; intros L;
      [assert (30 * 30 < Rabs a * Rabs a) by (apply Rmult_le_0_lt_compat; lra)|assert (30 * 30 < Rabs b * Rabs b) by (apply Rmult_le_0_lt_compat; lra)];
      rewrite <- Rabs_mult, Rabs_pos_eq in * by assumption; lra. }
    assert (K : forall count c d v w, in_cell count c v -> in_cell count d w -> Rabs (w - v) <= 30 -> (c - 1 <= d <= c + 1)%Z).
    { clear. intros count c d v w (B1 & L1 & U1) (B2 & L2 & U2) A. apply Rabs_le_inv in A. split.
      - destruct (Z.le_gt_cases (c - 1) d) as [|G]; [assumption|exfalso]. destruct U2 as [U2|U2]; [lia|]. destruct L1 as [L1|L1]; [lia|].
        assert (IZR (d + 1) <= IZR (c - 1)) by (apply IZR_le; lia). rewrite plus_IZR, minus_IZR in H. lra.
      - destruct (Z.le_gt_cases d (c + 1)) as [|G]; [assumption|exfalso]. destruct U1 as [U1|U1]; [lia|]. destruct L2 as [L2|L2]; [lia|].
        assert (IZR (c + 1) <= IZR (d - 1)) by (apply IZR_le; lia). rewrite plus_IZR, minus_IZR in H. lra. }
    pose proof (K _ _ _ _ _ Cx Ckx (proj1 Dl)) as Kx. pose proof (K _ _ _ _ _ Cy Cky (proj2 Dl)) as Ky.
    apply existsb_exists. exists (cell_of (cell_count rows) (ky k)). split.
    { apply in_searched; [lia|apply Cy|lia|]. destruct Cky as (B & _). lia. }
    apply existsb_exists. exists (cell_of (cell_count cols) (kx k)). split.
    { apply in_searched; [lia|apply Cx|lia|]. destruct Ckx as (B & _). lia. }
    rewrite Z.eqb_refl, M. cbn [negb andb]. destruct (Rle_dec _ _) as [|N]; [reflexivity|]. exfalso. apply N, distance_complete, D.
Qed.
Print Assumptions C121_candidates.

(** ** Cases that meet the hypotheses *)
Example C121_example :
  let k := mkKeypoint 320 240 false in
  candidate 640 480 k 330 250 1 = true /\ candidate 640 480 k 345 265 1 = false /\ candidate 640 480 k 10 10 1 = false.
Proof.
  assert (D : forall z, (Z.abs z < 2 ^ 53)%Z -> double (IZR z)) by exact format_IZR.
  assert (P : forall n, (Z.abs n <= 1000)%Z -> IZR n < 2 ^ 50).
  { intros n H. apply Rle_lt_trans with (IZR 1000); [apply IZR_le; lia|simpl; lra]. }
  assert (Cc : cell_count 640 = 21%Z) by (pose proof (C121_count 640 ltac:(lia)) as H; unfold covers in H; lia).
  assert (Cr : cell_count 480 = 16%Z) by (pose proof (C121_count 480 ltac:(lia)) as H; unfold covers in H; lia).
  cbv zeta. split; [|split].
  - apply (proj2 (C121_candidates 640 480 (mkKeypoint 320 240 false) 330 250 1 ltac:(lia) ltac:(lia) ltac:(lia)
      (D 320%Z ltac:(lia)) (D 240%Z ltac:(lia)) (D 330%Z ltac:(lia)) (D 250%Z ltac:(lia))
      (P 320%Z ltac:(lia)) (P 240%Z ltac:(lia)) (P 330%Z ltac:(lia)) (P 250%Z ltac:(lia)))).
    + reflexivity.
    + exists 10%Z, 8%Z. rewrite Cc, Cr. unfold in_cell. repeat split; try lia; right; lra.
    + unfold exact_distance2. cbn [kx ky]. rewrite tiny_value. lra.
  - apply not_true_is_false. intros H.
    apply (C121_candidates 640 480 (mkKeypoint 320 240 false) 345 265 1 ltac:(lia) ltac:(lia) ltac:(lia)
      (D 320%Z ltac:(lia)) (D 240%Z ltac:(lia)) (D 345%Z ltac:(lia)) (D 265%Z ltac:(lia))
      (P 320%Z ltac:(lia)) (P 240%Z ltac:(lia)) (P 345%Z ltac:(lia)) (P 265%Z ltac:(lia))) in H.
    destruct H as (_ & _ & H). unfold exact_distance2 in H. cbn [kx ky] in H. rewrite tiny_value in H. lra.
  - apply not_true_is_false. intros H.
    apply (C121_candidates 640 480 (mkKeypoint 320 240 false) 10 10 1 ltac:(lia) ltac:(lia) ltac:(lia)
      (D 320%Z ltac:(lia)) (D 240%Z ltac:(lia)) (D 10%Z ltac:(lia)) (D 10%Z ltac:(lia))
      (P 320%Z ltac:(lia)) (P 240%Z ltac:(lia)) (P 10%Z ltac:(lia)) (P 10%Z ltac:(lia))) in H.
    destruct H as (_ & _ & H). unfold exact_distance2 in H. cbn [kx ky] in H. rewrite tiny_value in H. lra.
Qed.

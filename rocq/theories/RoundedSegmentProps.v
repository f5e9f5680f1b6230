(** C127: the rounding of the machine in the statistics of plane segments; C35: perfect planes. *)
From Coq Require Import Reals ZArith Lra Lia Psatz List ZifyNat.
From Flocq Require Import Core Relative.
From Verif Require Import RoundedCameraModel RoundedCameraSpec RoundedCameraProps.
From Verif Require Import PlaneSegmentModel PlaneSegmentSpec PlaneSegmentProofs PlaneSegmentProps RoundedSegmentModel RoundedSegmentSpec.
Import ListNotations.
Local Open Scope R_scope.

Lemma rf_error x : Rabs (rf x - x) <= / 16777216 * Rabs x + / 2 ^ 100.
Proof.
  destruct (error_N_FLT radix2 (-149) 24 ltac:(lia) (fun t => negb (Z.even t)) x) as (e & h & E & H & _ & Q).
  unfold rf. rewrite Q. replace (x * (1 + e) + h - x) with (x * e + h) by ring.
  eapply Rle_trans; [apply Rabs_triang|]. rewrite Rabs_mult. apply Rplus_le_compat.
  - rewrite Rmult_comm. apply Rmult_le_compat_r; [apply Rabs_pos|]. eapply Rle_trans; [exact E|].
    change (bpow radix2 (- (24) + 1)) with (/ IZR (2 ^ 23)). right. change (IZR (2 ^ 23)) with 8388608. lra.
  - eapply Rle_trans; [exact H|]. apply Rle_trans with (bpow radix2 (-100)).
    + apply Rle_trans with (bpow radix2 (-149)); [|apply bpow_le; lia]. pose proof (bpow_gt_0 radix2 (-149)). lra.
    + change (-100)%Z with (Z.opp (Z.of_nat 100)). rewrite bpow_opp, <- IZR_Zpower by lia. rewrite (pow_IZR 2 100). apply Rle_refl.
Qed.
Lemma rd_rnd x : rd x = rnd x. Proof. reflexivity. Qed.

Lemma Rabs_0_inv x : Rabs x = 0 -> x = 0.
Proof. intros H. destruct (Req_dec x 0) as [->|N]; [reflexivity|]. now apply Rabs_no_R0 in N. Qed.

(** ** Sums: [S] computed, [X] exact, of [n] terms of size [T] each known within [a] *)
Definition near (n S X T a : R) : Prop := Rabs (S - X) <= n * a + 2 * u * (n * n) * T /\ Rabs X <= n * T /\ a_double S.
Definition bounds (n T a : R) : Prop := 0 <= n <= 1048576 /\ 1 <= T /\ 0 <= a <= T / 100.
Lemma eta_T T : 1 <= T -> eta <= u * T / 2.
Proof. intros H. apply eta_small. apply above_tiny. lra. Qed.
Lemma near_0 T a : near 0 0 0 T a.
Proof. unfold near. rewrite Rminus_0_r, Rabs_R0. repeat split; [lra|lra|apply double_0]. Qed.
Lemma near_add n S X T a t x : bounds (n + 1) T a -> 0 <= n -> near n S X T a -> Rabs (t - x) <= a -> Rabs x <= T -> near (n + 1) (rd (S + t)) (X + x) T a.
Proof.
  intros ((_ & Nb) & T1 & A0 & A1) N0 (E & Xb & _) Ht Hx. rewrite rd_rnd. pose proof (rnd_error (S + t)) as R. pose proof (eta_T T T1) as Et. pose proof u_pos as U.
  assert (U' : u * 1048576 <= / 8000000000) by (rewrite u_value; lra). repeat split; [| |apply rnd_idem].
  - assert (Q : 2 * u * (n * n) * T <= n * T / 1000).
    { assert (u * n <= / 8000000000) by nra. replace (2 * u * (n * n) * T) with (2 * (u * n) * (n * T)) by ring. assert (0 <= n * T) by nra. nra. }
    assert (V : Rabs (S + t) <= 11 / 10 * ((n + 1) * T)).
    { replace (S + t) with ((S - X) + (t - x) + (X + x)) by ring. eapply Rle_trans; [apply Rabs_triang|]. eapply Rle_trans; [apply Rplus_le_compat; [apply Rabs_triang|apply Rabs_triang]|].
      assert (n * a <= n * (T / 100)) by (apply Rmult_le_compat_l; lra). assert (0 <= n * T) by (apply Rmult_le_pos; lra). lra. }
    replace (rnd (S + t) - (X + x)) with ((rnd (S + t) - (S + t)) + (S - X) + (t - x)) by ring.
    eapply Rle_trans; [apply Rabs_triang|]. eapply Rle_trans; [apply Rplus_le_compat_r, Rabs_triang|].
    assert (u * Rabs (S + t) <= u * (11 / 10 * ((n + 1) * T))) by (apply Rmult_le_compat_l; lra).
    assert (0 <= u * (n * T)) by (apply Rmult_le_pos; [lra|]; apply Rmult_le_pos; lra). assert (0 < u * T) by nra. lra.
  - eapply Rle_trans; [apply Rabs_triang|]. lra.
Qed.
Lemma near_expand n m S X S' X' T a : bounds (n + m) T a -> (n = 0 \/ 1 <= n) -> (m = 0 \/ 1 <= m) -> near n S X T a -> near m S' X' T a -> near (n + m) (rd (S + S')) (X + X') T a.
Proof.
  intros ((_ & Nb) & T1 & A0 & A1) Hn Hm H H'. rewrite rd_rnd.
  assert (Z : forall S X, near 0 S X T a -> S = 0 /\ X = 0).
  { intros P Q (A & B & _). rewrite Rmult_0_l in B. assert (Q = 0) as -> by (apply Rabs_0_inv; pose proof (Rabs_pos Q); lra).
    split; [|reflexivity]. rewrite Rminus_0_r in A. apply Rabs_0_inv. pose proof (Rabs_pos P). lra. }
  destruct Hn as [->|Hn].
  { destruct (Z _ _ H) as (-> & ->). rewrite !Rplus_0_l. destruct H' as (A & B & D). rewrite rnd_id by exact D. repeat split; assumption. }
  destruct Hm as [->|Hm].
  { destruct (Z _ _ H') as (-> & ->). rewrite !Rplus_0_r. destruct H as (A & B & D). rewrite rnd_id by exact D. repeat split; assumption. }
  destruct H as (E & Xb & _), H' as (E' & Xb' & _). pose proof (rnd_error (S + S')) as R. pose proof (eta_T T T1) as Et. pose proof u_pos as U.
  assert (U' : u * 1048576 <= / 8000000000) by (rewrite u_value; lra). repeat split; [| |apply rnd_idem].
  - assert (Q : forall k, 0 <= k <= 1048576 -> 2 * u * (k * k) * T <= k * T / 1000).
    { intros k Hk. assert (u * k <= / 8000000000) by nra. replace (2 * u * (k * k) * T) with (2 * (u * k) * (k * T)) by ring. assert (0 <= k * T) by nra. nra. }
    pose proof (Q n ltac:(lra)). pose proof (Q m ltac:(lra)).
    assert (V : Rabs (S + S') <= 11 / 10 * ((n + m) * T)).
    { replace (S + S') with ((S - X) + (S' - X') + (X + X')) by ring. eapply Rle_trans; [apply Rabs_triang|]. eapply Rle_trans; [apply Rplus_le_compat; [apply Rabs_triang|apply Rabs_triang]|].
      assert (n * a <= n * (T / 100)) by (apply Rmult_le_compat_l; lra). assert (0 <= n * T) by (apply Rmult_le_pos; lra). assert (m * a <= m * (T / 100)) by (apply Rmult_le_compat_l; lra). assert (0 <= m * T) by (apply Rmult_le_pos; lra). lra. }
    replace (rnd (S + S') - (X + X')) with ((rnd (S + S') - (S + S')) + (S - X) + (S' - X')) by ring.
    eapply Rle_trans; [apply Rabs_triang|]. eapply Rle_trans; [apply Rplus_le_compat_r, Rabs_triang|].
    assert (u * Rabs (S + S') <= u * (11 / 10 * ((n + m) * T))) by (apply Rmult_le_compat_l; lra).
    assert (NM : (n + m) / 2 <= n * m) by nra. assert (0 < u * T) by nra.
    assert ((n + m) / 2 * (u * T) <= n * m * (u * T)) by (apply Rmult_le_compat_r; lra).
    assert (1 * (u * T) <= (n + m) / 2 * (u * T)) by (apply Rmult_le_compat_r; lra). lra.
  - eapply Rle_trans; [apply Rabs_triang|]. lra.
Qed.

(** ** All the sums of a segment *)
Definition slack (B : R) : R := B * B * (1001 / 1000 / 16777216).
Definition near_sums (B : R) (s e : sums) : Prop :=
  s_n s = s_n e /\ let n := INR (s_n e) in
  (near n (s_x s) (s_x e) B 0 /\ near n (s_y s) (s_y e) B 0 /\ near n (s_z s) (s_z e) B 0) /\
  (near n (s_xx s) (s_xx e) (B * B) (slack B) /\ near n (s_yy s) (s_yy e) (B * B) (slack B) /\ near n (s_zz s) (s_zz e) (B * B) (slack B)) /\
  (near n (s_xy s) (s_xy e) (B * B) (slack B) /\ near n (s_yz s) (s_yz e) (B * B) (slack B) /\ near n (s_zx s) (s_zx e) (B * B) (slack B)).
Lemma rf_product B a b : 1 <= B -> Rabs a <= B -> Rabs b <= B -> Rabs (rf (a * b) - a * b) <= slack B /\ Rabs (a * b) <= B * B.
Proof.
  intros H A C. assert (P : Rabs (a * b) <= B * B) by (rewrite Rabs_mult; apply Rmult_le_compat; auto; apply Rabs_pos). split; [|exact P].
  pose proof (rf_error (a * b)) as E. pose proof tiny_100. unfold slack. assert (1 <= B * B) by nra. lra.
Qed.
Lemma B_bounds B n : 1 <= B -> (Z.of_nat n <= 1048576)%Z -> bounds (INR n) B 0 /\ bounds (INR n) (B * B) (slack B).
Proof.
  intros H N. apply IZR_le in N. rewrite <- INR_IZR_INZ in N. pose proof (pos_INR n). assert (1 <= B * B) by nra.
  unfold bounds, slack. repeat split; try lra; try nra.
Qed.
Lemma near_sums_0 B : near_sums B no_sums no_sums.
Proof. unfold near_sums, no_sums. cbn [s_n s_x s_y s_z s_xx s_yy s_zz s_xy s_yz s_zx INR]. split; [reflexivity|]. split; [split; [|split]|split; (split; [|split])]; apply near_0. Qed.
Lemma near_point B s e p : 1 <= B -> (Z.of_nat (S (s_n e)) <= 1048576)%Z -> Rabs (vx p) <= B -> Rabs (vy p) <= B -> Rabs (vz p) <= B ->
  near_sums B s e -> near_sums B (radd_point s p) (add_point e p).
Proof.
  intros H N X Y Z (En & (Hx & Hy & Hz) & (Hxx & Hyy & Hzz) & (Hxy & Hyz & Hzx)). unfold radd_point, add_point. destruct (Rlt_dec 0 (vz p)); [|split; [exact En|cbv zeta; tauto]].
  destruct (B_bounds B _ H N) as (B1 & B2). pose proof (pos_INR (s_n e)) as N0. rewrite S_INR in B1, B2.
  assert (Q : forall a, Rabs (a - a) <= 0) by (intros; rewrite Rminus_diag_eq, Rabs_R0 by reflexivity; lra).
  unfold near_sums. cbn [s_n s_x s_y s_z s_xx s_yy s_zz s_xy s_yz s_zx]. rewrite S_INR. split; [now rewrite En|].
  cbv zeta in *. split; [split; [|split]|split; (split; [|split])]; apply near_add; auto; apply rf_product; auto.
Qed.
Lemma near_expand_sums B s e s' e' : 1 <= B -> (Z.of_nat (s_n e + s_n e') <= 1048576)%Z -> near_sums B s e -> near_sums B s' e' -> near_sums B (rexpand s s') (expand e e').
Proof.
  intros H N (En & (Hx & Hy & Hz) & (Hxx & Hyy & Hzz) & (Hxy & Hyz & Hzx)) (En' & (Hx' & Hy' & Hz') & (Hxx' & Hyy' & Hzz') & (Hxy' & Hyz' & Hzx')).
  destruct (B_bounds B _ H N) as (B1 & B2). rewrite plus_INR in B1, B2.
  assert (C : forall n, INR n = 0 \/ 1 <= INR n) by (intros [|n]; [left; reflexivity|right; rewrite S_INR; pose proof (pos_INR n); lra]).
  unfold near_sums, rexpand, expand. cbn [s_n s_x s_y s_z s_xx s_yy s_zz s_xy s_yz s_zx]. rewrite plus_INR. split; [congruence|].
  cbv zeta in *. split; [split; [|split]|split; (split; [|split])]; apply near_expand; auto.
Qed.
Lemma near_list B l : 1 <= B -> forall s e, (Z.of_nat (s_n e + length (valid l)) <= 1048576)%Z -> within B (valid l) -> near_sums B s e ->
  near_sums B (fold_left radd_point l s) (fold_left add_point l e).
Proof.
  intros H. induction l as [|p l IH]; intros s e N W Q; [exact Q|]. cbn [fold_left]. unfold valid in *. cbn [filter] in N, W.
  assert (Ep : positive p = if Rlt_dec 0 (vz p) then true else false) by reflexivity. rewrite Ep in N, W. clear Ep.
  destruct (Rlt_dec 0 (vz p)) as [P|P].
  - destruct (W p (or_introl eq_refl)) as (X & Y & Z). cbn [length] in N. apply IH.
    + unfold add_point. destruct (Rlt_dec 0 (vz p)); [cbn [s_n]; lia|contradiction].
    + intros q I. apply W. now right.
    + apply near_point; auto. lia.
  - apply IH; auto.
    + unfold add_point. destruct (Rlt_dec 0 (vz p)); [contradiction|exact N].
    + unfold radd_point, add_point. destruct (Rlt_dec 0 (vz p)); [contradiction|exact Q].
Qed.
Lemma near_machine B g : 1 <= B -> (Z.of_nat (length (valid (points_of g))) <= 1048576)%Z -> within B (valid (points_of g)) -> near_sums B (machine_sums g) (grouped_sums g).
Proof.
  intros H. induction g as [l|a IHa b IHb]; intros N W.
  - apply near_list; auto. apply near_sums_0.
  - cbn [machine_sums grouped_sums points_of] in *. unfold valid in *. rewrite filter_app in N, W. rewrite app_length in N.
    assert (Ca := proj1 (C34_statistics a)). assert (Cb := proj1 (C34_statistics b)). unfold valid in Ca, Cb. apply near_expand_sums; auto.
    + rewrite Ca, Cb. exact N.
    + apply IHa; [lia|]. intros p I. apply W, in_app_iff. now left.
    + apply IHb; [lia|]. intros p I. apply W, in_app_iff. now right.
Qed.

(** ** The scatter matrix *)
Lemma near_close n S X T : 1 <= n <= 1048576 -> 1 <= T -> near n S X T 0 -> close (2 * n) S X (n * T).
Proof. intros N H (E & B & _). rewrite Rmult_0_r, Rplus_0_l in E. repeat split; [|exact B|lra|lra]. eapply Rle_trans; [exact E|]. right. ring. Qed.
Lemma entry_error n B Sab Xab Sa Xa Sb Xb : 1 <= n <= 1048576 -> 1 <= B -> near n Sab Xab (B * B) (slack B) -> near n Sa Xa B 0 -> near n Sb Xb B 0 ->
  Rabs (rd (Sab - rd (rd (Sa * Sb) * rd (1 / n))) - (Xab - Xa * Xb * (1 / n))) <= n * (B * B) / 16000000.
Proof.
  intros N HB (E & Xm & _) Ha Hb. change rd with rnd. pose proof u_pos as U. pose proof u_value as UV.
  assert (B2 : 1 <= B * B) by nra. assert (NB : 1 <= n * B) by nra. assert (NN : 1 <= n * (B * B)) by nra.
  pose proof (near_close _ _ _ _ N HB Ha) as Ca. pose proof (near_close _ _ _ _ N HB Hb) as Cb.
  assert (K : n * n * u <= / 8000). { assert (n * n <= 1048576 * 1048576) by (apply Rmult_le_compat; lra). assert (n * n * u <= 1048576 * 1048576 * u) by (apply Rmult_le_compat_r; lra). rewrite UV in *. lra. }
  assert (P1 : close (2 * n + 2 * n + 1) (Sa * Sb) (Xa * Xb) (n * B * (n * B))) by (apply close_mul; [assumption|assumption|lra|lra]).
  apply close_rnd in P1; [|apply above_tiny; nra|lra].
  assert (In : 0 < 1 / n) by (apply Rdiv_lt_0_compat; lra).
  assert (Inb : / 1048576 <= 1 / n) by (unfold Rdiv; rewrite Rmult_1_l; apply Rinv_le_contravar; lra).
  assert (P2 : close 2 (rnd (1 / n)) (1 / n) (1 / n)).
  { replace 2 with (0 + 2) by ring. apply close_rnd; [|apply above_tiny; lra|lra]. pose proof (close_exact (1 / n)) as Q. rewrite Rabs_pos_eq in Q by lra. exact Q. }
  assert (P3 := close_mul _ _ _ _ _ _ _ _ P1 P2 ltac:(lra) ltac:(rewrite UV; lra)).
  replace (n * B * (n * B) * (1 / n)) with (n * (B * B)) in P3 by (field; lra).
  apply close_rnd in P3; [|apply above_tiny; lra|lra]. destruct P3 as (P3 & Pm & _).
  set (w := n * (B * B)) in *. set (q := rnd (rnd (Sa * Sb) * rnd (1 / n))) in *. set (Q := Xa * Xb * (1 / n)) in *.
  pose proof (rnd_error (Sab - q)) as R. pose proof (eta_T w NN) as Et.
  assert (Un : u * n <= / 8000000000). { assert (u * n <= u * 1048576) by (apply Rmult_le_compat_l; lra). rewrite UV in *. lra. }
  assert (E1 : Rabs (Sab - Xab) <= w * (1001 / 1000 / 16777216) + 2 * (u * n) * w) by (eapply Rle_trans; [exact E|]; right; unfold slack, w; ring).
  assert (E2 : Rabs (q - Q) <= (4 * (u * n) + 8 * u) * w) by (eapply Rle_trans; [exact P3|]; right; ring).
  assert (W1 : u * n * w <= / 8000000000 * w) by (apply Rmult_le_compat_r; lra). assert (W2 : u * w <= / 8000000000 * w) by (apply Rmult_le_compat_r; [lra|rewrite UV; lra]).
  assert (D : Rabs ((Sab - q) - (Xab - Q)) <= w * (615 / 10000000000)).
  { replace ((Sab - q) - (Xab - Q)) with ((Sab - Xab) + - (q - Q)) by ring. eapply Rle_trans; [apply Rabs_triang|]. rewrite Rabs_Ropp. lra. }
  assert (V : Rabs (Sab - q) <= 3 * w).
  { replace (Sab - q) with (((Sab - q) - (Xab - Q)) + Xab + - Q) by ring. eapply Rle_trans; [apply Rabs_triang|]. rewrite Rabs_Ropp. eapply Rle_trans; [apply Rplus_le_compat_r, Rabs_triang|]. lra. }
  replace (rnd (Sab - q) - (Xab - Q)) with ((rnd (Sab - q) - (Sab - q)) + ((Sab - q) - (Xab - Q))) by ring. eapply Rle_trans; [apply Rabs_triang|].
  assert (u * Rabs (Sab - q) <= u * (3 * w)) by (apply Rmult_le_compat_l; lra). lra.
Qed.
Lemma clamp_error e x y : Rabs (x - y) <= e -> 0 <= y -> Rabs (Rmax 0 x - y) <= e.
Proof. intros H Y. unfold Rmax. destruct (Rle_dec 0 x); [exact H|]. apply Rabs_le_inv in H. apply Rabs_le. lra. Qed.

(** C127: the statistics of a segment computed by the machine, for points grouped in any way, have the
    exact number of points and a symmetric scatter matrix near the true one, with a diagonal that is not negative. *)
Theorem C127_scatter : forall g B, let l := valid (points_of g) in
  1 <= B -> within B l -> (0 < Z.of_nat (length l) <= 1048576)%Z ->
  s_n (machine_sums g) = length l /\
  msym (rscatter (machine_sums g)) /\
  (let m := rscatter (machine_sums g) in 0 <= vx (r0 m) /\ 0 <= vy (r1 m) /\ 0 <= vz (r2 m)) /\
  entries_within (INR (length l) * (B * B) / 16000000) (rscatter (machine_sums g)) (scatter_of l).
Proof.
  intros g B l HB W N. destruct (near_machine B g HB ltac:(apply N) W) as (En & (Hx & Hy & Hz) & (Hxx & Hyy & Hzz) & (Hxy & Hyz & Hzx)).
  assert (Ne : l <> []) by (intros Z; rewrite Z in N; cbn in N; lia).
  rewrite C34_expansion, accumulate_valid in En, Hx, Hy, Hz, Hxx, Hyy, Hzz, Hxy, Hyz, Hzx. fold l in En, Hx, Hy, Hz, Hxx, Hyy, Hzz, Hxy, Hyz, Hzx. cbn [sums_of s_n] in En. split; [exact En|]. split; [reflexivity|]. split; [cbn; repeat split; apply Rmax_l|].
  rewrite <- (scatter_sums l Ne).
  assert (L : 1 <= INR (length l) <= 1048576).
  { split; [change 1 with (INR 1); apply le_INR; lia|]. rewrite INR_IZR_INZ. apply IZR_le. lia. }
  unfold rscatter, scatter. rewrite En. cbv zeta in *. cbn [sums_of s_n s_x s_y s_z s_xx s_yy s_zz s_xy s_yz s_zx] in *.
  assert (P : forall f m, m = rsum f l / INR (length l) -> 0 <= rsum (fun p => f p * f p) l - rsum f l * rsum f l * (1 / INR (length l))).
  { intros f m E. rewrite <- (deviations f f l m m Ne E E). apply rsum_nonneg. intros. apply Rle_0_sqr. }
  rewrite (Rmax_pos_id (_ - rsum vx l * _ * _)), (Rmax_pos_id (_ - rsum vy l * _ * _)), (Rmax_pos_id (_ - rsum vz l * _ * _)) by (eapply P; reflexivity).
  unfold entries_within, rows_within. cbn [r0 r1 r2 vx vy vz].
  repeat split; try (apply clamp_error; [|eapply P; reflexivity]); apply entry_error; assumption.
Qed.
Print Assumptions C127_scatter.

Lemma quad_within e m m' v : entries_within e m m' -> Rabs (quad m v - quad m' v) <= 3 * e * dot v v.
Proof.
  intros ((A0 & A1 & A2) & (B0 & B1 & B2) & (C0 & C1 & C2)). unfold quad, mvmul, dot. cbn [vx vy vz].
  set (x := vx v). set (y := vy v). set (z := vz v).
  assert (E0 : 0 <= e) by (eapply Rle_trans; [apply Rabs_pos|exact A0]).
  assert (S : forall d p q, Rabs d <= e -> Rabs (d * (p * q)) <= e * ((p * p + q * q) / 2)).
  { intros d p q H. rewrite Rabs_mult. apply Rmult_le_compat; [apply Rabs_pos|apply Rabs_pos|exact H|]. pose proof (Rle_0_sqr (p - q)) as S1. pose proof (Rle_0_sqr (p + q)) as S2. unfold Rsqr in S1, S2. apply Rabs_le. lra. }
  match goal with |- Rabs ?t <= _ => replace t with
    ((vx (r0 m) - vx (r0 m')) * (x * x) + (vy (r0 m) - vy (r0 m')) * (x * y) + (vz (r0 m) - vz (r0 m')) * (x * z) +
     ((vx (r1 m) - vx (r1 m')) * (y * x) + (vy (r1 m) - vy (r1 m')) * (y * y) + (vz (r1 m) - vz (r1 m')) * (y * z)) +
     ((vx (r2 m) - vx (r2 m')) * (z * x) + (vy (r2 m) - vy (r2 m')) * (z * y) + (vz (r2 m) - vz (r2 m')) * (z * z))) by ring end.
  pose proof (S _ x x A0) as Q1. pose proof (S _ x y A1) as Q2. pose proof (S _ x z A2) as Q3.
  pose proof (S _ y x B0) as Q4. pose proof (S _ y y B1) as Q5. pose proof (S _ y z B2) as Q6.
  pose proof (S _ z x C0) as Q7. pose proof (S _ z y C1) as Q8. pose proof (S _ z z C2) as Q9.
  apply Rabs_le_inv in Q1, Q2, Q3, Q4, Q5, Q6, Q7, Q8, Q9. apply Rabs_le. lra.
Qed.
(** C127: so the plane fitted with a correct solver is the best one up to the rounding, and the smallest
    eigenvalue is its sum of squared distances up to the rounding. *)
Theorem C127_least_squares : forall g B e, let l := valid (points_of g) in
  1 <= B -> within B l -> (0 < Z.of_nat (length l) <= 1048576)%Z -> eigen_of (rscatter (machine_sums g)) e ->
  let n := e_first e in let d := - dot n (mean l) in let slack := INR (length l) * (B * B) / 16000000 in
  (forall n' d', is_unit n' -> squared_distances n d l <= squared_distances n' d' l + 6 * slack) /\
  Rabs (vx (e_values e) - squared_distances n d l) <= 3 * slack.
Proof.
  intros g B e l HB W N He n d sl. destruct (C127_scatter g B HB W N) as (_ & _ & _ & Cl). fold l sl in Cl.
  assert (Ne : l <> []) by (intros Z; fold l in N; rewrite Z in N; cbn in N; lia).
  assert (Ln : 0 <= INR (length l)) by apply pos_INR.
  assert (Un : is_unit n) by (destruct He as (_ & v1 & v2 & Un & _); exact Un).
  assert (Sq : squared_distances n d l = quad (scatter_of l) n) by (rewrite squared_distances_eq by exact Ne; unfold d; ring).
  pose proof (quad_within _ _ _ n Cl) as Qn. rewrite Un in Qn. pose proof (eigen_first _ _ He) as Fi. fold n in Fi. rewrite Fi in Qn. rewrite Sq.
  split; [|lra]. intros n' d' Un'. rewrite squared_distances_eq by exact Ne.
  pose proof (quad_within _ _ _ n' Cl) as Q'. rewrite Un' in Q'. pose proof (eigen_rayleigh _ _ _ He Un') as Ray.
  assert (0 <= INR (length l) * ((dot n' (mean l) + d') * (dot n' (mean l) + d'))) by (apply Rmult_le_pos; [exact Ln|apply Rle_0_sqr]).
  apply Rabs_le_inv in Qn, Q'. lra.
Qed.
Print Assumptions C127_least_squares.

(** C127: the computed matrix is positive up to the rounding, *)
Theorem C127_almost_positive : forall g B v, let l := valid (points_of g) in
  1 <= B -> within B l -> (0 < Z.of_nat (length l) <= 1048576)%Z ->
  - (3 * (INR (length l) * (B * B) / 16000000) * dot v v) <= quad (rscatter (machine_sums g)) v.
Proof.
  intros g B v l HB W N. destruct (C127_scatter g B HB W N) as (_ & _ & _ & Cl). pose proof (quad_within _ _ _ v Cl) as Q. apply Rabs_le_inv in Q.
  assert (0 <= quad (scatter_of (valid (points_of g))) v) by (rewrite quad_scatter; apply rsum_nonneg; intros; apply Rle_0_sqr). fold l in Q, H. lra.
Qed.
Print Assumptions C127_almost_positive.

(** *** a machine without rounding errors on small integers *)
Lemma rd_exact k e : (Z.abs k < 2 ^ 53)%Z -> (-1074 <= e)%Z -> rd (IZR k * bpow radix2 e) = IZR k * bpow radix2 e.
Proof. intros K E. apply round_generic; [apply valid_rnd_N|]. apply generic_format_FLT. exists (Float radix2 k e); [reflexivity|exact K|exact E]. Qed.
Lemma rd_Z k : (Z.abs k < 2 ^ 53)%Z -> rd (IZR k) = IZR k.
Proof. intros K. pose proof (rd_exact k 0 K ltac:(lia)) as H. change (bpow radix2 0) with 1 in H. now rewrite Rmult_1_r in H. Qed.
Lemma rd_half k x : (Z.abs k < 2 ^ 53)%Z -> x = IZR k / 2 -> rd x = IZR k / 2.
Proof. intros K ->. exact (rd_exact k (-1) K ltac:(lia)). Qed.
Lemma rf_Z k : (Z.abs k < 2 ^ 24)%Z -> rf (IZR k) = IZR k.
Proof. intros K. apply round_generic; [apply valid_rnd_N|]. apply generic_format_FLT. exists (Float radix2 k 0); [unfold F2R; cbn; ring|exact K|cbn; lia]. Qed.
Lemma rf_quarter a b : (2 ^ 25 <= a < 2 ^ 26)%Z -> (2 * Z.abs (a - 4 * b) < 4)%Z -> rf (IZR a) = IZR (4 * b).
Proof.
  intros A H. unfold rf, round. assert (M : cexp radix2 (FLT_exp (-149) 24) (IZR a) = 2%Z).
  { unfold cexp. rewrite (mag_unique_pos radix2 (IZR a) 26); [reflexivity|]. change (26 - 1)%Z with 25%Z.
    change (bpow radix2 25) with (IZR (2 ^ 25)). change (bpow radix2 26) with (IZR (2 ^ 26)). split; [apply IZR_le; lia|apply IZR_lt; lia]. }
  unfold scaled_mantissa. rewrite M. change (bpow radix2 (- (2))) with (/ IZR 4).
  rewrite (Znearest_imp _ _ b).
  - unfold F2R. cbn [Fnum Fexp]. change (bpow radix2 2) with (IZR 4). rewrite <- mult_IZR. f_equal. lia.
  - replace (IZR a * / IZR 4 - IZR b) with (IZR (a - 4 * b) / 4) by (rewrite minus_IZR, mult_IZR; lra).
    assert (-2 < a - 4 * b < 2)%Z as [L U] by lia. apply IZR_lt in L, U. apply Rabs_lt. lra.
Qed.

Ltac zc := repeat match goal with
  | |- context [IZR (Z.mul ?a ?b)] => let v := eval vm_compute in (Z.mul a b) in change (IZR (Z.mul a b)) with (IZR v)
  | |- context [IZR (Z.add ?a ?b)] => let v := eval vm_compute in (Z.add a b) in change (IZR (Z.add a b)) with (IZR v)
  | |- context [IZR (Z.sub ?a ?b)] => let v := eval vm_compute in (Z.sub a b) in change (IZR (Z.sub a b)) with (IZR v) end.
(** C127: but it is not positive: two points which differ only by their depth have a negative direction. *)
Theorem C127_positive_refuted : exists l v,
  (forall p, In p l -> rf (vx p) = vx p /\ rf (vy p) = vy p /\ rf (vz p) = vz p) /\ within 6000 l /\ valid l = l /\ length l = 2%nat /\
  0 <= quad (scatter_of l) v /\ quad (rscatter (raccumulate l)) v = -4.
Proof.
  exists [mkV 5793 5795 1000; mkV 5793 5795 1001], (mkV 1 (-1) 0). split; [|split; [|split; [|split; [reflexivity|split]]]].
  - intros p [<-|[<-|[]]]; cbn [vx vy vz]; repeat split; apply rf_Z; reflexivity.
  - intros p [<-|[<-|[]]]; cbn [vx vy vz]; repeat split; apply Rabs_le; lra.
  - unfold valid, filter, positive. cbn [vz]. destruct (Rlt_dec 0 1000) as [L1|L1]; [|lra]. destruct (Rlt_dec 0 1001) as [L2|L2]; [|lra]. reflexivity.
  - rewrite quad_scatter. apply rsum_nonneg. intros. apply Rle_0_sqr.
  - assert (Q1 : rf (IZR 33558849) = IZR 33558848) by (rewrite (rf_quarter _ 8389712); [reflexivity|lia|lia]).
    assert (Q2 : rf (IZR 33582025) = IZR 33582024) by (rewrite (rf_quarter _ 8395506); [reflexivity|lia|lia]).
    assert (Q3 : rf (IZR 33570435) = IZR 33570436) by (rewrite (rf_quarter _ 8392609); [reflexivity|lia|lia]).
    unfold raccumulate, fold_left, radd_point, no_sums. cbn [vx vy vz s_n s_x s_y s_z s_xx s_yy s_zz s_xy s_yz s_zx].
    destruct (Rlt_dec 0 1000) as [L1|L1]; [|lra]. destruct (Rlt_dec 0 1001) as [L2|L2]; [|lra]. cbn [vx vy vz s_n s_x s_y s_z s_xx s_yy s_zz s_xy s_yz s_zx].
    rewrite <- !mult_IZR. zc. rewrite Q1, Q2, Q3. rewrite !rf_Z by reflexivity. rewrite !Rplus_0_l. rewrite !rd_Z by reflexivity. rewrite <- !plus_IZR. zc. rewrite !rd_Z by reflexivity.
    unfold rscatter. cbn [s_n s_x s_y s_z s_xx s_yy s_zz s_xy s_yz s_zx]. cbv zeta.
    assert (O : rd (1 / INR 2) = IZR 1 / 2) by (apply rd_half; [reflexivity|cbn [INR]; lra]). rewrite O.
    rewrite <- !mult_IZR. zc. rewrite !rd_Z by reflexivity.
    assert (E : forall a b s, (Z.abs b < 2 ^ 53)%Z -> (Z.abs (2 * a - b) < 2 ^ 53)%Z -> s = IZR (2 * a - b) / 2 -> rd (IZR a - rd (IZR b * (IZR 1 / 2))) = s).
    { intros a b s H1 H2 ->. rewrite (rd_half b (IZR b * (IZR 1 / 2)) H1) by lra. apply rd_half; [exact H2|]. rewrite minus_IZR, mult_IZR. lra. }
    rewrite (E 67117696%Z 134235396%Z (-2)) by (reflexivity || (zc; lra)). rewrite (E 67164048%Z 134328100%Z (-2)) by (reflexivity || (zc; lra)). rewrite (E 67140872%Z 134281740%Z 2) by (reflexivity || (zc; lra)).
    rewrite (Rmax_left 0 (-2)) by lra.
    unfold quad, mvmul, dot. cbn [vx vy vz r0 r1 r2]. ring.
Qed.
Print Assumptions C127_positive_refuted.

(** ** Points of one plane *)
Lemma scatter_row l n m (f : vec -> R) :
  rsum (fun p => f (vsub p m) * vx (vsub p m)) l * vx n + rsum (fun p => f (vsub p m) * vy (vsub p m)) l * vy n + rsum (fun p => f (vsub p m) * vz (vsub p m)) l * vz n =
  rsum (fun p => f (vsub p m) * dot n (vsub p m)) l.
Proof. induction l as [|p l IH]; [unfold rsum; cbn; ring|]. rewrite !rsum_cons, <- IH. unfold dot. ring. Qed.
Lemma singular m n : is_unit n -> dot (r0 m) n = 0 -> dot (r1 m) n = 0 -> dot (r2 m) n = 0 -> det m = 0.
Proof.
  intros U H0 H1 H2. unfold dot in *.
  assert (X : det m * vx n = 0).
  { replace (det m * vx n) with ((vx (r0 m) * vx n + vy (r0 m) * vy n + vz (r0 m) * vz n) * (vy (r1 m) * vz (r2 m) - vz (r1 m) * vy (r2 m)) -
      (vx (r1 m) * vx n + vy (r1 m) * vy n + vz (r1 m) * vz n) * (vy (r0 m) * vz (r2 m) - vz (r0 m) * vy (r2 m)) +
      (vx (r2 m) * vx n + vy (r2 m) * vy n + vz (r2 m) * vz n) * (vy (r0 m) * vz (r1 m) - vz (r0 m) * vy (r1 m))) by (unfold det, dot, cross; cbn [vx vy vz]; ring).
    rewrite H0, H1, H2. ring. }
  assert (Y : det m * vy n = 0).
  { replace (det m * vy n) with (- (vx (r0 m) * vx n + vy (r0 m) * vy n + vz (r0 m) * vz n) * (vx (r1 m) * vz (r2 m) - vz (r1 m) * vx (r2 m)) +
      (vx (r1 m) * vx n + vy (r1 m) * vy n + vz (r1 m) * vz n) * (vx (r0 m) * vz (r2 m) - vz (r0 m) * vx (r2 m)) -
      (vx (r2 m) * vx n + vy (r2 m) * vy n + vz (r2 m) * vz n) * (vx (r0 m) * vz (r1 m) - vz (r0 m) * vx (r1 m))) by (unfold det, dot, cross; cbn [vx vy vz]; ring).
    rewrite H0, H1, H2. ring. }
  assert (Z : det m * vz n = 0).
  { replace (det m * vz n) with ((vx (r0 m) * vx n + vy (r0 m) * vy n + vz (r0 m) * vz n) * (vx (r1 m) * vy (r2 m) - vy (r1 m) * vx (r2 m)) -
      (vx (r1 m) * vx n + vy (r1 m) * vy n + vz (r1 m) * vz n) * (vx (r0 m) * vy (r2 m) - vy (r0 m) * vx (r2 m)) +
      (vx (r2 m) * vx n + vy (r2 m) * vy n + vz (r2 m) * vz n) * (vx (r0 m) * vy (r1 m) - vy (r0 m) * vx (r1 m))) by (unfold det, dot, cross; cbn [vx vy vz]; ring).
    rewrite H0, H1, H2. ring. }
  unfold is_unit, dot in U. transitivity (det m * (vx n * vx n + vy n * vy n + vz n * vz n)); [rewrite U; ring|].
  replace (det m * _) with (det m * vx n * vx n + det m * vy n * vy n + det m * vz n * vz n) by ring. rewrite X, Y, Z. ring.
Qed.
Lemma coplanar_det l : l <> [] -> coplanar l -> det (scatter_of l) = 0.
Proof.
  intros Ne (n & d & U & H).
  assert (S0 : squared_distances n d l = 0).
  { unfold squared_distances. rewrite (rsum_ext _ (fun _ => 0)); [rewrite rsum_const; ring|]. intros p I. rewrite H by exact I. ring. }
  rewrite squared_distances_eq in S0 by exact Ne. destruct (INR_len l Ne) as (_ & Ln).
  assert (Q : 0 <= quad (scatter_of l) n) by (rewrite quad_scatter; apply rsum_nonneg; intros; apply Rle_0_sqr).
  set (k := dot n (mean l) + d) in *. assert (K : k = 0).
  { assert (0 <= INR (length l) * (k * k)) by (apply Rmult_le_pos; [lra|apply Rle_0_sqr]). assert (Z : INR (length l) * (k * k) = 0) by lra.
    apply Rmult_integral in Z as [Z|Z]; [lra|]. now apply Rsqr_0_uniq. }
  assert (D : forall f, rsum (fun p => f (vsub p (mean l)) * dot n (vsub p (mean l))) l = 0).
  { intros f. rewrite (rsum_ext _ (fun _ => 0)); [rewrite rsum_const; ring|]. intros p I. rewrite dot_sub_r. specialize (H p I). unfold k in K.
    replace (dot n p - dot n (mean l)) with 0 by lra. ring. }
  apply (singular _ n U); unfold scatter_of; cbn [r0 r1 r2]; unfold dot at 1; cbn [vx vy vz]; rewrite scatter_row; apply D.
Qed.
(** C35: without rounding, points which are exactly in one plane are refused. *)
Theorem C35_perfect_planes_refused : forall solve p l,
  p_sums p = accumulate l -> valid l <> [] -> coplanar (valid l) -> p_planar (fit solve p) = false.
Proof.
  intros solve p l E Ne C. apply C35_refused. rewrite E, accumulate_valid, scatter_sums by exact Ne. rewrite coplanar_det by assumption.
  rewrite Rabs_R0. unfold epsilon. lra.
Qed.
Print Assumptions C35_perfect_planes_refused.

(** a square facing the camera: nothing is rounded, and the segment is refused *)
Definition square : list vec := [mkV 0 0 1000; mkV 2 0 1000; mkV 0 2 1000; mkV 2 2 1000].
Lemma square_valid : valid square = square.
Proof. unfold valid, square, filter, positive. cbn [vz]. destruct (Rlt_dec 0 1000); [|lra]. reflexivity. Qed.
Example C35_square_refused : forall solve q, p_planar (fit solve (mkPseg (accumulate square) false None 0 v0 q)) = false.
Proof.
  intros. apply (C35_perfect_planes_refused _ _ square); [reflexivity|rewrite square_valid; discriminate|].
  exists (mkV 0 0 1), (-1000). split; [unfold is_unit, dot; cbn; ring|]. rewrite square_valid. intros p [<-|[<-|[<-|[<-|[]]]]]; unfold dot; cbn; ring.
Qed.
Example C127_example :
  let g := Expanded (Points [mkV 0 0 1000; mkV 2 0 1000; mkV 7 7 0]) (Points [mkV 0 2 1000; mkV 2 2 1000]) in
  1 <= 1000 /\ within 1000 (valid (points_of g)) /\ (0 < Z.of_nat (length (valid (points_of g))) <= 1048576)%Z /\
  eigen_of (rscatter (machine_sums g)) (mkEigen (mkV 0 4 4) (mkV 0 0 1)).
Proof.
  cbv zeta. cbn [points_of app]. assert (V : valid [mkV 0 0 1000; mkV 2 0 1000; mkV 7 7 0; mkV 0 2 1000; mkV 2 2 1000] = square).
  { unfold valid, square, filter, positive. cbn [vz]. destruct (Rlt_dec 0 1000) as [L1|L1]; [|lra]. destruct (Rlt_dec 0 0) as [L2|L2]; [lra|]. reflexivity. }
  rewrite V. split; [lra|]. split; [|split; [cbn; lia|]].
  - intros p [<-|[<-|[<-|[<-|[]]]]]; cbn [vx vy vz]; repeat split; apply Rabs_le; lra.
  - assert (M : rscatter (machine_sums (Expanded (Points [mkV 0 0 1000; mkV 2 0 1000; mkV 7 7 0]) (Points [mkV 0 2 1000; mkV 2 2 1000]))) = mkM3 (mkV 4 0 0) (mkV 0 4 0) (mkV 0 0 0)).
    { cbn [machine_sums]. unfold raccumulate, fold_left, radd_point, no_sums, rexpand. cbn [vx vy vz s_n s_x s_y s_z s_xx s_yy s_zz s_xy s_yz s_zx].
      destruct (Rlt_dec 0 1000) as [L1|L1]; [|lra]. destruct (Rlt_dec 0 0) as [L2|L2]; [lra|]. cbn [vx vy vz s_n s_x s_y s_z s_xx s_yy s_zz s_xy s_yz s_zx].
      rewrite <- !mult_IZR. zc. rewrite !rf_Z by reflexivity. repeat (rewrite <- !plus_IZR; zc; rewrite !rd_Z by reflexivity). cbn [Nat.add].
      unfold rscatter. cbn [s_n s_x s_y s_z s_xx s_yy s_zz s_xy s_yz s_zx]. cbv zeta.
      assert (O : rd (1 / INR 4) = IZR 1 * bpow radix2 (-2)).
      { replace (1 / INR 4) with (IZR 1 * bpow radix2 (-2)) by (change (bpow radix2 (-2)) with (/ IZR 4); cbn [INR]; lra). apply rd_exact; lia. }
      rewrite O. change (bpow radix2 (-2)) with (/ IZR 4). rewrite <- !mult_IZR. zc. rewrite !rd_Z by reflexivity.
      assert (E : forall a b c, (Z.abs b < 2 ^ 53)%Z -> (Z.abs (a - b) < 2 ^ 53)%Z -> c = (4 * b)%Z -> rd (IZR a - rd (IZR c * (1 * / IZR 4))) = IZR (a - b)).
      { intros a b c H1 H2 ->. replace (IZR (4 * b) * (1 * / IZR 4)) with (IZR b) by (rewrite mult_IZR; lra). rewrite (rd_Z b) by exact H1. rewrite <- minus_IZR. now apply rd_Z. }
      rewrite (E 8 4 16)%Z by reflexivity. rewrite (E 4000000 4000000 16000000)%Z by reflexivity. rewrite (E 4 4 16)%Z by reflexivity. rewrite (E 4000 4000 16000)%Z by reflexivity.
      zc. apply mat_eq; apply vec_eq; cbn [r0 r1 r2 vx vy vz]; try reflexivity; apply Rmax_right; lra. }
    rewrite M. split; [cbn; lra|]. exists (mkV 1 0 0), (mkV 0 1 0). cbn [e_first e_values vx vy vz]. unfold is_unit, dot. cbn [vx vy vz].
    repeat split; try ring; apply mat_eq; apply vec_eq; cbn; ring.
Qed.

(** C130: the pose variance with the rounding of the machine. *)
From Coq Require Import Reals ZArith Lra Lia Psatz List Permutation Bool FunctionalExtensionality.
From Flocq Require Import Core.
From Verif Require Import RealSums RoundedCameraModel RoundedCameraSpec RoundedCameraProps PoseVarianceModel PoseVarianceProps RoundedVarianceModel.
Import ListNotations.
Local Open Scope R_scope.

(** ** Vocabulary *)
(** up to a thousand poses within 100 meters of the origin (coordinates in millimeters, angles in radians),
    whose coordinates are within [D] of each other *)
Definition gathered (D : R) (l : list vec6) : Prop := (2 <= length l <= 1000)%nat /\
  (forall v a, In v l -> Rabs (v a) <= 100000) /\ (forall v w a, In v l -> In w l -> Rabs (v a - w a) <= D).

(** ** Sums *)
Lemma rtotal_app f l v : rtotal f (l ++ [v]) = radd (rtotal f l) (f v).
Proof. unfold rtotal. now rewrite fold_left_app. Qed.
Lemma rtotal_close f l X : (length l <= 1000)%nat -> 1 <= X -> (forall v, In v l -> Rabs (f v) <= X) ->
  Rabs (rtotal f l - rsum f l) <= INR (length l) * INR (length l) * (2 * u * X) /\ Rabs (rsum f l) <= INR (length l) * X.
Proof.
  intros L X1. induction l as [|v l IH] using rev_ind; intros B.
  - cbn. rewrite Rminus_0_r, Rabs_R0. lra.
  - rewrite app_length in *. cbn [length] in *. destruct IH as (E & S); [lia|intros w W; apply B, in_or_app; now left|].
    rewrite rtotal_app, rsum_app, rsum_cons. change (rsum f []) with 0. rewrite Rplus_0_r, plus_INR. change (INR 1) with 1.
    specialize (B v ltac:(apply in_or_app; right; now left)). pose proof (pos_INR (length l)) as N0.
    assert (N1 : INR (length l) <= 999) by (replace 999 with (INR 999) by (rewrite INR_IZR_INZ; reflexivity); apply le_INR; lia).
    set (n := INR (length l)) in *. set (t := rtotal f l) in *. set (s := rsum f l) in *. pose proof u_pos as U. pose proof u_value as UV.
    assert (Us : n * n * (2 * u * X) <= X / 2).
    { replace (n * n * (2 * u * X)) with (n * n * (2 * u) * X) by ring. assert (n * n <= 1000000) by nra. assert (n * n * (2 * u) <= / 2) by (rewrite UV; lra). nra. }
    assert (T : Rabs (t + f v) <= (n + 3 / 2) * X).
    { replace (t + f v) with ((t - s) + s + f v) by ring. eapply Rle_trans; [apply Rabs_triang|]. eapply Rle_trans; [apply Rplus_le_compat_r, Rabs_triang|]. lra. }
    split.
    + unfold radd. pose proof (rnd_error (t + f v)) as R0. assert (Eta : eta <= u * X / 2) by (apply eta_small; apply Rle_trans with 1; [|lra]; rewrite <- Rinv_1; apply Rinv_le_contravar; [lra|apply pow_R1_Rle; lra]).
      replace (rnd (t + f v) - (s + f v)) with ((rnd (t + f v) - (t + f v)) + (t - s)) by ring. eapply Rle_trans; [apply Rabs_triang|].
      assert (u * Rabs (t + f v) <= u * ((n + 3 / 2) * X)) by (apply Rmult_le_compat_l; lra).
      replace ((n + 1) * (n + 1) * (2 * u * X)) with (n * n * (2 * u * X) + (4 * n + 2) * (u * X)) by ring.
      assert (0 < u * X) by (apply Rmult_lt_0_compat; lra). assert ((n + 3 / 2) * (u * X) + u * X / 2 <= (4 * n + 2) * (u * X)) by nra. lra.
    + eapply Rle_trans; [apply Rabs_triang|]. lra.
Qed.
Lemma eta_tiny : eta <= / 1000000000000000000000000000000.
Proof. unfold eta. apply Rinv_le_contravar; [lra|]. rewrite (pow_IZR 2 200). replace 1000000000000000000000000000000 with (IZR (10 ^ 30)) by reflexivity. apply IZR_le. vm_compute. discriminate. Qed.
Lemma size_bounds D l : gathered D l -> 2 <= INR (length l) <= 1000 /\ INR (length l - 1) = INR (length l) - 1.
Proof.
  intros ((L & H) & _). split; [|rewrite minus_INR by lia; reflexivity].
  split; [replace 2 with (INR 2) by reflexivity; now apply le_INR|replace 1000 with (INR 1000) by (rewrite INR_IZR_INZ; reflexivity); now apply le_INR].
Qed.
Lemma rounded_quotient x n b : Rabs x <= n * b -> 0 < n -> Rabs (rdiv x n - x / n) <= u * b + eta.
Proof.
  intros B N. unfold rdiv. eapply Rle_trans; [apply rnd_error|]. apply Rplus_le_compat_r, Rmult_le_compat_l; [pose proof u_pos; lra|].
  unfold Rdiv. rewrite Rabs_mult, (Rabs_pos_eq (/ n)) by (left; now apply Rinv_0_lt_compat). apply Rmult_le_reg_r with n; [exact N|]. rewrite Rmult_assoc, Rinv_l by lra. lra.
Qed.
Lemma quotient_close x y n e : 0 < n -> Rabs (x - y) <= n * e -> Rabs (x / n - y / n) <= e.
Proof.
  intros N H. replace (x / n - y / n) with ((x - y) * / n) by (field; lra). rewrite Rabs_mult, (Rabs_pos_eq (/ n)) by (left; now apply Rinv_0_lt_compat).
  apply Rmult_le_reg_r with n; [exact N|]. rewrite Rmult_assoc, Rinv_l by lra. lra.
Qed.
Lemma medium_close D l a : gathered D l -> Rabs (rmedium l a - mean l a) <= 3 / 100000000.
Proof.
  intros G. destruct (size_bounds D l G) as (N & _). destruct G as (L & B & _). unfold rmedium, mean. set (n := INR (length l)) in *.
  destruct (rtotal_close (fun v => v a) l 100000 ltac:(lia) ltac:(lra) (fun v I => B v a I)) as (E & S). fold n in E, S.
  set (t := rtotal (fun v => v a) l) in *. change (rsum (fun v : vec6 => v a) l) with (rsum (fun v : nat -> R => v a) l) in *; set (s := rsum (fun v : nat -> R => v a) l) in *. pose proof u_value as UV. pose proof eta_tiny as Et.
  assert (E' : Rabs (t - s) <= n * (1000 * (2 * u * 100000))). { eapply Rle_trans; [exact E|]. rewrite Rmult_assoc. apply Rmult_le_compat_l; [lra|]. apply Rmult_le_compat_r; [rewrite UV; lra|lra]. }
  assert (T : Rabs t <= n * 100001). { replace t with ((t - s) + s) by ring. eapply Rle_trans; [apply Rabs_triang|]. rewrite UV in E'. lra. }
  pose proof (rounded_quotient t n _ T ltac:(lra)) as Q. pose proof (quotient_close t s n _ ltac:(lra) E') as Q'. rewrite UV in *.
  replace (rdiv t n - / n * s) with ((rdiv t n - t / n) + (t / n - s / n)) by (unfold Rdiv; ring). eapply Rle_trans; [apply Rabs_triang|]. lra.
Qed.
Lemma spread D l v a : gathered D l -> In v l -> Rabs (v a - mean l a) <= D.
Proof.
  intros G I. destruct (size_bounds D l G) as (N & _). destruct G as (_ & _ & S). unfold mean. set (n := INR (length l)) in *.
  assert (Eq : v a - / n * rsum (fun w : vec6 => w a) l = rsum (fun w : vec6 => v a - w a) l / n).
  { rewrite (rsum_minus (fun _ : vec6 => v a) (fun w : vec6 => w a)), rsum_const. fold n. field. lra. }
  apply Rle_trans with (Rabs (rsum (fun w : vec6 => v a - w a) l / n)); [right; f_equal; exact Eq|]. clear Eq.
  assert (H : Rabs (rsum (fun w : vec6 => v a - w a) l) <= n * D).
  { unfold n. rewrite <- rsum_const. assert (K : forall w, In w l -> Rabs (v a - w a) <= D) by auto. clear - K. induction l as [|w l IH]; [cbn; rewrite Rabs_R0; lra|].
    rewrite !rsum_cons. eapply Rle_trans; [apply Rabs_triang|]. apply Rplus_le_compat; [apply K; now left|apply IH; intros; apply K; now right]. }
  unfold Rdiv. rewrite Rabs_mult, (Rabs_pos_eq (/ n)) by (left; apply Rinv_0_lt_compat; lra). apply Rmult_le_reg_r with n; [lra|]. rewrite Rmult_assoc, Rinv_l by lra. lra.
Qed.
Lemma deviation_close l v a : gathered 500 l -> In v l ->
  Rabs (rdeviation l v a - (v a - mean l a)) <= 4 / 100000000 /\ Rabs (v a - mean l a) <= 500.
Proof.
  intros G I. pose proof (medium_close _ l a G) as M. pose proof (spread _ l v a G I) as S. split; [|exact S].
  unfold rdeviation, rsub. pose proof (rnd_error (v a - rmedium l a)) as R0. pose proof u_value as UV. pose proof eta_tiny as Et.
  assert (B : Rabs (v a - rmedium l a) <= 501) by (apply Rabs_le; apply Rabs_le_inv in M, S; lra).
  replace (rnd (v a - rmedium l a) - (v a - mean l a)) with ((rnd (v a - rmedium l a) - (v a - rmedium l a)) - (rmedium l a - mean l a)) by ring.
  eapply Rle_trans; [apply Rabs_triang|]. rewrite Rabs_Ropp. rewrite UV in R0. lra.
Qed.
Lemma product_near x y X Y : Rabs (x - X) <= 4 / 100000000 -> Rabs (y - Y) <= 4 / 100000000 -> Rabs X <= 500 -> Rabs Y <= 500 ->
  Rabs (rmul x y - X * Y) <= 41 / 1000000 /\ Rabs (rmul x y) <= 251000.
Proof.
  intros Ex Ey Bx By. unfold rmul. pose proof (rnd_error (x * y)) as R0. pose proof u_value as UV. pose proof eta_tiny as Et.
  assert (P : Rabs (x * y - X * Y) <= 4001 / 100000000).
  { replace (x * y - X * Y) with ((x - X) * (y - Y) + X * (y - Y) + (x - X) * Y) by ring.
    eapply Rle_trans; [apply Rabs_triang|]. eapply Rle_trans; [apply Rplus_le_compat_r, Rabs_triang|]. rewrite !Rabs_mult.
    pose proof (Rabs_pos (x - X)). pose proof (Rabs_pos (y - Y)). pose proof (Rabs_pos X). pose proof (Rabs_pos Y).
    assert (Rabs (x - X) * Rabs (y - Y) <= 4 / 100000000 * (4 / 100000000)) by (apply Rmult_le_compat; lra).
    assert (Rabs X * Rabs (y - Y) <= 500 * (4 / 100000000)) by (apply Rmult_le_compat; lra).
    assert (Rabs (x - X) * Rabs Y <= 4 / 100000000 * 500) by (apply Rmult_le_compat; lra). lra. }
  assert (Q : Rabs (X * Y) <= 250000) by (rewrite Rabs_mult; replace 250000 with (500 * 500) by ring; apply Rmult_le_compat; auto using Rabs_pos).
  assert (Bxy : Rabs (x * y) <= 250001) by (replace (x * y) with ((x * y - X * Y) + X * Y) by ring; eapply Rle_trans; [apply Rabs_triang|]; lra).
  rewrite UV in R0.
  assert (A : Rabs (rnd (x * y) - X * Y) <= 41 / 1000000).
  { replace (rnd (x * y) - X * Y) with ((rnd (x * y) - x * y) + (x * y - X * Y)) by ring. eapply Rle_trans; [apply Rabs_triang|]. lra. }
  split; [exact A|]. replace (rnd (x * y)) with ((rnd (x * y) - X * Y) + X * Y) by ring. eapply Rle_trans; [apply Rabs_triang|]. lra.
Qed.
Lemma rsum_near {A} (f g : A -> R) l e : (forall v, In v l -> Rabs (f v - g v) <= e) -> Rabs (rsum f l - rsum g l) <= INR (length l) * e.
Proof.
  intros H. rewrite <- rsum_minus, <- rsum_const. induction l as [|w l IH]; [cbn; rewrite Rabs_R0; lra|].
  rewrite !rsum_cons. eapply Rle_trans; [apply Rabs_triang|]. apply Rplus_le_compat; [apply H; now left|apply IH; intros; apply H; now right].
Qed.

(** C130: each entry of the computed matrix is within a ten-thousandth of the sample covariance of the poses with
    a thousandth added to the diagonal, whatever the order in which the iterations end; *)
Definition exact_variance (l : list vec6) : mat6 := fun a b => sample_covariance l a b + if Nat.eqb a b then / 1000 else 0.
Theorem C130_close : forall l a b, gathered 500 l -> Rabs (rcovariance l a b - exact_variance l a b) <= / 10000.
Proof.
  intros l a b G. destruct (size_bounds _ l G) as (N & N1). pose proof G as (L & _). unfold rcovariance, exact_variance, sample_covariance. rewrite N1.
  set (n := INR (length l)) in *. set (f := fun v => rmul (rdeviation l v a) (rdeviation l v b)). set (g := fun v : vec6 => (v a - mean l a) * (v b - mean l b)).
  assert (P : forall v, In v l -> Rabs (f v - g v) <= 41 / 1000000 /\ Rabs (f v) <= 251000).
  { intros v I. destruct (deviation_close l v a G I) as (A1 & A2). destruct (deviation_close l v b G I) as (B1 & B2). now apply product_near. }
  destruct (rtotal_close f l 251000 ltac:(lia) ltac:(lra) (fun v I => proj2 (P v I))) as (E & S). fold n in E, S.
  pose proof (rsum_near f g l _ (fun v I => proj1 (P v I))) as F. fold n in F.
  set (t := rtotal f l) in *. set (s := rsum f l) in *. set (s' := rsum g l) in *. pose proof u_value as UV. pose proof eta_tiny as Et.
  assert (E' : Rabs (t - s) <= n * (1000 * (2 * u * 251000))). { eapply Rle_trans; [exact E|]. rewrite Rmult_assoc. apply Rmult_le_compat_l; [lra|]. apply Rmult_le_compat_r; [rewrite UV; lra|lra]. }
  rewrite UV in E'.
  assert (D : Rabs (t - s') <= (n - 1) * (83 / 1000000)). { replace (t - s') with ((t - s) + (s - s')) by ring. eapply Rle_trans; [apply Rabs_triang|]. lra. }
  assert (T : Rabs t <= (n - 1) * 502001). { replace t with ((t - s) + s) by ring. eapply Rle_trans; [apply Rabs_triang|]. lra. }
  pose proof (rounded_quotient t (n - 1) _ T ltac:(lra)) as Q. pose proof (quotient_close t s' (n - 1) _ ltac:(lra) D) as Q'. rewrite UV in Q.
  change (Rabs ((if Nat.eqb a b then radd (rdiv t (n - 1)) millesimal else rdiv t (n - 1)) - (/ (n - 1) * s' + (if Nat.eqb a b then / 1000 else 0))) <= / 10000).
  replace (/ (n - 1) * s') with (s' / (n - 1)) by (unfold Rdiv; ring).
  assert (C : Rabs (rdiv t (n - 1) - s' / (n - 1)) <= 84 / 1000000).
  { replace (rdiv t (n - 1) - s' / (n - 1)) with ((rdiv t (n - 1) - t / (n - 1)) + (t / (n - 1) - s' / (n - 1))) by ring. eapply Rle_trans; [apply Rabs_triang|]. lra. }
  destruct (Nat.eqb a b); [|rewrite Rplus_0_r; lra].
  assert (Tq : Rabs (t / (n - 1)) <= 502001). { replace (t / (n - 1)) with (t / (n - 1) - 0 / (n - 1)) by (field; lra). apply quotient_close; [lra|]. now rewrite Rminus_0_r. }
  assert (Cb : Rabs (rdiv t (n - 1)) <= 502002). { replace (rdiv t (n - 1)) with ((rdiv t (n - 1) - t / (n - 1)) + t / (n - 1)) by ring. eapply Rle_trans; [apply Rabs_triang|]. lra. }
  set (c := rdiv t (n - 1)) in *. unfold radd. pose proof (rnd_error (1 / 1000)) as M. fold millesimal in M. rewrite (Rabs_pos_eq (1 / 1000)) in M by lra. rewrite UV in M.
  pose proof (rnd_error (c + millesimal)) as R0. rewrite UV in R0.
  assert (Cm : Rabs (c + millesimal) <= 502003) by (apply Rabs_le; apply Rabs_le_inv in Cb, M; lra).
  replace (rnd (c + millesimal) - (s' / (n - 1) + / 1000)) with ((rnd (c + millesimal) - (c + millesimal)) + (c - s' / (n - 1)) + (millesimal - 1 / 1000)) by lra.
  eapply Rle_trans; [apply Rabs_triang|]. eapply Rle_trans; [apply Rplus_le_compat_r, Rabs_triang|]. lra.
Qed.
Print Assumptions C130_close.
(** so two schedules give variances within a five-thousandth of each other; *)
Lemma gathered_perm D l l' : Permutation l l' -> gathered D l -> gathered D l'.
Proof.
  intros P (L & B & S). rewrite (Permutation_length P) in L. apply Permutation_sym in P. split; [exact L|].
  split; [intros v a I; apply B; now apply (Permutation_in _ P)|intros v w a I J; apply S; now apply (Permutation_in _ P)].
Qed.
Lemma exact_perm l l' a b : Permutation l l' -> exact_variance l a b = exact_variance l' a b.
Proof.
  intros P. unfold exact_variance, sample_covariance, mean. rewrite (Permutation_length P). f_equal. f_equal. rewrite (rsum_perm _ _ _ P).
  apply rsum_ext. intros v _. now rewrite !(rsum_perm _ _ _ P).
Qed.
Theorem C130_schedule : forall l l' a b, Permutation l l' -> gathered 500 l -> Rabs (rcovariance l a b - rcovariance l' a b) <= / 5000.
Proof.
  intros l l' a b P G. pose proof (C130_close l a b G) as A. pose proof (C130_close l' a b (gathered_perm _ _ _ P G)) as B. rewrite (exact_perm l l' a b P) in A.
  apply Rabs_le. apply Rabs_le_inv in A, B. lra.
Qed.
Print Assumptions C130_schedule.
(** the matrix is exactly symmetric, *)
Theorem C130_symmetric : forall l a b, rcovariance l a b = rcovariance l b a.
Proof.
  intros l a b. unfold rcovariance. rewrite (Nat.eqb_sym b a).
  assert (E : rtotal (fun v => rmul (rdeviation l v a) (rdeviation l v b)) l = rtotal (fun v => rmul (rdeviation l v b) (rdeviation l v a)) l).
  { assert (C : forall v, rmul (rdeviation l v a) (rdeviation l v b) = rmul (rdeviation l v b) (rdeviation l v a)) by (intros v; unfold rmul; f_equal; ring).
    unfold rtotal. generalize 0. generalize l at 3 6 as l'. induction l' as [|v l' IH]; intros z; [reflexivity|]. cbn [fold_left]. rewrite C. apply IH. }
  now rewrite E.
Qed.
Print Assumptions C130_symmetric.
(** and positive definite: the rounding does not cancel the thousandth of the diagonal; *)
Lemma quadratic_error m m' x e : (forall a b, Rabs (m a b - m' a b) <= e) -> quadratic m' x - 6 * e * rsum (fun a => (x a) ^ 2) six <= quadratic m x.
Proof.
  intros H. replace (quadratic m' x - 6 * e * rsum (fun a => (x a) ^ 2) six) with (rsum (fun a => rsum (fun b => x a * m' a b * x b - e * (((x a) ^ 2 + (x b) ^ 2) / 2)) six) six)
    by (unfold quadratic, rsum, six; cbn [fold_right seq]; field).
  unfold quadratic. apply rsum_le. intros a _. apply rsum_le. intros b _. specialize (H a b).
  assert (K : Rabs (x a * (m a b - m' a b) * x b) <= e * (((x a) ^ 2 + (x b) ^ 2) / 2)).
  { replace (x a * (m a b - m' a b) * x b) with ((m a b - m' a b) * (x a * x b)) by ring. rewrite Rabs_mult. apply Rmult_le_compat; auto using Rabs_pos.
    apply Rabs_le. split; [pose proof (pow2_ge_0 (x a + x b))|pose proof (pow2_ge_0 (x a - x b))]; lra. }
  apply Rabs_le_inv in K. lra.
Qed.
Theorem C130_positive : forall l x, gathered 500 l -> 4 / 10000 * rsum (fun a => (x a) ^ 2) six <= quadratic (rcovariance l) x.
Proof.
  intros l x G. pose proof (quadratic_error _ _ x _ (fun a b => C130_close l a b G)) as E. eapply Rle_trans; [|exact E].
  unfold exact_variance. rewrite quadratic_plus, quadratic_diag. destruct (size_bounds _ l G) as (N & _).
  assert (Q : 0 <= quadratic (sample_covariance l) x).
  { unfold sample_covariance. rewrite (quadratic_outer l _ (fun v a => v a - mean l a)). apply Rmult_le_pos; [|apply squares_nonneg]. apply Rlt_le, Rinv_0_lt_compat. lra. }
  assert (0 <= rsum (fun a => (x a) ^ 2) six) by (apply rsum_nonneg; intros; nra). lra.
Qed.
Print Assumptions C130_positive.
(** so with correct tests of symmetry and of positivity the variance is computed when at least half of the iterations, and two, succeed. *)
Theorem C130_accepted : forall sample alike ldlt iterations order,
  (forall m, alike m m = true) -> (forall m, (forall x, PoseVarianceProps.nonzero x -> 0 < quadratic m x) -> ldlt m = true) ->
  (0 < iterations)%nat -> (iterations / 2 <= length (poses sample order))%nat -> gathered 500 (poses sample order) ->
  rpose_variance sample alike ldlt iterations order = Some (rcovariance (poses sample order)).
Proof.
  intros sample alike ldlt it order Al Ld I H G. unfold rpose_variance. destruct (Nat.eqb_spec it 0); [lia|].
  set (l := poses sample order) in *. destruct (Nat.ltb_spec (length l) (it / 2)); [lia|].
  assert (V : alike (rcovariance l) (fun a b => rcovariance l b a) && ldlt (rcovariance l) = true).
  { apply andb_true_intro. split.
    - replace (fun a b => rcovariance l b a) with (rcovariance l); [apply Al|]. apply functional_extensionality. intros a. apply functional_extensionality. intros b. apply C130_symmetric.
    - apply Ld. intros x X. pose proof (C130_positive l x G). pose proof (squares_pos x X). lra. }
  destruct G as ((L & _) & _). destruct l as [|v [|w l]]; cbn [length] in L; [lia|lia|]. now rewrite V.
Qed.
Print Assumptions C130_accepted.
(** And a variance that is returned has at least half of the iterations, and two, behind it; the only exception is one iteration
    that fails, which gives a thousandth in each direction. *)
Theorem C130_result : forall sample alike ldlt iterations order m, rpose_variance sample alike ldlt iterations order = Some m ->
  let l := poses sample order in
  (iterations = 1%nat /\ l = [] /\ forall a b, m a b = if Nat.eqb a b then millesimal else 0) \/
  ((2 <= length l)%nat /\ (iterations / 2 <= length l)%nat /\ m = rcovariance l).
Proof.
  intros sample alike ldlt it order m H l. unfold rpose_variance in H. fold l in H. destruct (Nat.eqb_spec it 0); [discriminate|].
  destruct (Nat.ltb_spec (length l) (it / 2)) as [|Ge]; [discriminate|]. destruct l as [|v [|w l']].
  - destruct (_ && _); [|discriminate]. injection H as <-. left. split; [|auto]. cbn [length] in Ge.
    destruct it as [|[|it]]; [lia|reflexivity|]. exfalso. assert (1 <= S (S it) / 2)%nat by (apply Nat.div_le_lower_bound; lia). lia.
  - discriminate.
  - destruct (_ && _); [|discriminate]. injection H as <-. right. split; [cbn; lia|]. now split.
Qed.
Print Assumptions C130_result.
(** Not vacuous: two iterations, one millimeter apart. *)
Example C130_example : gathered 500 [fun _ => 0; fun _ => 1] /\ exact_variance [fun _ => 0; fun _ => 1] 0%nat 1%nat = / 2.
Proof.
  split.
  - split; [cbn; lia|]. split; [intros v a [<-|[<-|[]]]; apply Rabs_le; lra|intros v w a [<-|[<-|[]]] [<-|[<-|[]]]; apply Rabs_le; lra].
  - unfold exact_variance, sample_covariance, mean, rsum. cbn. field.
Qed.

(** The function [atan2] on reals, and its properties. *)
From Coq Require Export Reals.
From Coq Require Import Lra Psatz.
From Coquelicot Require Import Coquelicot.
Local Open Scope R_scope.

(** C's [atan2(y, x)] on reals; it is 0 at the origin *)
Definition atan2 (y x : R) : R :=
  if Rlt_dec 0 x then atan (y / x)
  else if Rlt_dec x 0 then if Rle_dec 0 y then atan (y / x) + PI else atan (y / x) - PI
  else if Rlt_dec 0 y then PI / 2
  else if Rlt_dec y 0 then - (PI / 2) else 0.

Lemma sqrt_scaled x u : x <> 0 -> sqrt (x * x + (u * x) * (u * x)) = Rabs x * sqrt (1 + u * u).
Proof.
  intros N. replace (x * x + u * x * (u * x)) with (x * x * (1 + u * u)) by ring.
  rewrite sqrt_mult by nra. f_equal. fold (Rsqr x). apply sqrt_Rsqr_abs.
Qed.
Lemma one_sqr u : 0 < sqrt (1 + u * u).
Proof. apply sqrt_lt_R0. nra. Qed.
Lemma atan2_polar y x :
  sqrt (x * x + y * y) * cos (atan2 y x) = x /\ sqrt (x * x + y * y) * sin (atan2 y x) = y.
Proof.
  unfold atan2. destruct (Rlt_dec 0 x) as [P|P]; [|destruct (Rlt_dec x 0) as [N|N]].
  - set (u := y / x). assert (E : y = u * x) by (unfold u; field; lra). rewrite E.
    rewrite sqrt_scaled by lra. rewrite cos_atan, sin_atan. rewrite Rabs_right by lra.
    pose proof (one_sqr u). unfold Rsqr. split; field; lra.
  - set (u := y / x). assert (E : y = u * x) by (unfold u; field; lra).
    assert (S : forall a, cos (a + PI) = - cos a /\ sin (a + PI) = - sin a /\ cos (a - PI) = - cos a /\ sin (a - PI) = - sin a).
    { intros a. rewrite !neg_cos, !neg_sin. repeat split; try reflexivity.
      - replace (a - PI) with (a + PI - 2 * PI) by ring. rewrite cos_minus, cos_2PI, sin_2PI, neg_cos. ring.
      - replace (a - PI) with (a + PI - 2 * PI) by ring. rewrite sin_minus, cos_2PI, sin_2PI, neg_sin. ring. }
    destruct (S (atan u)) as [S1 [S2 [S3 S4]]]. pose proof (one_sqr u).
    assert (W : sqrt (x * x + y * y) = - x * sqrt (1 + u * u)).
    { rewrite E, sqrt_scaled by lra. now rewrite Rabs_left by lra. }
    rewrite W. destruct (Rle_dec 0 y); rewrite ?S1, ?S2, ?S3, ?S4, cos_atan, sin_atan; unfold Rsqr; split; try (rewrite E); field; lra.
  - assert (x = 0) by lra. subst x. replace (0 * 0 + y * y) with (Rsqr y) by (unfold Rsqr; ring). rewrite sqrt_Rsqr_abs.
    destruct (Rlt_dec 0 y); [|destruct (Rlt_dec y 0)].
    + rewrite Rabs_right by lra. rewrite cos_PI2, sin_PI2. lra.
    + rewrite Rabs_left by lra. rewrite cos_neg, sin_neg, cos_PI2, sin_PI2. lra.
    + assert (y = 0) by (apply Rle_antisym; now apply Rnot_lt_le). subst y. rewrite Rabs_R0. lra.
Qed.
Lemma atan2_range y x : - PI < atan2 y x <= PI.
Proof.
  pose proof PI_RGT_0. unfold atan2. destruct (Rlt_dec 0 x); [|destruct (Rlt_dec x 0)].
  - pose proof (atan_bound (y / x)). lra.
  - pose proof (atan_bound (y / x)). destruct (Rle_dec 0 y) as [Y|Y].
    + split; [lra|]. assert (y / x <= 0) by (assert (/ x < 0) by (now apply Rinv_lt_0_compat); unfold Rdiv; nra).
      assert (atan (y / x) <= 0); [|lra]. rewrite <- atan_0.
      destruct (Req_dec (y / x) 0) as [->|]; [lra|]. left. apply atan_increasing. lra.
    + assert (0 < y / x) by (assert (/ x < 0) by (now apply Rinv_lt_0_compat); unfold Rdiv; nra).
      assert (0 < atan (y / x)) by (rewrite <- atan_0; now apply atan_increasing). lra.
  - destruct (Rlt_dec 0 y); [lra|]. destruct (Rlt_dec y 0); lra.
Qed.
Lemma atan2_nonneg y x : 0 <= y -> 0 <= atan2 y x.
Proof.
  intros Y. pose proof PI_RGT_0. unfold atan2. destruct (Rlt_dec 0 x); [|destruct (Rlt_dec x 0)].
  - assert (0 <= y / x) by (apply Rmult_le_pos; [easy|]; left; now apply Rinv_0_lt_compat).
    rewrite <- atan_0. destruct (Req_dec (y / x) 0) as [->|]; [lra|]. left. apply atan_increasing. lra.
  - destruct (Rle_dec 0 y); [|lra]. pose proof (atan_bound (y / x)). lra.
  - destruct (Rlt_dec 0 y); [lra|]. destruct (Rlt_dec y 0); lra.
Qed.
(** Two angles of the same half turn interval with the same sine and cosine are equal *)
Lemma angle_unique a b : - PI < a <= PI -> - PI < b <= PI -> cos a = cos b -> sin a = sin b -> a = b.
Proof.
  intros A B C S. assert (D : cos (a - b) = 1).
  { rewrite cos_minus, C, S. pose proof (sin2_cos2 b). unfold Rsqr in *. lra. }
  set (h := (a - b) / 2). assert (H : sin h * sin h = 0).
  { replace (a - b) with (2 * h) in D by (unfold h; field). rewrite cos_2a_sin in D. lra. }
  assert (Z : sin h = 0) by nra. assert (Rg : - PI < h < PI) by (unfold h; lra).
  destruct (Rtotal_order h 0) as [L|[L|L]].
  - assert (sin h < 0) by (apply sin_lt_0_var; lra). lra.
  - unfold h in L. lra.
  - assert (0 < sin h) by (apply sin_gt_0; lra). lra.
Qed.
Lemma atan2_unique r t : 0 < r -> - PI < t <= PI -> atan2 (r * sin t) (r * cos t) = t.
Proof.
  intros R T. destruct (atan2_polar (r * sin t) (r * cos t)) as [C S].
  assert (E : sqrt (r * cos t * (r * cos t) + r * sin t * (r * sin t)) = r).
  { replace (r * cos t * (r * cos t) + r * sin t * (r * sin t)) with (Rsqr r).
    - rewrite sqrt_Rsqr; lra.
    - pose proof (sin2_cos2 t). unfold Rsqr in *. replace (r * cos t * (r * cos t) + r * sin t * (r * sin t)) with (r * r * (sin t * sin t + cos t * cos t)) by ring. rewrite H. ring. }
  rewrite E in C, S. apply angle_unique; [apply atan2_range|easy| |]; apply (Rmult_eq_reg_l r); lra.
Qed.

(** ** Derivative *)

Lemma atan2_pos_y y x : 0 < y -> atan2 y x = PI / 2 - atan (x / y).
Proof.
  intros Y. set (u := x / y). assert (E : x = u * y) by (unfold u; field; lra).
  pose proof (one_sqr u) as Q. pose proof (atan_bound u) as B. pose proof PI_RGT_0.
  rewrite <- (atan2_unique (y * sqrt (1 + u * u)) (PI / 2 - atan u)); [|nra|lra].
  rewrite sin_shift, cos_shift, cos_atan, sin_atan. unfold Rsqr. f_equal; [field; lra|]. rewrite E. field. lra.
Qed.
Lemma atan2_neg_y y x : y < 0 -> atan2 y x = - (PI / 2) - atan (x / y).
Proof.
  intros Y. set (u := x / y). assert (E : x = u * y) by (unfold u; field; lra).
  pose proof (one_sqr u) as Q. pose proof (atan_bound u) as B. pose proof PI_RGT_0.
  rewrite <- (atan2_unique (- y * sqrt (1 + u * u)) (- (PI / 2) - atan u)); [|nra|lra].
  replace (- (PI / 2) - atan u) with (- (PI / 2 - - atan u)) by ring.
  rewrite sin_neg, cos_neg, sin_shift, cos_shift, sin_neg, cos_neg, cos_atan, sin_atan. unfold Rsqr.
  f_equal; [field; lra|]. rewrite E. field. lra.
Qed.
Lemma locally_pos (g : R -> R) t l : is_derive g t l -> 0 < g t -> locally t (fun s => 0 < g s).
Proof.
  intros D P. assert (C : continuous g t) by (apply (ex_derive_continuous g t); now exists l).
  apply (C (fun u => 0 < u)). apply (open_gt 0 (g t)). exact P.
Qed.
Lemma is_derive_atan2 (f g : R -> R) (t f' g' : R) :
  is_derive f t f' -> is_derive g t g' -> 0 < g t \/ f t <> 0 ->
  is_derive (fun s => atan2 (f s) (g s)) t ((f' * g t - f t * g') / (f t * f t + g t * g t)).
Proof.
  intros F G H.
  assert (A : forall a, is_derive atan a (/ (1 + a ^ 2))).
  { intros a. apply is_derive_Reals. apply derivable_pt_lim_atan. }
  destruct (Rlt_dec 0 (g t)) as [P|P].
  - apply (is_derive_ext_loc (fun s => atan (f s / g s))).
    + apply (filter_imp (fun s => 0 < g s)); [|now apply (locally_pos g t g')].
      intros s S. unfold atan2. now destruct (Rlt_dec 0 (g s)).
    + evar_last. { apply (is_derive_comp atan (fun s => f s / g s)); [apply A|].
        apply (is_derive_div f g t f' g' F G). lra. }
      unfold scal; cbn; unfold mult; cbn. field. repeat split; try nra; lra.
  - assert (N : f t <> 0) by (destruct H; [lra|easy]).
    assert (Q : is_derive (fun s => atan (g s / f s)) t ((g' * f t - g t * f') / (f t * f t + g t * g t))).
    { evar_last. { apply (is_derive_comp atan (fun s => g s / f s)); [apply A|].
        apply (is_derive_div g f t g' f' G F). exact N. }
      unfold scal; cbn; unfold mult; cbn. field. repeat split; try easy; nra. }
    destruct (Rlt_dec 0 (f t)) as [S|S].
    + apply (is_derive_ext_loc (fun s => PI / 2 - atan (g s / f s))).
      * apply (filter_imp (fun s => 0 < f s)); [|now apply (locally_pos f t f')]. intros s Hs. symmetry. now apply atan2_pos_y.
      * evar_last. { apply (is_derive_minus (fun _ : R => PI / 2) (fun s => atan (g s / f s)) t 0 ((g' * f t - g t * f') / (f t * f t + g t * g t))); [apply (is_derive_const (PI / 2) t)|exact Q]. }
        unfold minus, plus, opp; cbn. field. nra.
    + apply (is_derive_ext_loc (fun s => - (PI / 2) - atan (g s / f s))).
      * apply (filter_imp (fun s => 0 < - f s)).
        -- intros s Hs. symmetry. apply atan2_neg_y. lra.
        -- apply (locally_pos (fun s => - f s) t (- f')); [now apply (is_derive_opp f t f')|lra].
      * evar_last. { apply (is_derive_minus (fun _ : R => - (PI / 2)) (fun s => atan (g s / f s)) t 0 ((g' * f t - g t * f') / (f t * f t + g t * g t))); [apply (is_derive_const (- (PI / 2)) t)|exact Q]. }
        unfold minus, plus, opp; cbn. field. nra.
Qed.

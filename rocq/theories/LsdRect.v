(** Proofs about the rectangles of the regions of the line segment detector. *)
From Verif Require Import LsdSpec LsdGrow.
From Coq Require Import Reals ZArith List Bool Lia Lra Psatz.
Import ListNotations.
Local Open Scope R_scope.

(** ** Difference of angles *)
Lemma int_part_bounds x : x - 1 < IZR (Int_part x) <= x.
Proof. pose proof (base_Int_part x). lra. Qed.
Lemma int_part_unique x k : x - 1 < IZR k <= x -> Int_part x = k.
Proof.
  intros H. pose proof (int_part_bounds x). assert (-1 < Int_part x - k < 1)%Z; [|lia].
  split; apply lt_IZR; rewrite minus_IZR; lra.
Qed.
Lemma angle_diff_signed_range a b : - PI < angle_diff_signed a b <= PI.
Proof.
  unfold angle_diff_signed. pose proof PI_RGT_0 as P. cbn zeta. set (d := a - b).
  pose proof (int_part_bounds ((PI - d) / (2 * PI))) as H.
  assert (E : (PI - d) / (2 * PI) * (2 * PI) = PI - d) by (field; lra).
  set (z := (PI - d) / (2 * PI)) in *. nra.
Qed.
Lemma angle_diff_signed_value a b k : - PI < a - b + 2 * PI * IZR k <= PI -> angle_diff_signed a b = a - b + 2 * PI * IZR k.
Proof.
  intros H. unfold angle_diff_signed. cbn zeta. pose proof PI_RGT_0 as P.
  rewrite (int_part_unique _ k); [reflexivity|].
  assert (E : (PI - (a - b)) / (2 * PI) * (2 * PI) = PI - (a - b)) by (field; lra).
  set (z := (PI - (a - b)) / (2 * PI)) in *. nra.
Qed.
Lemma angle_diff_near e a b : angle_diff a b <= e <-> near_angle e a b.
Proof.
  unfold angle_diff. split.
  - intros H. exists (Int_part ((PI - (a - b)) / (2 * PI))). exact H.
  - intros [k K]. eapply Rle_trans; [|exact K]. clear K.
    pose proof (angle_diff_signed_range a b) as G. pose proof PI_RGT_0 as P.
    unfold angle_diff_signed in *. cbn zeta in *. set (m := Int_part ((PI - (a - b)) / (2 * PI))) in *.
    destruct (Z.lt_trichotomy k m) as [L | [-> | L]]; [| apply Rle_refl |].
    + assert (IZR k <= IZR m - 1) by (rewrite <- minus_IZR; apply IZR_le; lia).
      unfold Rabs. destruct (Rcase_abs (a - b + 2 * PI * IZR m)), (Rcase_abs (a - b + 2 * PI * IZR k)); nra.
    + assert (IZR m + 1 <= IZR k) by (rewrite <- plus_IZR; apply IZR_le; lia).
      unfold Rabs. destruct (Rcase_abs (a - b + 2 * PI * IZR m)), (Rcase_abs (a - b + 2 * PI * IZR k)); nra.
Qed.
Lemma loop_up_value n m d : - PI < d + 2 * PI * INR n <= PI -> loop_up (S n + m) d = Some (d + 2 * PI * INR n).
Proof.
  pose proof PI_RGT_0 as P. revert d. induction n as [|n IH]; intros d H.
  - cbn [Nat.add loop_up]. cbn [INR] in *. destruct (rle_spec d (- PI)); [lra|]. f_equal. lra.
  - change (S (S n) + m)%nat with (S (S n + m)). cbn [loop_up]. rewrite S_INR in *. pose proof (pos_INR n).
    destruct (rle_spec d (- PI)); [|nra]. rewrite IH by nra. f_equal. lra.
Qed.
Lemma loop_up_none m d : - PI < d -> loop_up (S m) d = Some d.
Proof. intros H. cbn. destruct (rle_spec d (- PI)); [lra|auto]. Qed.
Lemma loop_down_value n m d : - PI < d - 2 * PI * INR n <= PI -> loop_down (S n + m) d = Some (d - 2 * PI * INR n).
Proof.
  pose proof PI_RGT_0 as P. revert d. induction n as [|n IH]; intros d H.
  - cbn [Nat.add loop_down]. cbn [INR] in *. destruct (rlt_spec PI d); [lra|]. f_equal. lra.
  - change (S (S n) + m)%nat with (S (S n + m)). cbn [loop_down]. rewrite S_INR in *. pose proof (pos_INR n).
    destruct (rlt_spec PI d); [|nra]. rewrite IH by nra. f_equal. lra.
Qed.
Lemma angle_loops_value a b : exists n, forall m, angle_loops (n + m) a b = Some (angle_diff_signed a b).
Proof.
  pose proof (angle_diff_signed_range a b) as G. pose proof PI_RGT_0 as P.
  unfold angle_diff_signed in *. cbn zeta in *. set (k := Int_part ((PI - (a - b)) / (2 * PI))) in *.
  unfold angle_loops. destruct (Z.le_gt_cases 0 k) as [K | K].
  - exists (S (Z.to_nat k)). intros m.
    assert (E : INR (Z.to_nat k) = IZR k) by (rewrite INR_IZR_INZ, Z2Nat.id by lia; reflexivity).
    rewrite loop_up_value; rewrite E; [|exact G].
    change (S (Z.to_nat k) + m)%nat with (1 + (Z.to_nat k + m))%nat.
    rewrite (loop_down_value 0); cbn [INR]; [f_equal; ring | lra].
  - exists (S (Z.to_nat (- k))). intros m.
    assert (E : INR (Z.to_nat (- k)) = - IZR k) by (rewrite INR_IZR_INZ, Z2Nat.id, opp_IZR by lia; reflexivity).
    assert (IZR k <= -1) by (apply IZR_le; lia).
    rewrite (loop_up_none (Z.to_nat (- k) + m)) by nra.
    rewrite loop_down_value; rewrite E; [f_equal; ring | lra].
Qed.

(** ** Extents *)
Lemma sum_map_plus {A} (g h : A -> R) l : sum (map (fun p => g p + h p) l) = sum (map g l) + sum (map h l).
Proof. unfold sum. induction l as [|a l IH]; cbn; [ring|]. rewrite IH. ring. Qed.
Lemma sum_map_scal {A} c (g : A -> R) l : sum (map (fun p => c * g p) l) = c * sum (map g l).
Proof. unfold sum. induction l as [|a l IH]; cbn; [ring|]. rewrite IH. ring. Qed.
Lemma sum_map_ext {A} (g h : A -> R) l : (forall p, In p l -> g p = h p) -> sum (map g l) = sum (map h l).
Proof.
  unfold sum. induction l as [|a l IH]; cbn; intros H; [auto|]. rewrite IH, (H a) by auto. reflexivity.
Qed.
Lemma sum_map_nonneg {A} (g : A -> R) l : (forall p, In p l -> 0 <= g p) -> 0 <= sum (map g l).
Proof.
  unfold sum. induction l as [|a l IH]; cbn; intros H; [lra|]. pose proof (H a (or_introl eq_refl)).
  pose proof (IH (fun p P => H p (or_intror P))). lra.
Qed.
Lemma sum_map_pos {A} (g : A -> R) l : l <> [] -> (forall p, In p l -> 0 < g p) -> 0 < sum (map g l).
Proof.
  destruct l as [|a l]; [congruence|]. intros _ H. cbn [map sum fold_right].
  pose proof (H a (or_introl eq_refl)). assert (0 <= sum (map g l)) as S.
  { apply sum_map_nonneg. intros p P. left. apply H. right. exact P. }
  change (0 < g a + sum (map g l)). lra.
Qed.
Lemma sum_map_null {A} (g : A -> R) l : (forall p, In p l -> 0 <= g p) -> sum (map g l) = 0 -> forall p, In p l -> g p = 0.
Proof.
  induction l as [|a l IH]; intros H E p P; [contradiction|]. cbn [map] in E. change (g a + sum (map g l) = 0) in E.
  pose proof (H a (or_introl eq_refl)).
  assert (0 <= sum (map g l)) by (apply sum_map_nonneg; intros q Q; apply H; right; exact Q).
  destruct P as [<- | P]; [lra|]. apply IH; auto; [intros q Q; apply H; right; exact Q | lra].
Qed.

Definition l_of (x y c s : R) (p : pixel) : R := (px p - x) * c + (py p - y) * s.
Definition w_of (x y c s : R) (p : pixel) : R := - (px p - x) * s + (py p - y) * c.
Record covers (x y c s : R) (e : extent) (seen : list pixel) : Prop := {
  c_l0 : l_min e <= 0 <= l_max e; c_w0 : w_min e <= 0 <= w_max e;
  c_l : forall p, In p seen -> l_min e <= l_of x y c s p <= l_max e;
  c_w : forall p, In p seen -> w_min e <= w_of x y c s p <= w_max e;
  c_lmin : l_min e = 0 \/ exists p, In p seen /\ l_of x y c s p = l_min e;
  c_lmax : l_max e = 0 \/ exists p, In p seen /\ l_of x y c s p = l_max e;
  c_wmin : w_min e = 0 \/ exists p, In p seen /\ w_of x y c s p = w_min e;
  c_wmax : w_max e = 0 \/ exists p, In p seen /\ w_of x y c s p = w_max e }.
Lemma covers_step x y c s e seen p : covers x y c s e seen -> covers x y c s (widen x y c s e p) (p :: seen).
Proof.
  intros [L0 W0 L W A1 A2 A3 A4]. unfold widen. cbn zeta.
  change ((px p - x) * c + (py p - y) * s) with (l_of x y c s p).
  change (- (px p - x) * s + (py p - y) * c) with (w_of x y c s p).
  assert (G1 : forall (v : R) (h : pixel -> R) (Q : v = 0 \/ exists q, In q seen /\ h q = v), v = 0 \/ exists q, In q (p :: seen) /\ h q = v).
  { intros v h [Q | (q & Q1 & Q2)]; [auto|]. right. exists q. split; [right|]; auto. }
  assert (G2 : forall (h : pixel -> R) lo hi, (forall q, In q seen -> lo <= h q <= hi) -> forall lo' hi', lo' <= lo -> hi <= hi' ->
                 lo' <= h p <= hi' -> forall q, In q (p :: seen) -> lo' <= h q <= hi').
  { intros h lo hi H lo' hi' Hl Hh Hp q [<- | Q]; [exact Hp|]. pose proof (H q Q). lra. }
  assert (G3 : forall (h : pixel -> R), exists q, In q (p :: seen) /\ h q = h p) by (intros h; exists p; split; [left|]; auto).
  destruct (rlt_spec (l_max e) (l_of x y c s p)) as [H1|H1];
    [|destruct (rlt_spec (l_of x y c s p) (l_min e)) as [H2|H2]];
  (destruct (rlt_spec (w_max e) (w_of x y c s p)) as [H3|H3];
    [|destruct (rlt_spec (w_of x y c s p) (w_min e)) as [H4|H4]]);
  constructor; cbn [l_min l_max w_min w_max]; try lra; auto;
  first [ eapply (G2 _ _ _ L); lra | eapply (G2 _ _ _ W); lra ].
Qed.
Lemma covers_fold x y c s reg : forall e seen, covers x y c s e seen ->
  covers x y c s (fold_left (widen x y c s) reg e) (rev reg ++ seen).
Proof.
  induction reg as [|p reg IH]; intros e seen H; cbn [fold_left rev]; [exact H|].
  rewrite <- app_assoc. apply IH. apply covers_step. exact H.
Qed.
Lemma covers_extent x y c s reg : covers x y c s (fold_left (widen x y c s) reg (mkExtent 0 0 0 0)) reg.
Proof.
  assert (C : covers x y c s (mkExtent 0 0 0 0) []).
  { constructor; cbn; try lra; auto; intros p []. }
  apply (covers_fold x y c s reg) in C. rewrite app_nil_r in C.
  destruct C as [L0 W0 L W A1 A2 A3 A4].
  assert (G : forall (v : R) (h : pixel -> R), v = 0 \/ (exists q, In q (rev reg) /\ h q = v) -> v = 0 \/ exists q, In q reg /\ h q = v).
  { intros v h [Q | (q & Q1 & Q2)]; [auto|]. right. exists q. split; auto. apply in_rev. exact Q1. }
  constructor; auto; intros p P; [apply L | apply W]; apply in_rev in P; exact P.
Qed.

(** ** Least squares *)
Lemma scatter_form f reg x y c s :
  scatter f reg x y c s =
    c * c * sum (map (fun p => (py p - y) * (py p - y) * f_norm f p) reg) +
    s * s * sum (map (fun p => (px p - x) * (px p - x) * f_norm f p) reg) +
    2 * c * s * - sum (map (fun p => (px p - x) * (py p - y) * f_norm f p) reg).
Proof.
  unfold scatter, sum. induction reg as [|a l IH]; cbn; [ring|]. rewrite IH. ring.
Qed.
Lemma spread_form f reg x y :
  spread f reg x y =
    sum (map (fun p => (py p - y) * (py p - y) * f_norm f p) reg) + sum (map (fun p => (px p - x) * (px p - x) * f_norm f p) reg).
Proof. unfold spread, sum. induction reg as [|a l IH]; cbn; [ring|]. rewrite IH. ring. Qed.
(** a line through the weighted center is better than a parallel line *)
Lemma scatter_center f reg x y c s :
  let w := sum (map (f_norm f) reg) in
  0 < w ->
  let x0 := sum (map (fun p => px p * f_norm f p) reg) / w in
  let y0 := sum (map (fun p => py p * f_norm f p) reg) / w in
  scatter f reg x y c s = scatter f reg x0 y0 c s + w * ((x0 - x) * s - (y0 - y) * c) * ((x0 - x) * s - (y0 - y) * c).
Proof.
  intros w W x0 y0.
  assert (X : sum (map (fun p => px p * f_norm f p) reg) = x0 * w) by (unfold x0; field; lra).
  assert (Y : sum (map (fun p => py p * f_norm f p) reg) = y0 * w) by (unfold y0; field; lra).
  assert (E : forall u v, scatter f reg u v c s =
     s * s * sum (map (fun p => px p * px p * f_norm f p) reg) + c * c * sum (map (fun p => py p * py p * f_norm f p) reg)
     - 2 * c * s * sum (map (fun p => px p * py p * f_norm f p) reg)
     + (u * s - v * c) * (u * s - v * c) * w - 2 * (u * s - v * c) * (s * (x0 * w) - c * (y0 * w))).
  { intros u v. rewrite <- X, <- Y. unfold scatter, sum, w, sum. clear. induction reg as [|a l IH]; cbn; [ring|]. rewrite IH. ring. }
  rewrite !E. clearbody x0 y0. ring.
Qed.

Section Axis.
Variables ixx iyy ixy : R.
Let lambda := / 2 * (ixx + iyy - sqrt ((ixx - iyy) * (ixx - iyy) + 4 * ixy * ixy)).
Let form c s := c * c * ixx + s * s * iyy + 2 * c * s * ixy.
Lemma root_nonneg : 0 <= (ixx - iyy) * (ixx - iyy) + 4 * ixy * ixy.
Proof.
  clear. pose proof (Rle_0_sqr (ixx - iyy)). pose proof (Rle_0_sqr ixy). unfold Rsqr in *.
  replace (4 * ixy * ixy) with (4 * (ixy * ixy)) by ring. lra.
Qed.
Lemma lambda_eq : (ixx - lambda) * (iyy - lambda) = ixy * ixy.
Proof.
  unfold lambda. pose proof (sqrt_sqrt _ root_nonneg) as S. clear lambda form.
  set (d := sqrt ((ixx - iyy) * (ixx - iyy) + 4 * ixy * ixy)) in *. nra.
Qed.
Lemma lambda_le : lambda <= ixx /\ lambda <= iyy /\ 2 * lambda <= ixx + iyy.
Proof.
  unfold lambda. pose proof (sqrt_sqrt _ root_nonneg) as S. pose proof (sqrt_pos ((ixx - iyy) * (ixx - iyy) + 4 * ixy * ixy)) as P.
  set (d := sqrt ((ixx - iyy) * (ixx - iyy) + 4 * ixy * ixy)) in *.
  assert (Rabs (ixx - iyy) <= d) as A.
  { apply Rsqr_incr_0_var; auto. rewrite <- Rsqr_abs. unfold Rsqr. nra. }
  apply abs_le_inv in A. lra.
Qed.
Lemma form_min c s : c * c + s * s = 1 -> lambda <= form c s.
Proof.
  intros U. unfold form. pose proof lambda_eq as E. destruct lambda_le as (A & B & _).
  clear form. clearbody lambda.
  assert (0 <= c * c * (ixx - lambda) + s * s * (iyy - lambda) + 2 * c * s * ixy); [|replace lambda with (lambda * (c * c + s * s)) by (rewrite U; ring); lra].
  set (a := ixx - lambda) in *. set (b := iyy - lambda) in *.
  assert (0 <= a) by (unfold a; lra). assert (0 <= b) by (unfold b; lra).
  assert (ixy = sqrt a * sqrt b \/ ixy = - (sqrt a * sqrt b)) as [-> | ->].
  { rewrite <- sqrt_mult by auto. rewrite E. replace (ixy * ixy) with (Rsqr ixy) by reflexivity. rewrite sqrt_Rsqr_abs.
    unfold Rabs. destruct (Rcase_abs ixy); lra. }
  all: assert (SA : sqrt a * sqrt a = a) by (apply sqrt_sqrt; auto); assert (SB : sqrt b * sqrt b = b) by (apply sqrt_sqrt; auto).
  - replace (c * c * a + s * s * b + 2 * c * s * (sqrt a * sqrt b)) with (Rsqr (c * sqrt a + s * sqrt b)); [apply Rle_0_sqr|].
    unfold Rsqr. transitivity (c * c * (sqrt a * sqrt a) + s * s * (sqrt b * sqrt b) + 2 * c * s * (sqrt a * sqrt b)); [ring | rewrite SA, SB; ring].
  - replace (c * c * a + s * s * b + 2 * c * s * - (sqrt a * sqrt b)) with (Rsqr (c * sqrt a - s * sqrt b)); [apply Rle_0_sqr|].
    unfold Rsqr. transitivity (c * c * (sqrt a * sqrt a) + s * s * (sqrt b * sqrt b) - 2 * c * s * (sqrt a * sqrt b)); [ring | rewrite SA, SB; ring].
Qed.
(** the vector whose angle is taken is in the direction of the smallest inertia *)
Definition axis_vector : R * R := if rlt (Rabs iyy) (Rabs ixx) then (ixy, lambda - ixx) else (lambda - iyy, ixy).
Lemma axis_eigen : let '(a, b) := axis_vector in
  (ixx - lambda) * a + ixy * b = 0 /\ ixy * a + (iyy - lambda) * b = 0.
Proof.
  unfold axis_vector. pose proof lambda_eq. clear form. clearbody lambda. destruct (rlt_spec (Rabs iyy) (Rabs ixx)); split; lra.
Qed.
Lemma axis_null : 0 <= ixx -> 0 <= iyy -> axis_vector = (0, 0) -> ixx = lambda /\ iyy = lambda /\ ixy = 0.
Proof.
  intros X Y. unfold axis_vector. pose proof lambda_eq as E. destruct lambda_le as (A & B & _).
  clear form. clearbody lambda. rewrite (Rabs_pos_eq _ X), (Rabs_pos_eq _ Y).
  destruct (rlt_spec iyy ixx) as [L|L]; intros H; injection H as H1 H2; [lra|]. repeat split; lra.
Qed.
Lemma form_turn t0 d :
  (ixx - lambda) * cos t0 + ixy * sin t0 = 0 -> ixy * cos t0 + (iyy - lambda) * sin t0 = 0 ->
  form (cos (t0 + d)) (sin (t0 + d)) = lambda + sin d * sin d * (ixx + iyy - 2 * lambda).
Proof.
  intros H1 H2. rewrite cos_plus, sin_plus. unfold form. clear form. clearbody lambda.
  pose proof (sin2_cos2 t0) as U. pose proof (sin2_cos2 d) as V. unfold Rsqr in U, V.
  set (c := cos t0) in *. set (s := sin t0) in *. set (e := sin d) in *. set (g := cos d) in *.
  assert (F : ixx * c * c + 2 * ixy * c * s + iyy * s * s = lambda).
  { transitivity (c * ((ixx - lambda) * c + ixy * s) + s * (ixy * c + (iyy - lambda) * s) + lambda * (s * s + c * c)); [ring|].
    rewrite H1, H2, U. ring. }
  assert (O : - ixx * c * s + ixy * (c * c - s * s) + iyy * s * c = 0).
  { transitivity (- s * ((ixx - lambda) * c + ixy * s) + c * (ixy * c + (iyy - lambda) * s)); [ring|]. rewrite H1, H2. ring. }
  assert (W : ixx * s * s - 2 * ixy * c * s + iyy * c * c = ixx + iyy - lambda).
  { transitivity ((ixx + iyy) * (s * s + c * c) - (ixx * c * c + 2 * ixy * c * s + iyy * s * s)); [ring|]. rewrite F, U. ring. }
  transitivity (g * g * (ixx * c * c + 2 * ixy * c * s + iyy * s * s) + 2 * e * g * (- ixx * c * s + ixy * (c * c - s * s) + iyy * s * c)
     + e * e * (ixx * s * s - 2 * ixy * c * s + iyy * c * c)); [ring|].
  rewrite F, O, W. replace (g * g) with (1 - e * e) by lra. ring.
Qed.
Lemma sin_le_abs d : sin d * sin d <= d * d.
Proof.
  assert (G : forall x, 0 <= x -> sin x * sin x <= x * x).
  { intros x X. destruct (Req_dec x 0) as [-> | NX]; [rewrite sin_0; lra|].
    pose proof (sin_lt_x x) as L. pose proof (SIN_bound x) as B.
    destruct (Rle_dec x 1) as [X1|X1].
    - pose proof (sin_ge_0 x X) as S. pose proof PI2_1. pose proof (S ltac:(lra)). pose proof (L ltac:(lra)). nra.
    - nra. }
  destruct (Rle_dec 0 d) as [D|D]; [auto|]. pose proof (G (- d) ltac:(lra)) as H. rewrite sin_neg in H. lra.
Qed.
Lemma axis_form fa e reg_angle prec :
  accurate e fa -> 0 <= ixx -> 0 <= iyy -> 0 <= lambda ->
  let t := axis_angle fa ixx iyy ixy reg_angle prec in
  form (cos t) (sin t) <= lambda + e * e * (ixx + iyy).
Proof.
  intros AC X Y L. cbn zeta. destruct lambda_le as (A & B & C).
  assert (G : exists t, (axis_angle fa ixx iyy ixy reg_angle prec = t \/ axis_angle fa ixx iyy ixy reg_angle prec = t + PI) /\
                form (cos t) (sin t) <= lambda + e * e * (ixx + iyy)).
  { set (v := to_radians (if rlt (Rabs iyy) (Rabs ixx) then fa (lambda - ixx) ixy else fa ixy (lambda - iyy))).
    exists v. split.
    { unfold axis_angle. fold lambda. fold v. cbn zeta. destruct (rlt prec (angle_diff v reg_angle)); auto. }
    assert (V : exists t, Rabs (v - t) <= e /\ fst axis_vector = sqrt (fst axis_vector * fst axis_vector + snd axis_vector * snd axis_vector) * cos t /\
                 snd axis_vector = sqrt (fst axis_vector * fst axis_vector + snd axis_vector * snd axis_vector) * sin t).
    { unfold v, axis_vector, to_radians. destruct (rlt (Rabs iyy) (Rabs ixx)); cbn [fst snd]; apply AC. }
    destruct V as (t & D & C1 & C2). pose proof axis_eigen as EG. pose proof (axis_null X Y) as NL.
    destruct axis_vector as [a b]. cbn [fst snd] in *. destruct EG as [E1 E2].
    destruct (Req_dec (sqrt (a * a + b * b)) 0) as [Z|NZ].
    - rewrite Z in C1, C2. rewrite Rmult_0_l in C1, C2. subst a b. destruct (NL eq_refl) as (I1 & I2 & I3).
      unfold form. rewrite I3, <- I1, I2, <- I1. pose proof (sin2_cos2 v) as U. unfold Rsqr in U.
      assert (0 <= e * e) by nra. nra.
    - set (n := sqrt (a * a + b * b)) in *.
      assert (H1 : (ixx - lambda) * cos t + ixy * sin t = 0).
      { apply (Rmult_eq_reg_l n); auto. rewrite Rmult_0_r. rewrite <- E1.
        transitivity ((ixx - lambda) * (n * cos t) + ixy * (n * sin t)); [ring|]. rewrite <- C1, <- C2. reflexivity. }
      assert (H2 : ixy * cos t + (iyy - lambda) * sin t = 0).
      { apply (Rmult_eq_reg_l n); auto. rewrite Rmult_0_r. rewrite <- E2.
        transitivity (ixy * (n * cos t) + (iyy - lambda) * (n * sin t)); [ring|]. rewrite <- C1, <- C2. reflexivity. }
      replace v with (t + (v - t)) by ring. rewrite (form_turn t (v - t) H1 H2).
      pose proof (sin_le_abs (v - t)) as S. apply abs_le_inv in D.
      assert (sin (v - t) * sin (v - t) <= e * e) by nra.
      assert (0 <= sin (v - t) * sin (v - t)) by nra. nra. }
  destruct G as (t & [-> | ->] & F); [exact F|].
  rewrite neg_cos, neg_sin. unfold form in *. lra.
Qed.
End Axis.

Lemma region2rect_value fa f reg a prec r :
  region2rect fa f reg a prec = Some r ->
  let w := sum (map (f_norm f) reg) in
  let x := sum (map (fun p => px p * f_norm f p) reg) / w in
  let y := sum (map (fun p => py p * f_norm f p) reg) / w in
  let ixx := sum (map (fun p => (py p - y) * (py p - y) * f_norm f p) reg) in
  let iyy := sum (map (fun p => (px p - x) * (px p - x) * f_norm f p) reg) in
  let ixy := - sum (map (fun p => (px p - x) * (py p - y) * f_norm f p) reg) in
  0 < w /\ cx r = x /\ cy r = y /\ theta r = axis_angle fa ixx iyy ixy a prec /\
  exists e, covers x y (cos (theta r)) (sin (theta r)) e reg /\
    x1 r = x + l_min e * cos (theta r) /\ y1 r = y + l_min e * sin (theta r) /\
    x2 r = x + l_max e * cos (theta r) /\ y2 r = y + l_max e * sin (theta r) /\
    width r = Rmax 1 (w_max e - w_min e).
Proof.
  intros H w x y ixx iyy ixy. unfold region2rect in H. fold w in H. destruct (rle_spec w 0) as [L|L]; [discriminate|].
  fold x y in H. unfold get_theta in H. fold ixx iyy ixy in H.
  destruct (rle ixx 0 && rle 0 ixx && (rle iyy 0 && rle 0 iyy) && (rle ixy 0 && rle 0 ixy)); [discriminate|].
  injection H as <-. cbn [cx cy theta x1 y1 x2 y2 width].
  split; [lra|]. do 3 (split; [reflexivity|]).
  exists (fold_left (widen x y (cos (axis_angle fa ixx iyy ixy a prec)) (sin (axis_angle fa ixx iyy ixy a prec))) reg (mkExtent 0 0 0 0)).
  split; [apply covers_extent|]. do 4 (split; [reflexivity|]).
  match goal with |- (if rlt ?v 1 then 1 else ?v) = _ => set (u := v) end.
  destruct (rlt_spec u 1); [rewrite Rmax_left | rewrite Rmax_right]; lra.
Qed.
Lemma region2rect_defined fa f reg a prec :
  (forall p, In p reg -> 0 < f_norm f p) -> (exists p q, In p reg /\ In q reg /\ p <> q) ->
  region2rect fa f reg a prec <> None.
Proof.
  intros N (p & q & P & Q & D). unfold region2rect.
  assert (W : 0 < sum (map (f_norm f) reg)).
  { apply sum_map_pos; auto. intros ->. contradiction. }
  destruct (rle_spec (sum (map (f_norm f) reg)) 0) as [L|L]; [lra|].
  set (x := sum (map (fun p => px p * f_norm f p) reg) / _). set (y := sum (map (fun p => py p * f_norm f p) reg) / _).
  clearbody x y. unfold get_theta.
  match goal with |- context [rle ?u 0 && rle 0 ?u && (rle ?v 0 && rle 0 ?v) && _] => set (ixx := u); set (iyy := v) end.
  destruct (rle_spec ixx 0), (rle_spec 0 ixx), (rle_spec iyy 0), (rle_spec 0 iyy); cbn [andb]; try discriminate.
  exfalso. apply D.
  assert (EX : ixx = 0) by lra. assert (EY : iyy = 0) by lra. unfold ixx in EX. unfold iyy in EY.
  assert (Y : forall u, In u reg -> py u = y).
  { intros u U. assert ((py u - y) * (py u - y) * f_norm f u = 0) as Z.
    { refine (sum_map_null (fun p => (py p - y) * (py p - y) * f_norm f p) reg _ EX u U). intros v V. pose proof (N v V). apply Rmult_le_pos; [apply Rle_0_sqr | lra]. }
    pose proof (N u U). apply Rmult_integral in Z as [Z | Z]; [|lra]. apply Rmult_integral in Z as [Z | Z]; lra. }
  assert (X : forall u, In u reg -> px u = x).
  { intros u U. assert ((px u - x) * (px u - x) * f_norm f u = 0) as Z.
    { refine (sum_map_null (fun p => (px p - x) * (px p - x) * f_norm f p) reg _ EY u U). intros v V. pose proof (N v V). apply Rmult_le_pos; [apply Rle_0_sqr | lra]. }
    pose proof (N u U). apply Rmult_integral in Z as [Z | Z]; [|lra]. apply Rmult_integral in Z as [Z | Z]; lra. }
  assert (px p = px q /\ py p = py q) as [E1 E2] by (rewrite (X p P), (X q Q), (Y p P), (Y q Q); auto).
  unfold px, py in E1, E2. apply eq_IZR in E1, E2. destruct p, q; cbn in *; congruence.
Qed.

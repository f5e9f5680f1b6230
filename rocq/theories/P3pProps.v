(** The perspective 3 points solver (C87). *)
From Verif Require Import P3pSpec P3pLemmas.
From Coq Require Import Bool List Lia Lra Reals.
Import ListNotations.
From Verif Require Import Vec3.
Local Open Scope R_scope.

(** ** Spectral decomposition *)

Definition trace (m : mat) : R := e00 m + e11 m + e22 m.
Lemma trace_comm a b : trace (mmul a b) = trace (mmul b a).
Proof. unfold trace, e00, e11, e22. v3ring. Qed.
Lemma eig_ok m v1 v2 s1 s2 : msym m -> det m = 0 -> eig3x3known0 m = Some ((v1, v2), (s1, s2)) ->
  is_unit v1 /\ is_unit v2 /\ mvmul m v1 = vscal s1 v1 /\ mvmul m v2 = vscal s2 v2 /\ s1 + s2 = trace m.
Proof.
  intros S D E. unfold eig3x3known0 in E.
  set (p1 := - e00 m - e11 m - e22 m) in *.
  set (p0 := - e01 m * e01 m - e02 m * e02 m - e12 m * e12 m + e00 m * (e11 m + e22 m) + e11 m * e22 m) in *. cbv zeta in E.
  invb E dd ED. apply root_some in ED as [P ED].
  assert (DD : dd * dd = p1 * p1 / 4 - p0) by (rewrite ED; now apply sqrt_sqrt).
  assert (Z : forall s, s * s + p1 * s + p0 = 0 -> det (msub m (mscal s mid)) = 0).
  { intros s Z. assert (X : det (msub m (mscal s mid)) = det m - s * (s * s + p1 * s + p0)).
    { unfold p1, p0. revert S. clear. destruct m as [[m00 m01 m02] [m10 m11 m12] [m20 m21 m22]]. unfold msym. intros S. injection S as X1 X2 X3 X4 X5 X6. subst.
      unfold e00, e01, e02, e11, e12, e22. v3unfold. ring. }
    rewrite X, D, Z. ring. }
  assert (Z1 : det (msub m (mscal (- p1 / 2 + dd) mid)) = 0).
  { apply Z. transitivity (dd * dd - (p1 * p1 / 4 - p0)); [field|]. rewrite DD. ring. }
  assert (Z2 : det (msub m (mscal (- p1 / 2 - dd) mid)) = 0).
  { apply Z. transitivity (dd * dd - (p1 * p1 / 4 - p0)); [field|]. rewrite DD. ring. }
  assert (T : trace m = - p1) by (unfold trace, p1; ring).
  destruct (less (Rabs (- p1 / 2 + dd)) (Rabs (- p1 / 2 - dd))).
  - invb E w1 W1. invb E w2 W2. injection E as <- <- <- <-.
    destruct (eigenvector_ok _ _ _ S Z2 W1). destruct (eigenvector_ok _ _ _ S Z1 W2). repeat (split; [assumption|]). rewrite T. lra.
  - invb E w1 W1. invb E w2 W2. injection E as <- <- <- <-.
    destruct (eigenvector_ok _ _ _ S Z1 W1). destruct (eigenvector_ok _ _ _ S Z2 W2). repeat (split; [assumption|]). rewrite T. lra.
Qed.
Lemma cross_orth a b : dot a (cross a b) = 0 /\ dot b (cross a b) = 0.
Proof. split; v3ring. Qed.
(** the entries of a matrix in another basis *)
Lemma conjugate m a b c : mmul (mkM3 a b c) (mmul m (mT (mkM3 a b c))) =
  mkM3 (mkV (dot a (mvmul m a)) (dot a (mvmul m b)) (dot a (mvmul m c)))
       (mkV (dot b (mvmul m a)) (dot b (mvmul m b)) (dot b (mvmul m c)))
       (mkV (dot c (mvmul m a)) (dot c (mvmul m b)) (dot c (mvmul m c))).
Proof.
  unfold mmul at 1. cbn [r0 r1 r2]. rewrite mT_mmul, mT_mT, !mvmul_mmul.
  assert (E : forall v, mvmul (mkM3 a b c) v = mkV (dot a v) (dot b v) (dot c v)) by reflexivity.
  assert (F : forall p q, dot p (mvmul (mT m) q) = dot q (mvmul m p)) by (intros; rewrite dot_mvmul, mT_mT; apply dot_comm).
  rewrite !E, !F. reflexivity.
Qed.
Lemma spectral m v1 v2 s1 s2 l : msym m -> is_unit v1 -> is_unit v2 -> mvmul m v1 = vscal s1 v1 -> mvmul m v2 = vscal s2 v2 ->
  s1 + s2 = trace m -> s1 <> s2 -> quad m l = s1 * (dot v1 l * dot v1 l) + s2 * (dot v2 l * dot v2 l).
Proof.
  intros S U1 U2 M1 M2 T N. unfold is_unit in *.
  assert (SY : forall a b, dot a (mvmul m b) = dot (mvmul m a) b) by (intros a b; rewrite dot_mvmul; unfold msym in S; now rewrite S).
  assert (O : dot v1 v2 = 0).
  { pose proof (SY v1 v2) as X. rewrite M1, M2, dot_scal_l, dot_scal_r in X. nra. }
  set (v3 := cross v1 v2). destruct (cross_orth v1 v2) as [O1 O2]. fold v3 in O1, O2.
  assert (U3 : dot v3 v3 = 1) by (unfold v3; rewrite cross_product_dot, U1, U2, O; ring).
  clearbody v3. set (V := mkM3 v1 v2 v3).
  assert (VV : mmul V (mT V) = mid).
  { transitivity (mmul V (mmul mid (mT V))); [now rewrite mmul_id_l|]. unfold V. rewrite conjugate, !mvmul_id, (dot_comm v2 v1), (dot_comm v3 v1), (dot_comm v3 v2), U1, U2, U3, O, O1, O2. reflexivity. }
  assert (VT : mmul (mT V) V = mid) by now apply left_inverse.
  set (n33 := dot v3 (mvmul m v3)).
  assert (CO : mmul V (mmul m (mT V)) = mkM3 (mkV s1 0 0) (mkV 0 s2 0) (mkV 0 0 n33)).
  { unfold V. rewrite conjugate. fold n33. rewrite (SY v1 v3), (SY v2 v3), M1, M2, !dot_scal_l, !dot_scal_r, (dot_comm v2 v1), (dot_comm v3 v1), (dot_comm v3 v2), U1, U2, O, O1, O2.
    f_equal; f_equal; ring. }
  assert (TR : trace (mmul V (mmul m (mT V))) = trace m).
  { rewrite trace_comm, <- mmul_assoc, VT, mmul_id_r. reflexivity. }
  rewrite CO in TR. unfold trace at 1, e00, e11, e22 in TR. cbn [vx vy vz r0 r1 r2] in TR.
  assert (n33 = 0) as N33 by lra. rewrite N33 in CO.
  assert (ME : m = mmul (mT V) (mmul (mmul V (mmul m (mT V))) V)).
  { rewrite <- !mmul_assoc, VT, mmul_id_r, mmul_assoc, VT, mmul_id_l. reflexivity. }
  unfold quad. rewrite ME, CO, !mvmul_mmul, dot_mvmul, mT_mT. unfold V. clear.
  assert (E : mvmul (mkM3 v1 v2 v3) l = mkV (dot v1 l) (dot v2 l) (dot v3 l)) by reflexivity. rewrite E.
  generalize (dot v1 l) (dot v2 l) (dot v3 l). intros. v3unfold. ring.
Qed.
(** the form vanishes on the two planes *)
Lemma planes_factor d u v : planes d = Some (u, v) -> exists g sig, gamma d = Some g /\ sig <> 0 /\
  forall l, quad (D1 d) l + g * quad (D2 d) l = sig * (dot u l * dot v l).
Proof.
  unfold planes. intros E. invb E g EG. invb E e EE. destruct e as [[v1 v2] [s1 s2]]. invb E r ER. invb E s ES. injection E as <- <-.
  apply divide_some in ER as [N ER]. apply root_some in ES as [P ES].
  assert (SS : s * s = r) by (rewrite ES; now apply sqrt_sqrt).
  set (m := madd (D1 d) (mscal g (D2 d))) in *.
  assert (SY : msym m) by reflexivity.
  destruct (eig_ok _ _ _ _ _ SY (gamma_singular _ _ EG) EE) as (U1 & U2 & M1 & M2 & T).
  assert (S2 : s2 = - s1 * (s * s)) by (rewrite SS, ER; field; exact N).
  exists g, s1. split; [exact EG|]. split; [exact N|]. intros l.
  transitivity (quad m l). { unfold m. clear. generalize (D1 d) (D2 d). v3ring. }
  rewrite (spectral m v1 v2 s1 s2 l); auto.
  - rewrite !dot_sub_l, !dot_scal_l, S2. ring.
  - intros X. rewrite X in S2. assert (s2 * (1 + s * s) = 0) by lra. rewrite X in N. assert (0 <= s * s) by nra. nra.
Qed.
Lemma quad_D1 d l1 l2 l3 : quad (D1 d) (mkV l1 l2 l3) = a23 d * q12 d l1 l2 l3 - a12 d * q23 d l1 l2 l3.
Proof. unfold quad, D1, q12, q23. v3unfold. ring. Qed.
Lemma quad_D2 d l1 l2 l3 : quad (D2 d) (mkV l1 l2 l3) = a23 d * q13 d l1 l2 l3 - a13 d * q23 d l1 l2 l3.
Proof. unfold quad, D2, q13, q23. v3unfold. ring. Qed.

(** ** The equation of the ratio of two depths *)

Lemma quadratic_value sw d w0 w1 a b c t : quadratic sw d w0 w1 = (a, b, c) ->
  a * t * t + b * t + c =
  if sw then a23 d * q13 d 1 (w0 + w1 * t) t - a13 d * q23 d 1 (w0 + w1 * t) t
  else a13 d * q12 d (w0 + w1 * t) 1 t - a12 d * q13 d (w0 + w1 * t) 1 t.
Proof. unfold quadratic, q12, q13, q23. destruct sw; intros [= <- <- <-]; ring. Qed.
Lemma q_scale k d l1 l2 l3 : q12 d (k * l1) (k * l2) (k * l3) = k * k * q12 d l1 l2 l3 /\
  q13 d (k * l1) (k * l2) (k * l3) = k * k * q13 d l1 l2 l3 /\ q23 d (k * l1) (k * l2) (k * l3) = k * k * q23 d l1 l2 l3.
Proof. unfold q12, q13, q23. repeat split; ring. Qed.
Definition on_plane (sw : bool) (w0 w1 l1 l2 l3 : R) : Prop := if sw then l2 = w0 * l1 + w1 * l3 else l1 = w0 * l2 + w1 * l3.
Lemma weights_plane u sw w0 w1 l1 l2 l3 : weights u = (sw, Some (w0, w1)) -> dot u (mkV l1 l2 l3) = 0 <-> on_plane sw w0 w1 l1 l2 l3.
Proof.
  unfold weights, on_plane, dot. destruct u as [ux uy uz]. cbn [vx vy vz]. destruct (less (Rabs ux) (Rabs uy)); intros [= <- E].
  - invb E k0 K0. invb E k1 K1. injection E as <- <-. apply divide_some in K0 as [N ->]. apply divide_some in K1 as [_ ->]. split; intros E.
    + apply (Rmult_eq_reg_l uy); [|exact N]. field_simplify; [lra|exact N].
    + rewrite E. field. exact N.
  - invb E k0 K0. invb E k1 K1. injection E as <- <-. apply divide_some in K0 as [N ->]. apply divide_some in K1 as [_ ->]. split; intros E.
    + apply (Rmult_eq_reg_l ux); [|exact N]. field_simplify; [lra|exact N].
    + rewrite E. field. exact N.
Qed.
Lemma exact_of_ratio d u v w sw w0 w1 a b c t l1 l2 l3 :
  planes d = Some (u, v) -> w = u \/ w = v -> weights w = (sw, Some (w0, w1)) -> quadratic sw d w0 w1 = (a, b, c) ->
  a * t * t + b * t + c = 0 -> (a <> 0 \/ b <> 0) -> a12 d <> 0 -> a13 d <> 0 -> a23 d <> 0 ->
  depths sw d w0 w1 t = Some (l1, l2, l3) -> exact d l1 l2 l3.
Proof.
  intros EP W EW EQ Z NZ N12 N13 N23 ED. destruct (planes_factor _ _ _ EP) as (g & sig & _ & _ & FA).
  assert (PL : forall m1 m2 m3, on_plane sw w0 w1 m1 m2 m3 ->
    (a23 d * q12 d m1 m2 m3 - a12 d * q23 d m1 m2 m3) + g * (a23 d * q13 d m1 m2 m3 - a13 d * q23 d m1 m2 m3) = 0).
  { intros m1 m2 m3 O. rewrite <- quad_D1, <- quad_D2, FA. apply (weights_plane _ _ _ _ _ _ _ EW) in O. destruct W as [-> | ->]; rewrite O; ring. }
  pose proof (fun t => quadratic_value _ _ _ _ _ _ _ t EQ) as QV. rewrite QV in Z.
  unfold depths in ED. destruct sw.
  - invb ED k EK. invb ED m EM. cbv zeta in ED. injection ED as <- <- <-. apply divide_some in EK as [ND EK]. apply root_some in EM as [PK EM].
    assert (MM : m * m = k) by (rewrite EM; now apply sqrt_sqrt).
    destruct (q_scale m d 1 (w0 + w1 * t) t) as (S12 & S13 & S23).
    replace (m * (w0 + w1 * t)) with (w0 * m + w1 * (t * m)) in * by ring. rewrite Rmult_1_r, (Rmult_comm m t) in *.
    pose proof (PL m (w0 * m + w1 * (t * m)) (t * m) eq_refl) as PM.
    assert (H13 : q13 d m (w0 * m + w1 * (t * m)) (t * m) = a13 d).
    { unfold q13. transitivity (m * m * (t * (t - 2 * b13 d) + 1)); [ring|]. rewrite MM, EK. field. exact ND. }
    assert (H23 : q23 d m (w0 * m + w1 * (t * m)) (t * m) = a23 d).
    { assert (EE : a23 d * q13 d m (w0 * m + w1 * (t * m)) (t * m) - a13 d * q23 d m (w0 * m + w1 * (t * m)) (t * m) = 0).
      { rewrite S13, S23. transitivity (m * m * (a23 d * q13 d 1 (w0 + w1 * t) t - a13 d * q23 d 1 (w0 + w1 * t) t)); [ring|]. rewrite Z. ring. }
      rewrite H13 in EE. apply (Rmult_eq_reg_l (a13 d)); [|exact N13]. lra. }
    split; [|split; [exact H13|exact H23]].
    rewrite H13, H23 in PM. apply (Rmult_eq_reg_l (a23 d)); [|exact N23]. lra.
  - invb ED k EK. invb ED m EM. cbv zeta in ED. injection ED as <- <- <-. apply divide_some in EK as [ND EK]. apply root_some in EM as [PK EM].
    assert (MM : m * m = k) by (rewrite EM; now apply sqrt_sqrt).
    assert (NG : a12 d + g * a13 d <> 0).
    { intros G0. assert (ZZ : forall t, a * t * t + b * t + c = 0).
      { intros t'. rewrite QV. pose proof (PL (w0 + w1 * t') 1 t' ltac:(unfold on_plane; ring)) as P.
        apply (Rmult_eq_reg_l (a23 d)); [|exact N23].
        transitivity (a13 d * (a23 d * q12 d (w0 + w1 * t') 1 t' - a12 d * q23 d (w0 + w1 * t') 1 t' + g * (a23 d * q13 d (w0 + w1 * t') 1 t' - a13 d * q23 d (w0 + w1 * t') 1 t'))
          + (a12 d + g * a13 d) * (a13 d * q23 d (w0 + w1 * t') 1 t' - a23 d * q13 d (w0 + w1 * t') 1 t')); [ring|]. rewrite P, G0. ring. }
      pose proof (ZZ 0). pose proof (ZZ 1). pose proof (ZZ (-1)). destruct NZ; lra. }
    destruct (q_scale m d (w0 + w1 * t) 1 t) as (S12 & S13 & S23).
    replace (m * (w0 + w1 * t)) with (w0 * m + w1 * (t * m)) in * by ring. rewrite Rmult_1_r, (Rmult_comm m t) in *.
    pose proof (PL (w0 * m + w1 * (t * m)) m (t * m) eq_refl) as PM.
    assert (H23 : q23 d (w0 * m + w1 * (t * m)) m (t * m) = a23 d).
    { unfold q23. transitivity (m * m * (t * (t - 2 * b23 d) + 1)); [ring|]. rewrite MM, EK. field. exact ND. }
    set (A := q12 d (w0 * m + w1 * (t * m)) m (t * m)) in *. set (B := q13 d (w0 * m + w1 * (t * m)) m (t * m)) in *.
    assert (AB : a13 d * A = a12 d * B).
    { rewrite S12, S13. apply Rminus_diag_uniq.
      transitivity (m * m * (a13 d * q12 d (w0 + w1 * t) 1 t - a12 d * q13 d (w0 + w1 * t) 1 t)); [ring|]. rewrite Z. ring. }
    rewrite H23 in PM. assert (SUM : (A - a12 d) + g * (B - a13 d) = 0).
    { apply (Rmult_eq_reg_l (a23 d)); [|exact N23]. rewrite Rmult_0_r, <- PM. ring. }
    assert (B13 : B = a13 d).
    { apply (Rmult_eq_reg_l (a12 d + g * a13 d)); [|exact NG]. transitivity (a13 d * A + g * a13 d * B); [rewrite AB; ring|]. transitivity (a13 d * ((A - a12 d) + g * (B - a13 d)) + a13 d * (a12 d + g * a13 d)); [ring|]. rewrite SUM. ring. }
    split; [|split; [exact B13|exact H23]]. change (A = a12 d). rewrite B13 in SUM. replace (g * (a13 d - a13 d)) with 0 in SUM by ring. lra.
Qed.

(** ** The roots *)

Definition first_root (a b c : R) : option R :=
  let sq := sqrt (Rmax 0 (b * b - 4 * a * c)) in if less 0 b then divide (2 * c) (- b - sq) else divide (2 * c) (- b + sq).
Lemma root_value a b c D : D <> 0 -> (D + b) * (D + b) = b * b - 4 * a * c -> a * (2 * c / D) * (2 * c / D) + b * (2 * c / D) + c = 0.
Proof.
  intros N E. transitivity (c * ((D + b) * (D + b) - (b * b - 4 * a * c)) / (D * D)); [field; exact N|]. rewrite E. unfold Rdiv. ring.
Qed.
Lemma first_root_sound a b c t : 0 <= b * b - 4 * a * c -> first_root a b c = Some t -> a * t * t + b * t + c = 0 /\ (a <> 0 \/ b <> 0).
Proof.
  unfold first_root. intros P. rewrite Rmax_right by exact P. set (sq := sqrt _). assert (SQ : sq * sq = b * b - 4 * a * c) by (now apply sqrt_sqrt).
  clearbody sq. cbv zeta. destruct (less 0 b) eqn:L; intros E; apply divide_some in E as [N ->].
  - split; [apply root_value; [exact N|rewrite <- SQ; ring]|]. destruct (Req_EM_T a 0) as [->|]; [|auto]. right. apply less_iff in L. lra.
  - split; [apply root_value; [exact N|rewrite <- SQ; ring]|]. destruct (Req_EM_T a 0) as [->|]; [|auto]. right. intros ->. apply N.
    assert (sq * sq = 0) by (rewrite SQ; ring). assert (sq = 0) by nra. lra.
Qed.
Lemma second_root_sound a b c t s : a * t * t + b * t + c = 0 -> divide c (a * t) = Some s -> a * s * s + b * s + c = 0.
Proof.
  intros E H. apply divide_some in H as [N ->]. assert (a <> 0 /\ t <> 0) as [NA NT] by (split; intros ->; apply N; ring).
  transitivity (c * (a * t * t + b * t + c) / (a * t * t)); [field; auto|]. rewrite E. unfold Rdiv. ring.
Qed.
Lemma roots_complete a b c s : a * s * s + b * s + c = 0 -> c <> 0 -> (a <> 0 \/ b <> 0) ->
  0 <= b * b - 4 * a * c /\ exists t, first_root a b c = Some t /\ (s = t \/ (b * b - 4 * a * c <> 0 /\ divide c (a * t) = Some s)).
Proof.
  intros Z NC NZ. assert (P : 0 <= b * b - 4 * a * c).
  { replace (b * b - 4 * a * c) with ((2 * a * s + b) * (2 * a * s + b) - 4 * a * (a * s * s + b * s + c)) by ring. rewrite Z. pose proof (Rle_0_sqr (2 * a * s + b)) as SP. unfold Rsqr in SP. lra. }
  split; [exact P|].
  assert (exists t, first_root a b c = Some t) as [t ET].
  { unfold first_root. rewrite Rmax_right by exact P. set (sq := sqrt _). assert (SQ : sq * sq = b * b - 4 * a * c) by (now apply sqrt_sqrt).
    assert (SP : 0 <= sq) by apply sqrt_pos. clearbody sq. cbv zeta. destruct (less 0 b) eqn:L.
    - apply less_iff in L. rewrite divide_ok by lra. eauto.
    - apply less_false in L. rewrite divide_ok; [eauto|]. intros D. assert (b = 0) by lra. assert (sq = 0) by lra. subst b sq.
      assert (a * c = 0) by lra. destruct (Rmult_integral _ _ H); [|contradiction]. destruct NZ; lra. }
  exists t. split; [exact ET|]. destruct (first_root_sound _ _ _ _ P ET) as [T _].
  destruct (Req_EM_T s t) as [|N]; [now left|right].
  assert (F : a * (s + t) + b = 0). { apply (Rmult_eq_reg_l (s - t)); [|lra]. transitivity ((a * s * s + b * s + c) - (a * t * t + b * t + c)); [ring|]. rewrite Z, T. ring. }
  assert (NA : a <> 0) by (intros ->; destruct NZ as [NZ|NZ]; apply NZ; lra).
  assert (C : c = a * s * t). { transitivity ((a * s * s + b * s + c) - s * (a * (s + t) + b) + a * s * t); [ring|]. rewrite Z, F. ring. }
  assert (NT : t <> 0) by (intros ->; apply NC; rewrite C; ring).
  assert (B : b = - (a * (s + t))) by lra. split.
  - rewrite B, C. replace (- (a * (s + t)) * - (a * (s + t)) - 4 * a * (a * s * t)) with ((a * (s - t)) * (a * (s - t))) by ring.
    assert (a * (s - t) <> 0) by (apply Rmult_integral_contrapositive_currified; lra). apply Rmult_integral_contrapositive_currified; assumption.
  - rewrite divide_ok by (apply Rmult_integral_contrapositive_currified; assumption). f_equal. rewrite C. field. split; assumption.
Qed.

(** ** The loops *)

Lemma body_in x X sw w0 w1 tau p : In (Some p) (fst (body x X sw w0 w1 tau)) ->
  exists t l1 l2 l3, tau = Some t /\ 0 < t /\ depths sw (distances x X) w0 w1 t = Some (l1, l2, l3) /\
    0 <= l1 /\ 0 <= l2 /\ 0 <= l3 /\ pose_of x X l1 l2 l3 = Some p.
Proof.
  unfold body. destruct tau as [t|]; [|cbn; intros [[=]|[]]]. destruct (less 0 t) eqn:L; [|intros []]. apply less_iff in L.
  destruct (depths sw (distances x X) w0 w1 t) as [[[l1 l2] l3]|] eqn:ED; [|cbn; intros [[=]|[]]].
  destruct (less (if sw then l2 else l1) 0) eqn:L2; cbn [fst]; [intros []|]. apply less_false in L2. intros [E|[]].
  exists t, l1, l2, l3. repeat (split; [solve [auto]|]). unfold depths in ED. destruct sw.
  - invb ED k EK. invb ED m EM. cbv zeta in ED. injection ED as <- <- <-. apply root_some in EM as [_ EM].
    assert (0 <= m) by (rewrite EM; apply sqrt_pos). split; [assumption|]. split; [assumption|]. split; [nra|exact E].
  - invb ED k EK. invb ED m EM. cbv zeta in ED. injection ED as <- <- <-. apply root_some in EM as [_ EM].
    assert (0 <= m) by (rewrite EM; apply sqrt_pos). split; [assumption|]. split; [assumption|]. split; [nra|exact E].
Qed.
Lemma solve_plane_in x X u p : In (Some p) (solve_plane x X u) ->
  exists sw w0 w1 a b c tau, weights u = (sw, Some (w0, w1)) /\ quadratic sw (distances x X) w0 w1 = (a, b, c) /\
    - tolerance <= b * b - 4 * a * c /\
    (tau = first_root a b c \/ exists t, first_root a b c = Some t /\ tau = divide c (a * t)) /\ In (Some p) (fst (body x X sw w0 w1 tau)).
Proof.
  unfold solve_plane. destruct (weights u) as [sw [[w0 w1]|]] eqn:EW; [|intros []].
  destruct (quadratic sw (distances x X) w0 w1) as [[a b] c] eqn:EQ. cbv zeta. unfold discriminant.
  destruct (less (b * b - 4 * a * c) (- tolerance)) eqn:L; [intros []|]. apply less_false in L.
  fold (first_root a b c). intros H.
  assert (H' : In (Some p) (fst (body x X sw w0 w1 (first_root a b c))) \/ In (Some p) (fst (body x X sw w0 w1 (obind (first_root a b c) (fun t => divide c (a * t)))))).
  { change (if less 0 b then divide (2 * c) (- b - sqrt (Rmax 0 (b * b - 4 * a * c))) else divide (2 * c) (- b + sqrt (Rmax 0 (b * b - 4 * a * c)))) with (first_root a b c) in H.
    destruct (body x X sw w0 w1 (first_root a b c)) as [ps skip]. cbn [fst]. destruct (negb skip && less (b * b - 4 * a * c) tolerance)%bool; [now left|]. now apply in_app_or. }
  destruct H' as [H'|H'].
  - exists sw, w0, w1, a, b, c, (first_root a b c). repeat (split; [solve [auto]|]). exact H'.
  - destruct (first_root a b c) as [t|] eqn:ET; cbn [obind] in H'.
    + exists sw, w0, w1, a, b, c, (divide c (a * t)). repeat (split; [solve [eauto]|]). exact H'.
    + cbn in H'. destruct H' as [[=]|[]].
Qed.
Lemma distances_nonzero x X XX : inverse_frame X = Some XX -> a12 (distances x X) <> 0 /\ a13 (distances x X) <> 0 /\ a23 (distances x X) <> 0.
Proof.
  unfold inverse_frame, inverse3. intros E. invb E k K. apply divide_some in K as [N _]. rewrite det_frame in N. unfold distances. cbn [a12 a13 a23].
  assert (Z : forall v, sqn v = 0 -> v = v0) by (intros v; apply sqn_zero).
  split; [|split]; intros E0; apply Z in E0; apply N.
  - rewrite E0. v3ring.
  - rewrite E0. v3ring.
  - replace (vsub (t0 X) (t2 X)) with (vadd (vsub (t0 X) (t1 X)) (vsub (t1 X) (t2 X))) by v3ring. rewrite E0. generalize (vsub (t0 X) (t1 X)). v3ring.
Qed.

(** with the exact depths of a pose, that pose is found back *)
Lemma sees_exact p x X l1 l2 l3 : unit_rays x -> is_rotation (rotation p) -> sees p x X l1 l2 l3 -> exact (distances x X) l1 l2 l3.
Proof.
  intros (U0 & U1 & U2) [O _] (S0 & S1 & S2). destruct p as [R t]. cbn [rotation translation] in *.
  assert (D : forall a b, sqn (vsub (vadd (mvmul R a) t) (vadd (mvmul R b) t)) = sqn (vsub a b)).
  { intros a b. replace (vsub (vadd (mvmul R a) t) (vadd (mvmul R b) t)) with (mvmul R (vsub a b)) by (rewrite mvmul_sub; generalize (mvmul R a) (mvmul R b); clear; v3ring).
    destruct O as [_ O]. unfold sqn. rewrite dot_mvmul, <- mvmul_mmul, O, mvmul_id. reflexivity. }
  unfold exact, q12, q13, q23, distances. cbn [a12 a13 a23 b12 b13 b23]. rewrite <- !ray_distance by assumption. rewrite S0, S1, S2, !D. auto.
Qed.
Lemma pose_back p x X l1 l2 l3 : unit_rays x -> not_aligned X -> is_rotation (rotation p) -> sees p x X l1 l2 l3 -> pose_of x X l1 l2 l3 = Some p.
Proof.
  intros U NA RO S. pose proof (sees_exact _ _ _ _ _ _ U RO S) as EX. unfold pose_of. rewrite (exact_refine _ _ _ _ EX). cbn [obind].
  destruct (inverse3_exists (frame_of (vsub (t0 X) (t1 X)) (vsub (t0 X) (t2 X)))) as [XX EI].
  { rewrite det_frame. intros Z. apply NA. now apply sqn_zero. }
  unfold inverse_frame. rewrite EI. cbn [obind]. f_equal. destruct p as [R t]. cbn [rotation translation] in *. destruct S as (S0 & S1 & S2).
  cbn [rotation translation] in *.
  assert (FR : frame_of (vsub (vscal l1 (t0 x)) (vscal l2 (t1 x))) (vsub (vscal l1 (t0 x)) (vscal l3 (t2 x))) = mmul R (frame_of (vsub (t0 X) (t1 X)) (vsub (t0 X) (t2 X)))).
  { rewrite (mmul_frame _ _ _ RO), S0, S1, S2. f_equal; rewrite mvmul_sub; generalize (mvmul R (t0 X)) (mvmul R (t1 X)) (mvmul R (t2 X)); clear; v3ring. }
  apply inverse3_ok in EI as [I1 I2]. rewrite FR, <- mmul_assoc, I2, mmul_id_r. f_equal.
  rewrite S0. generalize (mvmul R (t0 X)). clear. v3ring.
Qed.
Lemma depths_back sw d w0 w1 l1 l2 l3 : a13 d <> 0 -> a23 d <> 0 -> 0 < l1 -> 0 < l2 -> 0 < l3 -> exact d l1 l2 l3 -> on_plane sw w0 w1 l1 l2 l3 ->
  depths sw d w0 w1 (l3 / (if sw then l1 else l2)) = Some (l1, l2, l3).
Proof.
  intros N13 N23 P1 P2 P3 (E12 & E13 & E23) O. unfold depths, on_plane, q12, q13, q23 in *. destruct sw.
  - assert (K : l1 * l1 * (l3 / l1 * (l3 / l1 - 2 * b13 d) + 1) = a13 d) by (rewrite <- E13; field; lra).
    assert (NK : l3 / l1 * (l3 / l1 - 2 * b13 d) + 1 <> 0) by (intros Z; rewrite Z in K; lra).
    rewrite divide_ok by exact NK. cbn [obind]. replace (a13 d / (l3 / l1 * (l3 / l1 - 2 * b13 d) + 1)) with (l1 * l1).
    + rewrite root_ok by nra. cbn [obind]. rewrite sqrt_square by lra. cbv zeta. replace (l3 / l1 * l1) with l3 by (field; lra). rewrite <- O. reflexivity.
    + set (z := l3 / l1 * (l3 / l1 - 2 * b13 d) + 1) in *. rewrite <- K. field. exact NK.
  - assert (K : l2 * l2 * (l3 / l2 * (l3 / l2 - 2 * b23 d) + 1) = a23 d) by (rewrite <- E23; field; lra).
    assert (NK : l3 / l2 * (l3 / l2 - 2 * b23 d) + 1 <> 0) by (intros Z; rewrite Z in K; lra).
    rewrite divide_ok by exact NK. cbn [obind]. replace (a23 d / (l3 / l2 * (l3 / l2 - 2 * b23 d) + 1)) with (l2 * l2).
    + rewrite root_ok by nra. cbn [obind]. rewrite sqrt_square by lra. cbv zeta. replace (l3 / l2 * l2) with l3 by (field; lra). rewrite <- O. reflexivity.
    + set (z := l3 / l2 * (l3 / l2 - 2 * b23 d) + 1) in *. rewrite <- K. field. exact NK.
Qed.
Lemma ratio_root sw d w0 w1 a b c l1 l2 l3 : 0 < l1 -> 0 < l2 -> 0 < l3 -> exact d l1 l2 l3 -> on_plane sw w0 w1 l1 l2 l3 ->
  quadratic sw d w0 w1 = (a, b, c) -> let t := l3 / (if sw then l1 else l2) in a * t * t + b * t + c = 0.
Proof.
  intros P1 P2 P3 (E12 & E13 & E23) O EQ t. rewrite (quadratic_value _ _ _ _ _ _ _ t EQ). unfold t. clear t. unfold on_plane in O. destruct sw.
  - destruct (q_scale l1 d 1 (w0 + w1 * (l3 / l1)) (l3 / l1)) as (_ & S13 & S23).
    replace (l1 * (w0 + w1 * (l3 / l1))) with l2 in * by (rewrite O; field; lra). replace (l1 * (l3 / l1)) with l3 in * by (field; lra). rewrite Rmult_1_r in *.
    rewrite E13 in S13. rewrite E23 in S23. apply (Rmult_eq_reg_l (l1 * l1)); [|nra].
    transitivity (a23 d * (l1 * l1 * q13 d 1 (w0 + w1 * (l3 / l1)) (l3 / l1)) - a13 d * (l1 * l1 * q23 d 1 (w0 + w1 * (l3 / l1)) (l3 / l1))); [ring|]. rewrite <- S13, <- S23. ring.
  - destruct (q_scale l2 d (w0 + w1 * (l3 / l2)) 1 (l3 / l2)) as (S12 & S13 & _).
    replace (l2 * (w0 + w1 * (l3 / l2))) with l1 in * by (rewrite O; field; lra). replace (l2 * (l3 / l2)) with l3 in * by (field; lra). rewrite Rmult_1_r in *.
    rewrite E12 in S12. rewrite E13 in S13. apply (Rmult_eq_reg_l (l2 * l2)); [|nra].
    transitivity (a13 d * (l2 * l2 * q12 d (w0 + w1 * (l3 / l2)) 1 (l3 / l2)) - a12 d * (l2 * l2 * q13 d (w0 + w1 * (l3 / l2)) 1 (l3 / l2))); [ring|]. rewrite <- S12, <- S13. ring.
Qed.
Lemma not_aligned_distances x X : not_aligned X -> a12 (distances x X) <> 0 /\ a13 (distances x X) <> 0 /\ a23 (distances x X) <> 0.
Proof.
  intros NA. destruct (inverse3_exists (frame_of (vsub (t0 X) (t1 X)) (vsub (t0 X) (t2 X)))) as [XX EI].
  { rewrite det_frame. intros Z. apply NA. now apply sqn_zero. }
  exact (distances_nonzero x X XX EI).
Qed.
Lemma tolerance_pos : 0 < tolerance.
Proof. unfold tolerance. assert (0 < 10 ^ 12) by (apply pow_lt; lra). apply Rdiv_lt_0_compat; lra. Qed.

(** ** The theorems *)

(** C87: at most four poses are returned *)
Theorem C87_count x X : (length (p3p x X) <= 4)%nat.
Proof.
  assert (B : forall sw w0 w1 tau, (length (fst (body x X sw w0 w1 tau)) <= 1)%nat).
  { intros. unfold body. destruct tau as [t|]; [|cbn; lia]. destruct (less 0 t); [|cbn; lia]. destruct (depths _ _ _ _ _) as [[[l1 l2] l3]|]; [|cbn; lia].
    destruct (less _ 0); cbn; lia. }
  assert (S : forall u, (length (solve_plane x X u) <= 2)%nat).
  { intros u. unfold solve_plane. destruct (weights u) as [sw [[w0 w1]|]]; [|cbn; lia]. destruct (quadratic _ _ _ _) as [[a b] c]. cbv zeta.
    destruct (less (discriminant (a, b, c)) (- tolerance)); [cbn; lia|].
    change (if less 0 b then divide (2 * c) (- b - sqrt (Rmax 0 (discriminant (a, b, c)))) else divide (2 * c) (- b + sqrt (Rmax 0 (discriminant (a, b, c))))) with (first_root a b c).
    pose proof (B sw w0 w1 (first_root a b c)) as B1. pose proof (B sw w0 w1 (obind (first_root a b c) (fun t => divide c (a * t)))) as B2.
    destruct (body x X sw w0 w1 (first_root a b c)) as [ps skip]. cbn [fst] in B1. destruct (negb skip && _)%bool; [lia|]. rewrite app_length. lia. }
  unfold p3p. destruct (planes (distances x X)) as [[u v]|]; [|cbn; lia]. rewrite app_length. pose proof (S u). pose proof (S v). lia.
Qed.
Lemma p3p_in x X p : In (Some p) (p3p x X) -> exists u v w, planes (distances x X) = Some (u, v) /\ (w = u \/ w = v) /\ In (Some p) (solve_plane x X w).
Proof.
  unfold p3p. destruct (planes (distances x X)) as [[u v]|]; [|intros []]. intros H. apply in_app_or in H as [H|H]; eauto 7.
Qed.
(** C87: with every pose returned, the camera sees the points along the rays *)
Theorem C87_rays x X p : In (Some p) (p3p x X) -> exists l0 l1 l2, sees p x X l0 l1 l2.
Proof.
  intros H. apply p3p_in in H as (u & v & w & _ & _ & H). apply solve_plane_in in H as (sw & w0 & w1 & a & b & c & tau & _ & _ & _ & _ & H).
  apply body_in in H as (t & l1 & l2 & l3 & _ & _ & _ & _ & _ & _ & H). destruct (pose_sees _ _ _ _ _ _ H) as (m1 & m2 & m3 & XX & _ & S & _). eauto.
Qed.
(** C87: every pose returned is a rotation and a translation, that put the points in front of
    the camera, on the rays *)
Theorem C87_sound x X p : unit_rays x -> no_near_double_root x X -> In (Some p) (p3p x X) ->
  is_rotation (rotation p) /\ exists l0 l1 l2, 0 <= l0 /\ 0 <= l1 /\ 0 <= l2 /\ sees p x X l0 l1 l2.
Proof.
  intros U ND H. apply p3p_in in H as (u & v & w & EP & W & H). apply solve_plane_in in H as (sw & w0 & w1 & a & b & c & tau & EW & EQ & TO & TA & H).
  apply body_in in H as (t & l1 & l2 & l3 & -> & P & ED & P1 & P2 & P3 & H).
  assert (DI : 0 <= b * b - 4 * a * c).
  { destruct (ND u v w (a, b, c) EP W) as [D|D].
    - exists w0, w1. rewrite EW. cbn [fst snd]. auto.
    - unfold discriminant in D. lra.
    - unfold discriminant in D. pose proof tolerance_pos. unfold Rabs in D. destruct (Rcase_abs _); lra. }
  assert (Z : a * t * t + b * t + c = 0 /\ (a <> 0 \/ b <> 0)).
  { destruct TA as [TA|(t' & ET & TA)].
    - now apply first_root_sound.
    - destruct (first_root_sound _ _ _ _ DI ET) as [Z N]. split; [|exact N]. now apply (second_root_sound a b c t'). }
  assert (exists XX, inverse_frame X = Some XX) as [XX EI] by (destruct (pose_sees _ _ _ _ _ _ H) as (m1 & m2 & m3 & XX & _ & _ & EI & _); eauto).
  destruct (distances_nonzero x X XX EI) as (N12 & N13 & N23). destruct Z as [Z NZ].
  pose proof (exact_of_ratio _ _ _ _ _ _ _ _ _ _ _ _ _ _ EP W EW EQ Z NZ N12 N13 N23 ED) as EX.
  destruct (exact_rotation _ _ _ _ _ _ U EX H) as [RO S]. split; [exact RO|]. exists l1, l2, l3. auto.
Qed.
(** C87: a camera that sees the points in front of it is found *)
Theorem C87_complete x X p l0 l1 l2 : unit_rays x -> not_aligned X -> regular x X -> no_near_double_root x X ->
  is_rotation (rotation p) -> 0 < l0 -> 0 < l1 -> 0 < l2 -> sees p x X l0 l1 l2 -> In (Some p) (p3p x X).
Proof.
  intros U NA (u & v & EP & RG) ND RO P0 P1 P2 S.
  pose proof (sees_exact _ _ _ _ _ _ U RO S) as EX. pose proof (pose_back _ _ _ _ _ _ U NA RO S) as PB.
  destruct (not_aligned_distances x X NA) as (N12 & N13 & N23).
  destruct (planes_factor _ _ _ EP) as (g & sig & _ & NS & FA). specialize (FA (mkV l0 l1 l2)). rewrite quad_D1, quad_D2 in FA.
  assert (W : exists w, (w = u \/ w = v) /\ dot w (mkV l0 l1 l2) = 0).
  { destruct EX as (E12 & E13 & E23). rewrite E12, E13, E23 in FA. assert (Z : sig * (dot u (mkV l0 l1 l2) * dot v (mkV l0 l1 l2)) = 0) by (rewrite <- FA; ring).
    apply Rmult_integral in Z as [Z|Z]; [contradiction|]. apply Rmult_integral in Z as [Z|Z]; eauto. }
  destruct W as (w & W & Z). destruct (RG w W) as (a & b & c & EQ & NC & NZ). assert (EQ' := EQ).
  destruct EQ as (w0 & w1 & EW & EQ). destruct (weights w) as [sw ww] eqn:EWW. cbn [fst snd] in EW, EQ. subst ww. symmetry in EQ.
  assert (O : on_plane sw w0 w1 l0 l1 l2) by (now apply (weights_plane _ _ _ _ _ _ _ EWW)).
  pose proof (ratio_root _ _ _ _ _ _ _ _ _ _ P0 P1 P2 EX O EQ) as RT. cbv zeta in RT. set (s := l2 / (if sw then l0 else l1)) in *.
  destruct (roots_complete a b c s RT NC NZ) as (DI & t & ET & CA).
  assert (BO : body x X sw w0 w1 (Some s) = ([Some p], false)).
  { unfold body. assert (0 < s) as SP by (unfold s; destruct sw; apply Rdiv_lt_0_compat; assumption). apply less_iff in SP. rewrite SP.
    unfold s. rewrite (depths_back _ _ _ _ _ _ _ N13 N23 P0 P1 P2 EX O).
    assert (L : less (if sw then l1 else l0) 0 = false) by (apply less_false; destruct sw; lra). rewrite L, PB. reflexivity. }
  assert (IN : In (Some p) (solve_plane x X w)).
  { unfold solve_plane. rewrite EWW, EQ. cbv zeta. unfold discriminant.
    assert (L : less (b * b - 4 * a * c) (- tolerance) = false) by (apply less_false; pose proof tolerance_pos; lra). rewrite L.
    change (if less 0 b then divide (2 * c) (- b - sqrt (Rmax 0 (b * b - 4 * a * c))) else divide (2 * c) (- b + sqrt (Rmax 0 (b * b - 4 * a * c)))) with (first_root a b c).
    rewrite ET. cbn [obind]. destruct CA as [CA|[DN CA]].
    - rewrite <- CA, BO. destruct (negb false && _)%bool; [now left|]. apply in_or_app. left. now left.
    - destruct (body x X sw w0 w1 (Some t)) as [ps skip]. rewrite CA, BO. cbn [fst].
      assert (L2 : less (b * b - 4 * a * c) tolerance = false).
      { apply less_false. destruct (ND u v w (a, b, c) EP W EQ') as [D|D]; unfold discriminant in D; [contradiction|]. rewrite Rabs_right in D by lra. lra. }
      rewrite L2, andb_false_r. apply in_or_app. right. now left. }
  unfold p3p. rewrite EP. apply in_or_app. destruct W as [-> | ->]; auto.
Qed.

(** ** A case where everything is rational *)

Definition example_rays : triple := mkT (mkV (3 / 7) (-6 / 7) (2 / 7)) (mkV 0 (-4 / 5) (3 / 5)) (mkV (-3 / 7) (-6 / 7) (2 / 7)).
Definition example_points : triple := mkT (mkV (3 / 7) (-6 / 7) (2 / 7)) (mkV 0 (-8 / 5) (6 / 5)) (mkV (-3 / 7) (-6 / 7) (2 / 7)).
Definition identity_pose : camera_pose := mkPose mid v0.
Example example_distances : distances example_rays example_points = mkD (11 / 7) (36 / 49) (11 / 7) (6 / 7) (31 / 49) (6 / 7).
Proof. unfold distances, example_rays, example_points. v3unfold. cbn [t0 t1 t2]. cbn [vx vy vz]. f_equal; field. Qed.
Example example_unit : unit_rays example_rays.
Proof. unfold unit_rays, example_rays, is_unit, dot. cbn [t0 t1 t2 vx vy vz]. repeat split; field. Qed.
Example example_not_aligned : not_aligned example_points.
Proof. unfold not_aligned, example_points, cross, vsub, v0. cbn [t0 t1 t2 vx vy vz]. intros E. injection E as E1' E2' E3'. lra. Qed.
Example example_identity : is_rotation (rotation identity_pose) /\ sees identity_pose example_rays example_points 1 2 1.
Proof.
  unfold is_rotation, orthogonal, sees, identity_pose, example_rays, example_points. cbn [rotation translation t0 t1 t2]. split; [split; [split|]|].
  - v3ring.
  - v3ring.
  - v3ring.
  - repeat split; v3unfold; apply vec_eq; cbn [vx vy vz]; field.
Qed.
Example example_D1 : D1 (mkD (11 / 7) (36 / 49) (11 / 7) (6 / 7) (31 / 49) (6 / 7)) = mkM3 (mkV (11 / 7) (-66 / 49) 0) (mkV (-66 / 49) 0 (66 / 49)) (mkV 0 (66 / 49) (-11 / 7)).
Proof. unfold D1. cbn [a12 a13 a23 b12 b13 b23]. f_equal; f_equal; field. Qed.
Example example_D2 : D2 (mkD (11 / 7) (36 / 49) (11 / 7) (6 / 7) (31 / 49) (6 / 7)) = mkM3 (mkV (11 / 7) 0 (-341 / 343)) (mkV 0 (-36 / 49) (216 / 343)) (mkV (-341 / 343) (216 / 343) (41 / 49)).
Proof. unfold D2. cbn [a12 a13 a23 b12 b13 b23]. f_equal; f_equal; field. Qed.
Example example_cofactors : cofactors (mkM3 (mkV (11 / 7) (-66 / 49) 0) (mkV (-66 / 49) 0 (66 / 49)) (mkV 0 (66 / 49) (-11 / 7))) = (mkM3 (mkV (-4356 / 2401) (-726 / 343) (-4356 / 2401)) (mkV (-726 / 343) (-121 / 49) (-726 / 343)) (mkV (-4356 / 2401) (-726 / 343) (-4356 / 2401))) /\
  cofactors (mkM3 (mkV (11 / 7) 0 (-341 / 343)) (mkV 0 (-36 / 49) (216 / 343)) (mkV (-341 / 343) (216 / 343) (41 / 49))) = (mkM3 (mkV (-118980 / 117649) (-73656 / 117649) (-12276 / 16807)) (mkV (-73656 / 117649) (38412 / 117649) (-2376 / 2401)) (mkV (-12276 / 16807) (-2376 / 2401) (-396 / 343))).
Proof. unfold cofactors, columns, col0, col1, col2, mT, cross. cbn [r0 r1 r2 vx vy vz]. split; f_equal; f_equal; field. Qed.
Example example_gamma : gamma (mkD (11 / 7) (36 / 49) (11 / 7) (6 / 7) (31 / 49) (6 / 7)) = Some 0.
Proof.
  unfold gamma. rewrite example_D1, example_D2, (proj1 example_cofactors), (proj2 example_cofactors).
  unfold array_dot, col0, mT, dot. cbn [r0 r1 r2 vx vy vz]. cbv zeta.
  match goal with |- obind (divide 1 ?d3) (fun inv => obind (cubic_root (?d2 * inv) (?d1 * inv) (?d0 * inv)) _) = _ =>
    replace d3 with (-4975344 / 5764801) by field; replace d2 with (-4348080 / 5764801) by field; replace d1 with (-1328580 / 823543) by field; replace d0 with 0 by field end.
  rewrite divide_ok by lra. cbn [obind]. set (inv := 1 / _).
  replace (-4348080 / 5764801 * inv) with (305 / 349) by (unfold inv; field). replace (-1328580 / 823543 * inv) with (23485 / 12564) by (unfold inv; field).
  replace (0 * inv) with 0 by ring. clear inv.
  destruct (cubic_root (305 / 349) (23485 / 12564) 0) as [g|] eqn:E.
  - assert (g = 0) as ->.
    { apply cubic_root_root in E. assert (Z : g * (g * g + 305 / 349 * g + 23485 / 12564) = 0) by (rewrite <- E; ring).
      apply Rmult_integral in Z as [Z|Z]; [exact Z|]. pose proof (Rle_0_sqr (g + 305 / 698)) as P. unfold Rsqr in P. exfalso. lra. }
    cbn [obind]. rewrite divide_ok by lra. cbn [obind]. f_equal. field.
  - exfalso. unfold cubic_root in E. cbv zeta in E. destruct (Rlt_dec 0 _) as [L|L] in E; [discriminate|]. apply L.
    match goal with |- 0 < ?c => replace c with (63419427696625 / 292006823718483) by field end. lra.
Qed.
Lemma sqrt_is a b : 0 <= b -> b * b = a -> sqrt a = b.
Proof. intros P <-. now apply sqrt_square. Qed.
Lemma divide_is a b r : b <> 0 -> a = r * b -> divide a b = Some r.
Proof. intros N ->. rewrite divide_ok by exact N. f_equal. field. exact N. Qed.
Example example_planes : planes (distances example_rays example_points) = Some (mkV (-7 / 11) (12 / 11) (-7 / 11), mkV (-1) 0 1).
Proof.
  rewrite example_distances. unfold planes. rewrite example_gamma. cbn [obind].
  replace (madd (D1 _) _) with (mkM3 (mkV (11 / 7) (-66 / 49) 0) (mkV (-66 / 49) 0 (66 / 49)) (mkV 0 (66 / 49) (-11 / 7))).
  2:{ rewrite example_D1, example_D2. unfold madd, mscal, vadd, vscal. cbn [r0 r1 r2 vx vy vz]. f_equal; f_equal; field. }
  unfold eig3x3known0, e00, e01, e02, e11, e12, e22. cbn [r0 r1 r2 vx vy vz]. cbv zeta.
  match goal with |- context [root ?a] => replace (root a) with (Some (121 / 49)) end.
  2:{ symmetry. rewrite root_ok by lra. f_equal. apply sqrt_is; lra. }
  cbn [obind]. 
  match goal with |- context [less (Rabs ?a) (Rabs ?b)] => replace a with (121 / 49) by field; replace b with (- (121 / 49)) by field end.
  rewrite Rabs_Ropp. replace (less (Rabs (121 / 49)) (Rabs (121 / 49))) with false by (symmetry; apply less_false; lra).
  unfold eigenvector, e00, e01, e02, e11, e12. cbn [r0 r1 r2 vx vy vz]. cbv zeta.
  rewrite (divide_is _ _ (-9 / 2)) by lra. cbn [obind]. rewrite (divide_is _ _ 3) by lra. cbn [obind]. rewrite (sqrt_is _ (11 / 2)) by lra.
  rewrite (divide_is _ _ (-2 / 9)) by lra. cbn [obind]. rewrite (divide_is _ _ (-2 / 3)) by lra. cbn [obind]. rewrite (sqrt_is _ (11 / 9)) by lra.
  rewrite (divide_is _ _ 1) by lra. cbn [obind]. rewrite root_ok by lra. cbn [obind]. rewrite sqrt_1. unfold vsub, vscal. cbn [vx vy vz].
  f_equal. f_equal; f_equal; field.
Qed.
Lemma example_equation w q : equation example_rays example_points w q -> w = mkV (-7 / 11) (12 / 11) (-7 / 11) \/ w = mkV (-1) 0 1 ->
  q = (37 / 28, -1203 / 686, 37 / 28) \/ q = (-144 / 343, -432 / 343, 252 / 343).
Proof.
  intros (w0 & w1 & EW & EQ) [-> | ->]; rewrite example_distances in EQ; unfold weights in *; cbn [vx vy vz] in *.
  - left. assert (L : less (Rabs (-7 / 11)) (Rabs (12 / 11)) = true) by (apply less_iff; rewrite Rabs_left, Rabs_right by lra; lra). rewrite L in *. cbn [fst snd] in *.
    rewrite (divide_is _ _ (7 / 12)) in EW by lra. cbn [obind] in EW. injection EW as <- <-.
    rewrite EQ. unfold quadratic. cbn [a12 a13 a23 b12 b13 b23]. f_equal; [f_equal|]; field.
  - right. assert (L : less (Rabs (-1)) (Rabs 0) = false) by (apply less_false; rewrite Rabs_R0; apply Rabs_pos). rewrite L in *. cbn [fst snd] in *.
    rewrite (divide_is _ _ 0) in EW by lra. cbn [obind] in EW. rewrite (divide_is _ _ 1) in EW by lra. cbn [obind] in EW. injection EW as <- <-.
    rewrite EQ. unfold quadratic. cbn [a12 a13 a23 b12 b13 b23]. f_equal; [f_equal|]; field.
Qed.
Lemma equation_exists w : vx w <> 0 -> exists q, equation example_rays example_points w q.
Proof.
  intros N. unfold equation, weights. destruct (less (Rabs (vx w)) (Rabs (vy w))) eqn:L; cbn [fst snd].
  - assert (vy w <> 0) by (intros Z; apply less_iff in L; rewrite Z, Rabs_R0 in L; pose proof (Rabs_pos (vx w)); lra). rewrite divide_ok by assumption. cbn [obind]. rewrite divide_ok by assumption. cbn [obind]. eauto.
  - rewrite divide_ok by assumption. cbn [obind]. rewrite divide_ok by assumption. cbn [obind]. eauto.
Qed.
Example example_no_near_double_root : no_near_double_root example_rays example_points.
Proof.
  intros u v w q EP W EQ. rewrite example_planes in EP. injection EP as <- <-. right.
  assert (T : tolerance < 1) by (unfold tolerance; lra).
  destruct (example_equation _ _ EQ W) as [-> | ->]; unfold discriminant.
  - rewrite Rabs_left by lra. lra.
  - rewrite Rabs_right by lra. lra.
Qed.
Example example_regular : regular example_rays example_points.
Proof.
  do 2 eexists. split; [exact example_planes|]. intros w W.
  destruct (equation_exists w) as [q EQ]; [destruct W as [-> | ->]; cbn; lra|].
  destruct (example_equation _ _ EQ W) as [-> | ->]; do 3 eexists; (split; [exact EQ|]); split; [lra|left; lra|lra|left; lra].
Qed.
(** the camera at the origin is found *)
Example C87_example : In (Some identity_pose) (p3p example_rays example_points).
Proof.
  destruct example_identity as [R S]. apply (C87_complete _ _ _ 1 2 1 example_unit example_not_aligned example_regular example_no_near_double_root R); auto; lra.
Qed.

(** ** Cases where no pose is found *)

Lemma eigenvector_none m sig : sig * sig + e00 m * e11 m - sig * (e00 m + e11 m) - e01 m * e01 m = 0 -> eigenvector m sig = None.
Proof. intros E. unfold eigenvector. rewrite E. unfold divide. destruct (Req_EM_T 0 0); [reflexivity|contradiction]. Qed.
(** C87 (defect): with orthogonal rays, no pose is ever found, although one exists *)
Theorem C87_orthogonal_rays_refuted :
  let x := mkT (mkV 1 0 0) (mkV 0 1 0) (mkV 0 0 1) in
  (forall X, p3p x X = []) /\
  exists X p, unit_rays x /\ not_aligned X /\ is_rotation (rotation p) /\ sees p x X 1 1 1.
Proof.
  intros x. split.
  - intros X. unfold p3p. replace (planes (distances x X)) with (@None (vec * vec)); [reflexivity|]. symmetry.
    assert (B : b12 (distances x X) = 0 /\ b13 (distances x X) = 0 /\ b23 (distances x X) = 0).
    { unfold distances, x, dot. cbn [b12 b13 b23 t0 t1 t2 vx vy vz]. repeat split; ring. }
    destruct (distances x X) as [A12 A13 A23 B12 B13 B23]. cbn in B. destruct B as (-> & -> & ->).
    unfold planes. destruct (gamma _) as [g|] eqn:EG; [|reflexivity]. cbn [obind]. apply gamma_singular in EG. revert EG.
    replace (madd (D1 _) _) with (mkM3 (mkV (A23 + g * A23) 0 0) (mkV 0 (A23 - A12 - g * A13) 0) (mkV 0 0 (- A12 + g * (A23 - A13)))).
    2:{ unfold D1, D2. v3unfold. cbn [a12 a13 a23 b12 b13 b23]. f_equal; f_equal; ring. }
    generalize (A23 + g * A23) (A23 - A12 - g * A13) (- A12 + g * (A23 - A13)). intros n0 n1 n2 EG.
    assert (Z : n0 * (n1 * n2) = 0) by (rewrite <- EG; v3unfold; ring).
    assert (E0 : eigenvector (mkM3 (mkV n0 0 0) (mkV 0 n1 0) (mkV 0 0 n2)) n0 = None) by (apply eigenvector_none; unfold e00, e01, e11; cbn [r0 r1 r2 vx vy vz]; ring).
    assert (E1' : eigenvector (mkM3 (mkV n0 0 0) (mkV 0 n1 0) (mkV 0 0 n2)) n1 = None) by (apply eigenvector_none; unfold e00, e01, e11; cbn [r0 r1 r2 vx vy vz]; ring).
    unfold eig3x3known0. unfold e00, e01, e02, e11, e12, e22. cbn [r0 r1 r2 vx vy vz]. cbv zeta.
    destruct (root _) as [s|] eqn:ER; [|reflexivity]. cbn [obind]. apply root_some in ER as [P ER].
    assert (SS : s * s = (- n0 - n1 - n2) * (- n0 - n1 - n2) / 4 - (- 0 * 0 - 0 * 0 - 0 * 0 + n0 * (n1 + n2) + n1 * n2)) by (rewrite ER; now apply sqrt_sqrt).
    clear ER P. set (s1 := - (- n0 - n1 - n2) / 2 + s). set (s2 := - (- n0 - n1 - n2) / 2 - s).
    assert (SUM : s1 + s2 = n0 + n1 + n2) by (unfold s1, s2; field).
    assert (PROD : s1 * s2 = n0 * n1 + n0 * n2 + n1 * n2) by (transitivity ((- n0 - n1 - n2) * (- n0 - n1 - n2) / 4 - s * s); [unfold s1, s2; field|]; rewrite SS; field).
    assert (K : s1 = n0 \/ s1 = n1 \/ s2 = n0 \/ s2 = n1).
    { assert (H : forall a b, s1 + s2 = a + b -> s1 * s2 = a * b -> s1 = a \/ s2 = a).
      { intros a b H1 H2. assert (Q : (s1 - a) * (s2 - a) = 0) by (transitivity (s1 * s2 - a * (s1 + s2) + a * a); [ring|]; rewrite H1, H2; ring).
        apply Rmult_integral in Q as [Q|Q]; [left|right]; lra. }
      apply Rmult_integral in Z as [-> | Z]; [|apply Rmult_integral in Z as [-> | ->]].
      - destruct (H n1 n2); [lra|lra|auto|auto].
      - destruct (H n0 n2); [lra|lra|auto|auto].
      - destruct (H n0 n1); [lra|lra|auto|auto]. }
    clearbody s1 s2. set (mm := mkM3 _ _ _) in *. clearbody mm.
    assert (EN : eigenvector mm s1 = None \/ eigenvector mm s2 = None) by (destruct K as [-> | [-> | [-> | ->]]]; auto).
    destruct (less (Rabs s1) (Rabs s2)); destruct (eigenvector mm s1), (eigenvector mm s2); try reflexivity; destruct EN; discriminate.
  - exists x, identity_pose. unfold x. split; [|split; [|split]].
    + unfold unit_rays, is_unit, dot. cbn [t0 t1 t2 vx vy vz]. repeat split; ring.
    + unfold not_aligned, cross, vsub, v0. cbn [t0 t1 t2 vx vy vz]. intros E. injection E as E1' E2' E3'. lra.
    + exact (proj1 example_identity).
    + unfold sees, identity_pose. cbn [rotation translation t0 t1 t2]. repeat split; v3ring.
Qed.
(** C87 (defect): when the first two points are at the same distance of the third one and are
    seen at the same angle of it, no pose is found *)
Theorem C87_symmetric_refuted :
  (forall x X, dot (t0 x) (t2 x) = dot (t1 x) (t2 x) -> sqn (vsub (t0 X) (t2 X)) = sqn (vsub (t1 X) (t2 X)) -> p3p x X = []) /\
  exists x X p, dot (t0 x) (t2 x) = dot (t1 x) (t2 x) /\ sqn (vsub (t0 X) (t2 X)) = sqn (vsub (t1 X) (t2 X)) /\
    unit_rays x /\ not_aligned X /\ is_rotation (rotation p) /\ sees p x X 1 1 1.
Proof.
  split.
  - intros x X EB EA. unfold p3p. replace (planes (distances x X)) with (@None (vec * vec)); [reflexivity|]. symmetry.
    unfold planes, gamma. replace (dot (col0 (D2 (distances x X))) _) with 0.
    + unfold divide. destruct (Req_EM_T 0 0); [reflexivity|contradiction].
    + symmetry. unfold distances, D2. cbn [a12 a13 a23 b12 b13 b23]. rewrite EA, EB. generalize (sqn (vsub (t1 X) (t2 X))) (dot (t1 x) (t2 x)). clear. intros a b.
      unfold cofactors, columns, col0, col1, col2. v3unfold. ring.
  - set (x := mkT (mkV (3 / 5) 0 (4 / 5)) (mkV (-3 / 5) 0 (4 / 5)) (mkV 0 (3 / 5) (4 / 5))). exists x, x, identity_pose. unfold x. cbn [t0 t1 t2].
    split; [v3unfold; field|]. split; [v3unfold; field|]. split; [|split; [|split]].
    + unfold unit_rays, is_unit, dot. cbn [t0 t1 t2 vx vy vz]. repeat split; field.
    + unfold not_aligned, cross, vsub, v0. cbn [t0 t1 t2 vx vy vz]. intros E. injection E as E1' E2' E3'. lra.
    + exact (proj1 example_identity).
    + unfold sees, identity_pose. cbn [rotation translation t0 t1 t2]. repeat split; v3ring.
Qed.

(** The refinement of the depths makes Newton steps: as long as the distances are not the ones
    of the points, the depths are moved to the solution of the linearised equations; it stops
    only when they are, or after the number of steps. *)
Theorem C87_refine : forall steps d l1 l2 l3,
  let e1 := q12 d l1 l2 l3 - a12 d in let e2 := q13 d l1 l2 l3 - a13 d in let e3 := q23 d l1 l2 l3 - a23 d in
  let j := (l1 - l2 * b12 d) * (l3 - l1 * b13 d) * (l2 - l3 * b23 d) + (l2 - l1 * b12 d) * (l1 - l3 * b13 d) * (l3 - l2 * b23 d) in
  refine 0 d l1 l2 l3 = Some (l1, l2, l3) /\
  (Rabs e1 + Rabs e2 + Rabs e3 < 1 / 10 ^ 10 -> refine (S steps) d l1 l2 l3 = Some (l1, l2, l3)) /\
  (1 / 10 ^ 10 <= Rabs e1 + Rabs e2 + Rabs e3 -> j = 0 -> refine (S steps) d l1 l2 l3 = None) /\
  (1 / 10 ^ 10 <= Rabs e1 + Rabs e2 + Rabs e3 -> j <> 0 -> exists m1 m2 m3,
    refine (S steps) d l1 l2 l3 = refine steps d m1 m2 m3 /\
    e1 + 2 * (l1 - l2 * b12 d) * (m1 - l1) + 2 * (l2 - l1 * b12 d) * (m2 - l2) = 0 /\
    e2 + 2 * (l1 - l3 * b13 d) * (m1 - l1) + 2 * (l3 - l1 * b13 d) * (m3 - l3) = 0 /\
    e3 + 2 * (l2 - l3 * b23 d) * (m2 - l2) + 2 * (l3 - l2 * b23 d) * (m3 - l3) = 0).
Proof.
  intros n d l1 l2 l3 e1 e2 e3 j. split; [reflexivity|].
  assert (R : refine (S n) d l1 l2 l3 =
    if less (Rabs e1 + Rabs e2 + Rabs e3) (1 / 10 ^ 10) then Some (l1, l2, l3)
    else obind (divide (1 / 2) j) (fun k =>
      refine n d (l1 + (- (l3 - l1 * b13 d) * (l2 - l3 * b23 d) * e1 - (l2 - l1 * b12 d) * (l3 - l2 * b23 d) * e2 + (l2 - l1 * b12 d) * (l3 - l1 * b13 d) * e3) * k)
                 (l2 + (- (l1 - l3 * b13 d) * (l3 - l2 * b23 d) * e1 + (l1 - l2 * b12 d) * (l3 - l2 * b23 d) * e2 - (l1 - l2 * b12 d) * (l3 - l1 * b13 d) * e3) * k)
                 (l3 + ((l1 - l3 * b13 d) * (l2 - l3 * b23 d) * e1 - (l1 - l2 * b12 d) * (l2 - l3 * b23 d) * e2 - (l2 - l1 * b12 d) * (l1 - l3 * b13 d) * e3) * k))) by reflexivity.
  rewrite R. clear R. unfold less. split; [|split].
  - intros H. destruct (Rlt_dec _ _); [reflexivity|contradiction].
  - intros H Z. destruct (Rlt_dec _ _); [lra|]. rewrite Z. unfold divide. destruct (Req_EM_T 0 0); [reflexivity|contradiction].
  - intros H Z. destruct (Rlt_dec _ _); [lra|]. unfold divide. destruct (Req_EM_T j 0); [contradiction|]. cbn [obind].
    do 3 eexists. split; [reflexivity|]. unfold j in *. clear j H. clearbody e1 e2 e3.
    set (x11 := l1 - l2 * b12 d) in *. set (x12 := l2 - l1 * b12 d) in *. set (x21 := l1 - l3 * b13 d) in *.
    set (x23 := l3 - l1 * b13 d) in *. set (x32 := l2 - l3 * b23 d) in *. set (x33 := l3 - l2 * b23 d) in *.
    clearbody x11 x12 x21 x23 x32 x33. repeat split; field; auto.
Qed.

Print Assumptions C87_refine.
Print Assumptions C87_count.
Print Assumptions C87_rays.
Print Assumptions C87_sound.
Print Assumptions C87_complete.
Print Assumptions C87_orthogonal_rays_refuted.
Print Assumptions C87_symmetric_refuted.

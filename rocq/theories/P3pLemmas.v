(** Lemmas on the perspective 3 points solver (C87). *)
From Verif Require Import P3pSpec.
From Coq Require Import Bool List Lia Lra Reals.
Import ListNotations.
From Verif Require Import Vec3.
Local Open Scope R_scope.

Lemma less_iff a b : less a b = true <-> a < b.
Proof. unfold less. destruct (Rlt_dec a b); split; auto; try discriminate; contradiction. Qed.
Lemma less_false a b : less a b = false <-> b <= a.
Proof. unfold less. destruct (Rlt_dec a b); split; auto; try discriminate; lra. Qed.
Lemma divide_some a b r : divide a b = Some r -> b <> 0 /\ r = a / b.
Proof. unfold divide. destruct (Req_EM_T b 0); [discriminate|]. intros [= <-]. auto. Qed.
Lemma divide_ok a b : b <> 0 -> divide a b = Some (a / b).
Proof. intros N. unfold divide. now destruct (Req_EM_T b 0). Qed.
Lemma root_some a r : root a = Some r -> 0 <= a /\ r = sqrt a.
Proof. unfold root. destruct (Rlt_dec a 0); [discriminate|]. intros [= <-]. split; [lra|reflexivity]. Qed.
Lemma root_ok a : 0 <= a -> root a = Some (sqrt a).
Proof. intros N. unfold root. destruct (Rlt_dec a 0); [lra|reflexivity]. Qed.
Lemma obind_some {A B} (o : option A) (f : A -> option B) b : obind o f = Some b -> exists a, o = Some a /\ f a = Some b.
Proof. destruct o as [a|]; [|discriminate]. cbn. eauto. Qed.
Ltac invb H x E := apply obind_some in H as (x & E & H).

(** ** The root of the cubic *)

Lemma cube_pos a b : 0 <= a -> 0 <= b -> a * a * a = b * b * b -> a = b.
Proof.
  intros A B E. destruct (Rtotal_order a b) as [L|[L|L]]; [|exact L|]; exfalso.
  - assert (a * a <= b * b) by nra. assert (a * a * a < b * b * b); [|lra]. apply Rle_lt_trans with (b * b * a); [apply Rmult_le_compat_r; lra|apply Rmult_lt_compat_l; nra].
  - assert (b * b <= a * a) by nra. assert (b * b * b < a * a * a); [|lra]. apply Rle_lt_trans with (a * a * b); [apply Rmult_le_compat_r; lra|apply Rmult_lt_compat_l; nra].
Qed.
Lemma cube_inj a b : a * a * a = b * b * b -> a = b.
Proof.
  intros E. destruct (Rle_dec 0 a) as [A|A]; destruct (Rle_dec 0 b) as [B|B].
  - now apply cube_pos.
  - exfalso. assert (0 <= a * a * a) by (apply Rmult_le_pos; [nra|lra]). assert (0 < (- b) * (- b) * (- b)) by (apply Rmult_lt_0_compat; nra). lra.
  - exfalso. assert (0 <= b * b * b) by (apply Rmult_le_pos; [nra|lra]). assert (0 < (- a) * (- a) * (- a)) by (apply Rmult_lt_0_compat; nra). lra.
  - assert (- a = - b); [|lra]. apply cube_pos; lra.
Qed.
Lemma cbrt_cube a : cbrt a * cbrt a * cbrt a = a.
Proof.
  assert (P : forall x, 0 < x -> Rpower x (/ 3) * Rpower x (/ 3) * Rpower x (/ 3) = x).
  { intros x X. rewrite <- !Rpower_plus. replace (/ 3 + / 3 + / 3) with 1 by field. now apply Rpower_1. }
  unfold cbrt. destruct (Rlt_dec 0 a) as [H|H]; [now apply P|]. destruct (Rlt_dec a 0) as [H'|H'].
  - specialize (P (- a)). lra.
  - lra.
Qed.
(** the value returned is a root *)
Lemma cubic_root_root k2 k1 k0 g : cubic_root k2 k1 k0 = Some g -> g * g * g + k2 * g * g + k1 * g + k0 = 0.
Proof.
  unfold cubic_root. set (a := k1 - k2 * k2 / 3). set (b := (2 * k2 * k2 * k2 - 9 * k2 * k1) / 27 + k0).
  set (c := b * b / 4 + a * a * a / 27). cbv zeta.
  assert (RED : forall t, t * t * t + a * t + b = 0 -> g = t - k2 / 3 -> g * g * g + k2 * g * g + k1 * g + k0 = 0).
  { intros t T ->. rewrite <- T. unfold a, b. field. }
  destruct (Rlt_dec 0 c) as [C|C].
  - intros [= <-]. eapply RED; [|reflexivity].
    set (A := cbrt (b * - (1 / 2) + sqrt c)). set (B := cbrt (b * - (1 / 2) - sqrt c)).
    pose proof (cbrt_cube (b * - (1 / 2) + sqrt c)) as EA. fold A in EA.
    pose proof (cbrt_cube (b * - (1 / 2) - sqrt c)) as EB. fold B in EB.
    assert (S : sqrt c * sqrt c = c) by (apply sqrt_sqrt; lra).
    assert (AB : A * B = - a / 3).
    { apply cube_inj. transitivity ((A * A * A) * (B * B * B)); [ring|]. rewrite EA, EB.
      transitivity (b * b / 4 - sqrt c * sqrt c); [field|]. rewrite S. unfold c. field. }
    transitivity ((A * A * A) + (B * B * B) + 3 * (A * B) * (A + B) + a * (A + B) + b); [ring|].
    rewrite EA, EB, AB. field.
  - intros E. invb E h H. invb E k K. invb E r Rt. invb E m M.
    apply divide_some in H as [NA H]. apply divide_some in K as [NA' K]. apply root_some in Rt as [PK Rt]. apply root_some in M as [PM M].
    destruct (less 1 (Rabs (h * r))) eqn:L; [discriminate|]. injection E as E. rewrite less_false in L.
    eapply RED; [|symmetry; exact E].
    assert (AN : a < 0) by lra.
    assert (M2 : m * m = - a / 3) by (rewrite M; now apply sqrt_sqrt).
    assert (R2 : r * r = (-3) / a) by (rewrite Rt, sqrt_sqrt by exact PK; exact K).
    assert (MP : 0 < m) by (rewrite M; apply sqrt_lt_R0; lra).
    assert (RM : r * m = 1).
    { assert (R0 : 0 <= r) by (rewrite Rt; apply sqrt_pos). assert (X : (r * m) * (r * m) = 1).
      { transitivity ((r * r) * (m * m)); [ring|]. rewrite R2, M2. field. lra. }
      assert (0 <= r * m) by nra. nra. }
    set (th := acos (h * r) / 3).
    assert (C3 : 4 * (cos th * cos th * cos th) - 3 * cos th = h * r).
    { assert (D : cos (3 * th) = h * r).
      { unfold th. replace (3 * (acos (h * r) / 3)) with (acos (h * r)) by field. apply cos_acos. pose proof (Rle_abs (h * r)). pose proof (Rle_abs (- (h * r))) as L'. rewrite Rabs_Ropp in L'. lra. }
      rewrite <- D. replace (3 * th) with (2 * th + th) by ring. rewrite cos_plus, cos_2a, sin_2a.
      pose proof (sin2_cos2 th) as SC. unfold Rsqr in SC.
      replace (sin th * sin th) with (1 - cos th * cos th) by lra. replace (2 * sin th * cos th * sin th) with (2 * cos th * (sin th * sin th)) by ring.
      replace (sin th * sin th) with (1 - cos th * cos th) by lra. ring. }
    transitivity (2 * m * (m * m) * (4 * (cos th * cos th * cos th)) + a * (2 * m * cos th) + b); [ring|].
    replace a with (- 3 * (m * m)) at 1 by lra.
    transitivity (2 * m * (m * m) * (4 * (cos th * cos th * cos th) - 3 * cos th) + b); [ring|].
    rewrite C3. transitivity (2 * (m * m) * h * (r * m) + b); [ring|]. rewrite RM, M2, H. field. lra.
Qed.

(** ** The singular combination *)

Lemma det_expand A B g : msym A -> msym B ->
  det (madd A (mscal g B)) = dot (col0 A) (col0 (cofactors A)) + array_dot B (cofactors A) * g
                           + array_dot A (cofactors B) * (g * g) + dot (col0 B) (col0 (cofactors B)) * (g * g * g).
Proof.
  destruct A as [[A1 A2 A3] [A4 A5 A6] [A7 A8 A9]], B as [[B1 B2 B3] [B4 B5 B6] [B7 B8 B9]]. unfold msym. intros EA EB.
  injection EA as X1 X2 X3 X4 X5 X6. injection EB as Y1 Y2 Y3 Y4 Y5 Y6. subst.
  unfold array_dot, cofactors, columns, col0, col1, col2. v3unfold. ring.
Qed.
Lemma D1_sym d : msym (D1 d).
Proof. reflexivity. Qed.
Lemma D2_sym d : msym (D2 d).
Proof. reflexivity. Qed.
Lemma gamma_singular d g : gamma d = Some g -> det (madd (D1 d) (mscal g (D2 d))) = 0.
Proof.
  unfold gamma. cbv zeta. intros E. rewrite det_expand by (apply D1_sym || apply D2_sym).
  set (d3 := dot (col0 (D2 d)) _) in *. set (d2 := array_dot (D1 d) _) in *. set (d1 := array_dot (D2 d) _) in *. set (d0 := dot (col0 (D1 d)) _) in *.
  clearbody d0 d1 d2 d3.
  invb E inv EI. invb E g0 EG. invb E st ES. apply cubic_root_root in EG as Z. apply divide_some in ES as [DF ES].
  rewrite Z in ES. injection E as E. assert (st = 0) by (rewrite ES; unfold Rdiv; ring).
  assert (g = g0) as -> by lra. apply divide_some in EI as [N EI].
  replace (d0 + d1 * g0 + d2 * (g0 * g0) + d3 * (g0 * g0 * g0)) with (d3 * (g0 * g0 * g0 + d2 * inv * g0 * g0 + d1 * inv * g0 + d0 * inv)); [rewrite Z; ring|].
  rewrite EI. field. exact N.
Qed.

(** ** The eigenvectors *)

Lemma eigenvector_ok m sig v : msym m -> det (msub m (mscal sig mid)) = 0 -> eigenvector m sig = Some v ->
  is_unit v /\ mvmul m v = vscal sig v.
Proof.
  destruct m as [[m00 m01 m02] [m10 m11 m12] [m20 m21 m22]]. unfold msym. intros S. injection S as X1 X2 X3 X4 X5 X6. subst.
  unfold eigenvector, e00, e01, e02, e11, e12. cbn [vx vy vz r0 r1 r2]. intros D E.
  set (c := sig * sig + m00 * m11 - sig * (m00 + m11) - m01 * m01) in *.
  invb E a1 EA. invb E a2 EB. apply divide_some in EA as [N EA]. apply divide_some in EB as [_ EB].
  set (n := 1 / sqrt (1 + a1 * a1 + a2 * a2)) in *. cbv zeta in E. injection E as <-.
  assert (P : 0 < 1 + a1 * a1 + a2 * a2) by nra.
  assert (N2 : n * n * (1 + a1 * a1 + a2 * a2) = 1).
  { unfold n. assert (Q : sqrt (1 + a1 * a1 + a2 * a2) * sqrt (1 + a1 * a1 + a2 * a2) = 1 + a1 * a1 + a2 * a2) by (apply sqrt_sqrt; lra).
    rewrite <- Q at 3. field. intros Z. rewrite Z in Q. lra. }
  split.
  - unfold is_unit, dot. cbn [vx vy vz]. rewrite <- N2. ring.
  - assert (Q1 : c * a1 = sig * m02 + m01 * m12 - m02 * m11) by (rewrite EA; field; exact N).
    assert (Q2 : c * a2 = sig * m12 + m01 * m02 - m00 * m12) by (rewrite EB; field; exact N).
    assert (K1 : m00 * a1 + m01 * a2 + m02 = sig * a1).
    { apply (Rmult_eq_reg_l c); [|exact N]. transitivity (m00 * (c * a1) + m01 * (c * a2) + c * m02); [ring|].
      transitivity (sig * (c * a1)); [|ring]. rewrite Q1, Q2. unfold c. ring. }
    assert (K2 : m01 * a1 + m11 * a2 + m12 = sig * a2).
    { apply (Rmult_eq_reg_l c); [|exact N]. transitivity (m01 * (c * a1) + m11 * (c * a2) + c * m12); [ring|].
      transitivity (sig * (c * a2)); [|ring]. rewrite Q1, Q2. unfold c. ring. }
    assert (K3 : m02 * a1 + m12 * a2 + m22 = sig).
    { apply (Rmult_eq_reg_l c); [|exact N]. transitivity (m02 * (c * a1) + m12 * (c * a2) + c * m22); [ring|].
      rewrite Q1, Q2. assert (D' : c * m22 = c * sig - (m02 * (sig * m02 + m01 * m12 - m02 * m11) + m12 * (sig * m12 + m01 * m02 - m00 * m12))).
      { v3unfold. cbn [vx vy vz r0 r1 r2] in D. unfold c. lra. }
      rewrite D'. ring. }
    unfold mvmul, dot, vscal. cbn [vx vy vz r0 r1 r2]. f_equal.
    + transitivity (n * (m00 * a1 + m01 * a2 + m02)); [ring|]. rewrite K1. ring.
    + transitivity (n * (m01 * a1 + m11 * a2 + m12)); [ring|]. rewrite K2. ring.
    + transitivity (n * (m02 * a1 + m12 * a2 + m22)); [ring|]. rewrite K3. ring.
Qed.
Lemma sqrt_square_id a : 0 <= a -> sqrt (a * a) = a.
Proof. intros. now apply sqrt_square. Qed.

(** ** Matrices *)

Definition adj (m : mat) : mat := mT (mkM3 (cross (r1 m) (r2 m)) (cross (r2 m) (r0 m)) (cross (r0 m) (r1 m))).
Lemma adj_l m : mmul (adj m) m = mscal (det m) mid.
Proof. unfold adj. v3ring. Qed.
Lemma adj_r m : mmul m (adj m) = mscal (det m) mid.
Proof. unfold adj. v3ring. Qed.
Lemma cross_product_dot a b c d : dot (cross a b) (cross c d) = dot a c * dot b d - dot a d * dot b c.
Proof. v3ring. Qed.
Lemma cross_mvmul m a b : cross (mvmul m a) (mvmul m b) = mvmul (mT (adj m)) (cross a b).
Proof. unfold adj. v3ring. Qed.
Lemma det_cross m : det m = dot (r0 m) (cross (r1 m) (r2 m)).
Proof. reflexivity. Qed.
Lemma det_T m : det (mT m) = det m.
Proof. v3ring. Qed.
Lemma det_mmul a b : det (mmul a b) = det a * det b.
Proof.
  change (det (mmul a b)) with (dot (mvmul (mT b) (r0 a)) (cross (mvmul (mT b) (r1 a)) (mvmul (mT b) (r2 a)))).
  assert (S : forall k v, mvmul (mscal k mid) v = vscal k v) by (clear; intros; v3ring).
  rewrite cross_mvmul, dot_mvmul, mT_mT, <- mvmul_mmul, adj_l, det_T, S, dot_scal_l, (det_cross a). ring.
Qed.
Lemma mscal_inv k m n : k <> 0 -> mscal k m = n -> m = mscal (/ k) n.
Proof. intros K <-. destruct m as [[m00 m01 m02] [m10 m11 m12] [m20 m21 m22]]. unfold mscal, vscal. cbn [r0 r1 r2 vx vy vz]. f_equal; f_equal; field; exact K. Qed.
Lemma mmul_scal_l k a b : mmul (mscal k a) b = mscal k (mmul a b).
Proof. v3ring. Qed.
Lemma mscal_mid_l k a : mmul (mscal k mid) a = mscal k a.
Proof. v3ring. Qed.
Lemma mscal_mid_r k a : mmul a (mscal k mid) = mscal k a.
Proof. v3ring. Qed.
Lemma det_mid : det mid = 1.
Proof. v3ring. Qed.
Lemma left_inverse a b : mmul a b = mid -> mmul b a = mid.
Proof.
  intros E. assert (D : det a * det b = 1) by (rewrite <- det_mmul, E; apply det_mid).
  assert (N : det a <> 0) by (intros Z; rewrite Z in D; lra).
  assert (B : mscal (det a) b = adj a).
  { rewrite <- mscal_mid_l, <- adj_l, <- mmul_assoc, E. apply mmul_id_r. }
  apply mscal_inv in B; [|exact N]. rewrite B, mmul_scal_l, adj_l.
  unfold mscal, vscal, mid. cbn [r0 r1 r2 vx vy vz]. f_equal; f_equal; field; exact N.
Qed.
Lemma rotation_cross r a b : is_rotation r -> mvmul r (cross a b) = cross (mvmul r a) (mvmul r b).
Proof.
  intros [[O1 O2] D]. rewrite cross_mvmul. f_equal.
  assert (A : adj r = mT r).
  { transitivity (mmul (adj r) (mmul r (mT r))); [rewrite O1; symmetry; apply mmul_id_r|]. rewrite mmul_assoc, adj_l, D, mscal_mid_l.
    destruct r as [[m00 m01 m02] [m10 m11 m12] [m20 m21 m22]]. unfold mscal, vscal, mT. cbn [r0 r1 r2 vx vy vz]. f_equal; f_equal; ring. }
  rewrite A. symmetry. apply mT_mT.
Qed.
Lemma inverse3_ok m n : inverse3 m = Some n -> mmul n m = mid /\ mmul m n = mid.
Proof.
  unfold inverse3. intros E. invb E k K. apply divide_some in K as [N K]. injection E as <-.
  assert (X : mmul (mscal k (mkM3 (cross (col1 m) (col2 m)) (cross (col2 m) (col0 m)) (cross (col0 m) (col1 m)))) m = mid).
  { rewrite mmul_scal_l. replace (mmul _ m) with (mscal (det m) mid).
    - rewrite K. unfold mscal, vscal, mid. cbn [r0 r1 r2 vx vy vz]. f_equal; f_equal; field; exact N.
    - unfold col0, col1, col2. clear. v3ring. }
  split; [exact X|]. now apply left_inverse.
Qed.
Lemma inverse3_exists m : det m <> 0 -> exists n, inverse3 m = Some n.
Proof. intros N. unfold inverse3. rewrite divide_ok by exact N. eexists. reflexivity. Qed.
Lemma det_frame v w : det (frame_of v w) = sqn (cross v w).
Proof. unfold frame_of, columns. v3ring. Qed.
Lemma frame_gram v w : mmul (mT (frame_of v w)) (frame_of v w) =
  mkM3 (mkV (dot v v) (dot v w) 0) (mkV (dot v w) (dot w w) 0) (mkV 0 0 (dot v v * dot w w - dot v w * dot v w)).
Proof. unfold frame_of, columns. v3ring. Qed.
Lemma frame_columns v w : mvmul (frame_of v w) (mkV 1 0 0) = v /\ mvmul (frame_of v w) (mkV 0 1 0) = w.
Proof. unfold frame_of, columns. split; v3ring. Qed.
Lemma mmul_frame m v w : is_rotation m -> mmul m (frame_of v w) = frame_of (mvmul m v) (mvmul m w).
Proof.
  intros R. unfold frame_of. rewrite <- (rotation_cross _ _ _ R). unfold columns. generalize (cross v w). clear. v3ring.
Qed.

(** ** The poses *)

(** the pose computed from depths puts the points on the rays *)
Lemma pose_sees x X l1 l2 l3 p : pose_of x X l1 l2 l3 = Some p ->
  exists m1 m2 m3 XX, refine 5 (distances x X) l1 l2 l3 = Some (m1, m2, m3) /\ sees p x X m1 m2 m3 /\
    inverse_frame X = Some XX /\
      rotation p = mmul (frame_of (vsub (vscal m1 (t0 x)) (vscal m2 (t1 x))) (vsub (vscal m1 (t0 x)) (vscal m3 (t2 x)))) XX.
Proof.
  unfold pose_of. intros E. invb E l EL. invb E XX EX. destruct l as [[m1 m2] m3]. cbv zeta in E. injection E as E.
  exists m1, m2, m3, XX. split; [exact EL|]. unfold inverse_frame in EX. apply inverse3_ok in EX as I. destruct I as [I1 I2].
  set (v1 := vsub (vscal m1 (t0 x)) (vscal m2 (t1 x))) in *. set (v2 := vsub (vscal m1 (t0 x)) (vscal m3 (t2 x))) in *.
  set (d1 := vsub (t0 X) (t1 X)) in *. set (d2 := vsub (t0 X) (t2 X)) in *.
  assert (R1 : mvmul (mmul (frame_of v1 v2) XX) d1 = v1).
  { rewrite mvmul_mmul. destruct (frame_columns d1 d2) as [C _]. rewrite <- C, <- (mvmul_mmul XX), I1, mvmul_id. apply frame_columns. }
  assert (R2 : mvmul (mmul (frame_of v1 v2) XX) d2 = v2).
  { rewrite mvmul_mmul. destruct (frame_columns d1 d2) as [_ C]. rewrite <- C, <- (mvmul_mmul XX), I1, mvmul_id. apply frame_columns. }
  split.
  - subst p. unfold sees. cbn [rotation translation]. set (R := mmul (frame_of v1 v2) XX) in *. clearbody R. split; [|split].
    + generalize (mvmul R (t0 X)) (vscal m1 (t0 x)). clear. v3ring.
    + assert (K : mvmul R (t1 X) = vsub (mvmul R (t0 X)) v1) by (rewrite <- R1; unfold d1; rewrite mvmul_sub; generalize (mvmul R (t0 X)) (mvmul R (t1 X)); clear; v3ring).
      rewrite K. unfold v1. generalize (mvmul R (t0 X)) (vscal m1 (t0 x)) (vscal m2 (t1 x)). clear. v3ring.
    + assert (K : mvmul R (t2 X) = vsub (mvmul R (t0 X)) v2) by (rewrite <- R2; unfold d2; rewrite mvmul_sub; generalize (mvmul R (t0 X)) (mvmul R (t2 X)); clear; v3ring).
      rewrite K. unfold v2. generalize (mvmul R (t0 X)) (vscal m1 (t0 x)) (vscal m3 (t2 x)). clear. v3ring.
  - split; [exact EX|]. subst p. reflexivity.
Qed.
(** the distances of points on the rays *)
Definition q12 (d : dists) (l1 l2 l3 : R) : R := l1 * l1 - 2 * l1 * l2 * b12 d + l2 * l2.
Definition q13 (d : dists) (l1 l2 l3 : R) : R := l1 * l1 - 2 * l1 * l3 * b13 d + l3 * l3.
Definition q23 (d : dists) (l1 l2 l3 : R) : R := l2 * l2 - 2 * l2 * l3 * b23 d + l3 * l3.
Definition exact (d : dists) (l1 l2 l3 : R) : Prop := q12 d l1 l2 l3 = a12 d /\ q13 d l1 l2 l3 = a13 d /\ q23 d l1 l2 l3 = a23 d.
Lemma exact_refine d l1 l2 l3 : exact d l1 l2 l3 -> refine (S 4) d l1 l2 l3 = Some (l1, l2, l3).
Proof.
  intros [A [B C]]. unfold q12, q13, q23 in *. generalize 4%nat as n. intros n. cbn [refine]. cbv zeta.
  replace (l1 * l1 - 2 * l1 * l2 * b12 d + l2 * l2 - a12 d) with 0 by lra.
  replace (l1 * l1 - 2 * l1 * l3 * b13 d + l3 * l3 - a13 d) with 0 by lra.
  replace (l2 * l2 - 2 * l2 * l3 * b23 d + l3 * l3 - a23 d) with 0 by lra.
  rewrite Rabs_R0. assert (L : less (0 + 0 + 0) (1 / 10 ^ 10) = true).
  { apply less_iff. assert (0 < 10 ^ 10) by (apply pow_lt; lra). replace (0 + 0 + 0) with 0 by ring. apply Rdiv_lt_0_compat; lra. }
  now rewrite L.
Qed.
Lemma ray_distance a b l m : is_unit a -> is_unit b -> sqn (vsub (vscal l a) (vscal m b)) = l * l - 2 * l * m * dot a b + m * m.
Proof.
  unfold is_unit. intros A B. unfold sqn. rewrite dot_sub_l, !dot_sub_r, !dot_scal_l, !dot_scal_r, A, B, (dot_comm b a). ring.
Qed.
Lemma polar v w : dot v w = (sqn v + sqn w - sqn (vsub v w)) / 2.
Proof. unfold sqn. rewrite dot_sub_l, !dot_sub_r, (dot_comm w v). field. Qed.
(** frames with the same lengths and angles differ by a rotation *)
Lemma gram_rotation v1 v2 w1 w2 XX : inverse3 (frame_of w1 w2) = Some XX ->
  dot v1 v1 = dot w1 w1 -> dot v2 v2 = dot w2 w2 -> dot v1 v2 = dot w1 w2 -> is_rotation (mmul (frame_of v1 v2) XX).
Proof.
  intros EI G1 G2 G3. apply inverse3_ok in EI as [I1 I2].
  assert (GR : mmul (mT (frame_of v1 v2)) (frame_of v1 v2) = mmul (mT (frame_of w1 w2)) (frame_of w1 w2)) by (rewrite !frame_gram, G1, G2, G3; reflexivity).
  assert (DX : det (frame_of w1 w2) * det XX = 1) by (rewrite <- det_mmul, I2; apply det_mid).
  assert (DV : det (frame_of v1 v2) = det (frame_of w1 w2)).
  { rewrite !det_frame. unfold sqn. rewrite !cross_product_dot, G1, G2, G3, (dot_comm v2 v1), G3, (dot_comm w2 w1). reflexivity. }
  clear G1 G2 G3. revert I1 I2 GR DX DV. generalize (frame_of v1 v2) (frame_of w1 w2). clear. intros V W I1 I2 GR DX DV.
  assert (O : mmul (mT (mmul V XX)) (mmul V XX) = mid).
  { rewrite mT_mmul. rewrite <- mmul_assoc, (mmul_assoc (mT V)), GR, <- (mmul_assoc (mT W)), I2, mmul_id_r, <- mT_mmul, I2. reflexivity. }
  split; [split; [now apply left_inverse|exact O]|]. rewrite det_mmul, DV. exact DX.
Qed.
Lemma neg_sqn a : sqn (vneg a) = sqn a.
Proof. v3ring. Qed.
Lemma sub_triangle a b c : vsub (vsub a b) (vsub a c) = vneg (vsub b c).
Proof. v3ring. Qed.
Lemma exact_gram x X l1 l2 l3 : unit_rays x -> exact (distances x X) l1 l2 l3 ->
  let v1 := vsub (vscal l1 (t0 x)) (vscal l2 (t1 x)) in let v2 := vsub (vscal l1 (t0 x)) (vscal l3 (t2 x)) in
  let w1 := vsub (t0 X) (t1 X) in let w2 := vsub (t0 X) (t2 X) in
  dot v1 v1 = dot w1 w1 /\ dot v2 v2 = dot w2 w2 /\ dot v1 v2 = dot w1 w2.
Proof.
  intros (U0 & U1 & U2) (A & B & C) v1 v2 w1 w2. unfold q12, q13, q23, distances in A, B, C. cbn [a12 a13 a23 b12 b13 b23] in A, B, C.
  rewrite <- ray_distance in A, B, C by assumption. 
  fold v1 w1 in A. fold v2 w2 in B. split; [exact A|]. split; [exact B|].
  rewrite !polar, A, B. unfold v1, v2, w1, w2. rewrite !sub_triangle, !neg_sqn, C. reflexivity.
Qed.
(** with the exact depths, the matrix is a rotation *)
Lemma exact_rotation x X l1 l2 l3 p : unit_rays x -> exact (distances x X) l1 l2 l3 -> pose_of x X l1 l2 l3 = Some p ->
  is_rotation (rotation p) /\ sees p x X l1 l2 l3.
Proof.
  intros U EX E. destruct (pose_sees _ _ _ _ _ _ E) as (m1 & m2 & m3 & XX & RF & S & EI & RO).
  pose proof (exact_refine _ _ _ _ EX) as RF'. rewrite RF in RF'. clear RF. injection RF' as -> -> ->. split; [|exact S].
  rewrite RO. destruct (exact_gram _ _ _ _ _ U EX) as (G1 & G2 & G3). now apply (gram_rotation _ _ _ _ _ EI).
Qed.

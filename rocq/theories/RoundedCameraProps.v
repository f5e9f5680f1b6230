(** C126: the rounding of the machine in the changes of coordinates. *)
From Coq Require Import Reals ZArith Lra Lia Psatz.
From Flocq Require Import Core Relative.
From Verif Require Import RoundedCameraModel RoundedCameraSpec.
Local Open Scope R_scope.

Definition u : R := / 2 ^ 53.
Definition eta : R := / 2 ^ 200.
Lemma u_value : u = / 9007199254740992. Proof. unfold u. f_equal. simpl. ring. Qed.
Lemma u_pos : 0 < u. Proof. rewrite u_value. lra. Qed.
Lemma rnd_error x : Rabs (rnd x - x) <= u * Rabs x + eta.
Proof.
  destruct (error_N_FLT radix2 (-1074) 53 ltac:(lia) (fun t => negb (Z.even t)) x) as (e & h & E & H & _ & Q).
  unfold rnd, RoundedGridModel.rounded. rewrite Q.
  replace (x * (1 + e) + h - x) with (x * e + h) by ring.
  eapply Rle_trans; [apply Rabs_triang|]. rewrite Rabs_mult. apply Rplus_le_compat.
  - rewrite Rmult_comm. apply Rmult_le_compat_r; [apply Rabs_pos|]. eapply Rle_trans; [exact E|].
    change (bpow radix2 (- (53) + 1)) with (/ IZR (2 ^ 52)). unfold u. right.
    change (IZR (2 ^ 52)) with 4503599627370496. lra.
  - eapply Rle_trans; [exact H|]. unfold eta.
    apply Rle_trans with (bpow radix2 (-200)).
    + apply Rle_trans with (bpow radix2 (-1074)); [|apply bpow_le; lia]. pose proof (bpow_gt_0 radix2 (-1074)). lra.
    + change (-200)%Z with (Z.opp (Z.of_nat 200)). rewrite bpow_opp, <- IZR_Zpower by lia. rewrite (pow_IZR 2 200). apply Rle_refl.
Qed.
Lemma rnd_id x : a_double x -> rnd x = x.
Proof. intros D. apply round_generic; [apply valid_rnd_N|exact D]. Qed.
Lemma rnd_0 : rnd 0 = 0.
Proof. apply rnd_id, generic_format_0. Qed.
Lemma rnd_opp x : rnd (- x) = - rnd x.
Proof. apply round_NE_opp. Qed.
Lemma rnd_idem x : a_double (rnd x).
Proof. apply generic_format_round; [apply FLT_exp_valid; red; lia|apply valid_rnd_N]. Qed.
Lemma double_opp x : a_double x -> a_double (- x).
Proof. apply generic_format_opp. Qed.

(** [x] is [X] up to [k] roundings of a number of size [W] *)
Definition close (k x X W : R) : Prop := Rabs (x - X) <= k * u * W /\ Rabs X <= W /\ 0 <= k <= 1000000000.
Lemma small k : 0 <= k <= 1000000000 -> k * u <= / 9000000.
Proof. rewrite u_value. intros. lra. Qed.
Lemma close_exact X : close 0 X X (Rabs X).
Proof. unfold close. rewrite Rminus_diag_eq, Rabs_R0 by reflexivity. pose proof (Rabs_pos X). repeat split; lra. Qed.
Lemma close_wider k x X W V : close k x X W -> W <= V -> close k x X V.
Proof. intros (A & B & K) L. repeat split; try lra. eapply Rle_trans; [exact A|]. apply Rmult_le_compat_l; [|exact L]. pose proof u_pos. nra. Qed.
Lemma close_more k l x X W : close k x X W -> k <= l <= 1000000000 -> close l x X W.
Proof.
  intros (A & B & K) L. repeat split; try lra. eapply Rle_trans; [exact A|]. pose proof u_pos. pose proof (Rabs_pos X).
  apply Rmult_le_compat_r; [lra|]. apply Rmult_le_compat_r; lra.
Qed.
Lemma close_scale k x X W V : close k x X W -> Rabs X <= V -> 0 < V -> k * (W / V) <= 1000000000 -> close (k * (W / V)) x X V.
Proof.
  intros (A & B & K) L P M. pose proof (Rabs_pos X). repeat split; auto.
  - replace (k * (W / V) * u * V) with (k * u * W) by (field; lra). exact A.
  - apply Rmult_le_pos; [lra|]. apply Rmult_le_pos; [lra|]. left. now apply Rinv_0_lt_compat.
Qed.
Lemma eta_small W : / 2 ^ 100 <= W -> eta <= u * W / 2.
Proof.
  intros H. apply Rle_trans with (u * (/ 2 ^ 100) / 2); [|pose proof u_pos; nra].
  unfold eta, u. rewrite <- Rinv_mult, <- pow_add. unfold Rdiv. rewrite <- (pow_1 2) at 3. rewrite <- Rinv_mult, <- pow_add.
  apply Rinv_le_contravar; [apply pow_lt; lra|]. apply Rle_pow; [lra|]. lia.
Qed.
Lemma close_rnd k x X W : close k x X W -> / 2 ^ 100 <= W -> k + 2 <= 1000000000 -> close (k + 2) (rnd x) X W.
Proof.
  intros (A & B & K) M L. repeat split; try lra. pose proof (rnd_error x) as E. pose proof (eta_small W M) as T. pose proof u_pos as U. pose proof (small k K) as S.
  pose proof (Rabs_pos X). assert (X1 : Rabs x <= Rabs X + k * u * W).
  { replace x with (X + (x - X)) by ring. eapply Rle_trans; [apply Rabs_triang|]. lra. }
  replace (rnd x - X) with ((rnd x - x) + (x - X)) by ring. eapply Rle_trans; [apply Rabs_triang|].
  assert (Y : Rabs x <= 5 / 4 * W) by nra. nra.
Qed.
Lemma close_add k l x y X Y W V : close k x X W -> close l y Y V -> close (Rmax k l) (x + y) (X + Y) (W + V).
Proof.
  intros A B. assert (K := proj2 (proj2 A)). assert (L := proj2 (proj2 B)).
  assert (M : 0 <= Rmax k l <= 1000000000) by (split; [apply Rle_trans with k; [lra|apply Rmax_l]|apply Rmax_lub; lra]).
  apply (close_more _ (Rmax k l)) in A; [|split; [apply Rmax_l|lra]]. apply (close_more _ (Rmax k l)) in B; [|split; [apply Rmax_r|lra]].
  destruct A as (A & A' & _), B as (B & B' & _). repeat split; try lra.
  - replace (x + y - (X + Y)) with ((x - X) + (y - Y)) by ring. eapply Rle_trans; [apply Rabs_triang|]. lra.
  - eapply Rle_trans; [apply Rabs_triang|]. lra.
Qed.
Lemma close_opp k x X W : close k x X W -> close k (- x) (- X) W.
Proof. intros (A & B & K). repeat split; try lra; [|now rewrite Rabs_Ropp]. replace (- x - - X) with (- (x - X)) by ring. now rewrite Rabs_Ropp. Qed.
Lemma close_mul k l x y X Y W V : close k x X W -> close l y Y V -> k + l + 1 <= 1000000000 -> k * l * u <= 1 -> close (k + l + 1) (x * y) (X * Y) (W * V).
Proof.
  intros (A & A' & K) (B & B' & L) M N. pose proof u_pos as U. pose proof (Rabs_pos X). pose proof (Rabs_pos Y). repeat split; try lra.
  - replace (x * y - X * Y) with ((x - X) * (y - Y) + (x - X) * Y + X * (y - Y)) by ring.
    eapply Rle_trans; [apply Rabs_triang|]. eapply Rle_trans; [apply Rplus_le_compat_r, Rabs_triang|]. rewrite !Rabs_mult.
    assert (P1 : Rabs (x - X) * Rabs (y - Y) <= (k * u * W) * (l * u * V)) by (apply Rmult_le_compat; auto; apply Rabs_pos).
    assert (P2 : Rabs (x - X) * Rabs Y <= (k * u * W) * V) by (apply Rmult_le_compat; auto; apply Rabs_pos).
    assert (P3 : Rabs X * Rabs (y - Y) <= W * (l * u * V)) by (apply Rmult_le_compat; auto; apply Rabs_pos).
    assert (WV : 0 <= W * V) by (apply Rmult_le_pos; lra).
    assert (P4 : (k * u * W) * (l * u * V) <= u * (W * V)).
    { replace (k * u * W * (l * u * V)) with (k * l * u * (u * (W * V))) by ring. rewrite <- (Rmult_1_l (u * (W * V))) at 2. apply Rmult_le_compat_r; [apply Rmult_le_pos; lra|exact N]. }
    lra.
  - rewrite Rabs_mult. apply Rmult_le_compat; auto.
Qed.
Lemma close_times k x X W a : close k x X W -> close k (a * x) (a * X) (Rabs a * W).
Proof.
  intros (A & B & K). repeat split; try lra.
  - replace (a * x - a * X) with (a * (x - X)) by ring. rewrite Rabs_mult. pose proof (Rabs_pos a).
    replace (k * u * (Rabs a * W)) with (Rabs a * (k * u * W)) by ring. now apply Rmult_le_compat_l.
  - rewrite Rabs_mult. apply Rmult_le_compat_l; [apply Rabs_pos|exact B].
Qed.
Lemma close_inv k x X : close k x X X -> 0 < X -> 2 * k + 1 <= 1000000000 -> close (2 * k + 1) (1 / x) (1 / X) (1 / X).
Proof.
  intros (A & _ & K) P M. pose proof u_pos as U. pose proof (small k K) as S.
  assert (x_low : X / 2 <= x).
  { apply Rabs_le_inv in A. nra. }
  assert (Q : 0 < 1 / X) by (unfold Rdiv; rewrite Rmult_1_l; now apply Rinv_0_lt_compat).
  repeat split; try lra; [|rewrite Rabs_pos_eq; lra].
  replace (1 / x - 1 / X) with ((X - x) * (1 / (x * X))) by (field; lra). rewrite Rabs_mult, Rabs_minus_sym.
  assert (D : Rabs (1 / (x * X)) <= 2 / (X * X)).
  { rewrite Rabs_pos_eq; [|unfold Rdiv; rewrite Rmult_1_l; left; apply Rinv_0_lt_compat; nra].
    replace (2 / (X * X)) with (/ (X / 2 * X)) by (field; lra). replace (1 / (x * X)) with (/ (x * X)) by (field; nra). apply Rinv_le_contravar; nra. }
  eapply Rle_trans; [apply Rmult_le_compat; [apply Rabs_pos|apply Rabs_pos|exact A|exact D]|].
  replace (k * u * X * (2 / (X * X))) with (2 * k * u * (1 / X)) by (field; lra). nra.
Qed.

(** ** The inverse of the intrinsics *)
Lemma rmul_0_l x : rmul 0 x = 0. Proof. unfold rmul. rewrite Rmult_0_l. apply rnd_0. Qed.
Lemma rmul_0_r x : rmul x 0 = 0. Proof. unfold rmul. rewrite Rmult_0_r. apply rnd_0. Qed.
Lemma rmul_1_r x : a_double x -> rmul x 1 = x. Proof. unfold rmul. rewrite Rmult_1_r. apply rnd_id. Qed.
Lemma rmul_1_l x : a_double x -> rmul 1 x = x. Proof. unfold rmul. rewrite Rmult_1_l. apply rnd_id. Qed.
Lemma radd_0_l x : a_double x -> radd 0 x = x. Proof. unfold radd. rewrite Rplus_0_l. apply rnd_id. Qed.
Lemma radd_0_r x : a_double x -> radd x 0 = x. Proof. unfold radd. rewrite Rplus_0_r. apply rnd_id. Qed.
Lemma rsub_0_r x : a_double x -> rsub x 0 = x. Proof. unfold rsub. rewrite Rminus_0_r. apply rnd_id. Qed.
Lemma rsub_0_l x : a_double x -> rsub 0 x = - x. Proof. unfold rsub. rewrite Rminus_0_l. intros. now apply rnd_id, double_opp. Qed.
Lemma double_0 : a_double 0. Proof. apply generic_format_0. Qed.
Lemma double_rmul a b : a_double (rmul a b). Proof. apply rnd_idem. Qed.
Lemma double_radd a b : a_double (radd a b). Proof. apply rnd_idem. Qed.
#[local] Hint Resolve double_0 double_rmul double_radd double_opp : dbl.
Definition inv_det (fx fy : R) : R := rdiv 1 (rmul fy fx).
Lemma rinverse_value fx fy cx cy : usual_camera fx fy cx cy ->
  r0 (rinverse (intrinsics fx fy cx cy)) = mkV (rmul fy (inv_det fx fy)) 0 (rmul (- rmul cx fy) (inv_det fx fy)) /\
  r1 (rinverse (intrinsics fx fy cx cy)) = mkV 0 (rmul fx (inv_det fx fy)) (rmul (- rmul fx cy) (inv_det fx fy)).
Proof.
  intros ((Dx & Dy & Dcx & Dcy) & _). unfold rinverse, determinant, cofactor, rdot, entry, intrinsics. cbn [next nth3 vx vy vz r0 r1 r2].
  rewrite ?rmul_0_l, ?rmul_0_r, ?(rmul_1_r fy), ?(rmul_1_r fx), ?(rmul_1_l fx), ?(rmul_1_l fy), ?(rsub_0_r fy), ?(rsub_0_r fx), ?rsub_0_l, ?(rsub_0_r 0) by auto with dbl.
  rewrite ?Ropp_0, ?rmul_0_l, ?rmul_0_r, ?radd_0_r by auto with dbl. split; reflexivity.
Qed.
Lemma Rabs_pos' x : 0 <= x -> Rabs x = x. Proof. apply Rabs_pos_eq. Qed.
Lemma tiny_100 : / 2 ^ 100 <= / 1000000000000000000000000.
Proof. apply Rinv_le_contravar; [lra|]. rewrite (pow_IZR 2 100). apply IZR_le. vm_compute. discriminate. Qed.
Lemma above_tiny W : / 1000000000000000000000000 <= W -> / 2 ^ 100 <= W.
Proof. pose proof tiny_100. lra. Qed.
(** One row: [f] the focal distance of the axis, [g] the other one, [det] their product *)
Lemma row_close f g c det v z : 100 <= f <= 10000 -> 100 <= g <= 10000 -> 1 <= c <= 10000 -> 0 <= v <= 10000 -> 1 <= z <= 100000 ->
  det = f * g ->
  close 16 (rmul z (radd (rmul (rmul g (rdiv 1 (rnd det))) v) (rmul (- rmul c g) (rdiv 1 (rnd det))))) (at_depth f c z v) (z * ((v + 2 * c) / f)).
Proof.
  intros F G C V Z ->. set (id := rdiv 1 (rnd (f * g))).
  assert (Fp : 0 < / f) by (apply Rinv_0_lt_compat; lra).
  assert (Fl : / 10000 <= / f) by (apply Rinv_le_contravar; lra).
  assert (Gp : 0 < / g) by (apply Rinv_0_lt_compat; lra).
  assert (Gl : / 10000 <= / g) by (apply Rinv_le_contravar; lra).
  assert (Fh : / f <= / 100) by (apply Rinv_le_contravar; lra).
  assert (D0 : close 2 (rnd (f * g)) (f * g) (f * g)).
  { replace 2 with (0 + 2) by ring. apply close_rnd; [|apply above_tiny; nra|lra].
    apply close_wider with (Rabs (f * g)); [apply close_exact|]. rewrite Rabs_pos'; nra. }
  assert (I0 : close 7 id (1 / (f * g)) (1 / (f * g))).
  { unfold id, rdiv. replace 7 with (2 * 2 + 1 + 2) by ring. apply close_rnd; [|apply above_tiny|lra].
    - apply close_inv; [exact D0|nra|lra].
    - replace (1 / (f * g)) with (/ f * / g) by (field; lra). nra. }
  assert (A0 : close 9 (rmul g id) (/ f) (/ f)).
  { unfold rmul. replace 9 with (7 + 2) by ring. apply close_rnd; [|apply above_tiny; lra|lra].
    apply (close_times _ _ _ _ g) in I0. rewrite (Rabs_pos' g) in I0 by lra. replace (g * (1 / (f * g))) with (/ f) in I0 by (field; lra). exact I0. }
  assert (B1 : close 2 (- rmul c g) (- (c * g)) (c * g)).
  { apply close_opp. unfold rmul. replace 2 with (0 + 2) by ring. apply close_rnd; [|apply above_tiny; nra|lra].
    apply close_wider with (Rabs (c * g)); [apply close_exact|]. rewrite Rabs_pos'; nra. }
  assert (B0 : close 12 (rmul (- rmul c g) id) (- (c / f)) (c / f)).
  { unfold rmul at 1. replace 12 with (2 + 7 + 1 + 2) by ring. apply close_rnd; [|apply above_tiny; unfold Rdiv; nra|lra].
    pose proof (close_mul _ _ _ _ _ _ _ _ B1 I0 ltac:(lra) ltac:(rewrite u_value; lra)) as M.
    replace (- (c * g) * (1 / (f * g))) with (- (c / f)) in M by (field; lra). replace (c * g * (1 / (f * g))) with (c / f) in M by (field; lra). exact M. }
  assert (H1 : close 11 (rmul (rmul g id) v) (v / f) ((v + c) / f)).
  { unfold rmul at 1. replace 11 with (9 + 2) by ring. apply close_rnd; [|apply above_tiny; unfold Rdiv; nra|lra].
    apply (close_times _ _ _ _ v) in A0. rewrite (Rabs_pos' v) in A0 by lra. rewrite (Rmult_comm (rmul g id) v).
    apply close_wider with (v * / f); [exact A0|]. unfold Rdiv. nra. }
  assert (H0 : close 14 (radd (rmul (rmul g id) v) (rmul (- rmul c g) id)) ((v - c) / f) ((v + 2 * c) / f)).
  { unfold radd. replace 14 with (12 + 2) by ring. apply close_rnd; [|apply above_tiny; unfold Rdiv; nra|lra].
    pose proof (close_add _ _ _ _ _ _ _ _ H1 B0) as M. rewrite Rmax_right in M by lra.
    replace (v / f + - (c / f)) with ((v - c) / f) in M by (field; lra). replace ((v + c) / f + c / f) with ((v + 2 * c) / f) in M by (field; lra). exact M. }
  unfold rmul at 1. replace 16 with (14 + 2) by ring. apply close_rnd; [|apply above_tiny|lra].
  - apply (close_times _ _ _ _ z) in H0. rewrite (Rabs_pos' z) in H0 by lra. exact H0.
  - assert (/ 10000 <= (v + 2 * c) / f) by (unfold Rdiv; nra). nra.
Qed.
(** projection of a point whose coordinate is known up to [k] roundings of the size [W] *)
Lemma project_close k f c z x X W : 100 <= f <= 10000 -> 1 <= c <= 10000 -> 1 <= z <= 100000 -> 0 <= k <= 1000 -> close k x X W ->
  close (k + 9) (rmul (rdiv 1 z) (radd (rmul f x) (rmul c z))) (f * (X / z) + c) (f * (W / z) + 2 * c).
Proof.
  intros F C Z K H. assert (W0 : 0 <= W) by (destruct H as (_ & H & _); pose proof (Rabs_pos X); lra).
  assert (Zp : 0 < / z) by (apply Rinv_0_lt_compat; lra).
  assert (Zl : / 100000 <= / z) by (apply Rinv_le_contravar; lra).
  assert (I : close 2 (rdiv 1 z) (1 / z) (1 / z)).
  { unfold rdiv. replace 2 with (0 + 2) by ring. apply close_rnd; [|apply above_tiny; unfold Rdiv; nra|lra].
    apply close_wider with (Rabs (1 / z)); [apply close_exact|]. rewrite Rabs_pos'; unfold Rdiv; nra. }
  assert (P1 : close (k + 2) (rmul f x) (f * X) (f * W + c * z)).
  { unfold rmul. apply close_rnd; [|apply above_tiny; nra|lra]. apply close_wider with (Rabs f * W); [now apply close_times|]. rewrite Rabs_pos'; nra. }
  assert (P2 : close (k + 2) (rmul c z) (c * z) (c * z)).
  { apply close_more with 2; [|lra]. unfold rmul. replace 2 with (0 + 2) by ring. apply close_rnd; [|apply above_tiny; nra|lra].
    apply close_wider with (Rabs (c * z)); [apply close_exact|]. rewrite Rabs_pos'; nra. }
  assert (S : close (k + 4) (radd (rmul f x) (rmul c z)) (f * X + c * z) (f * W + c * z + c * z)).
  { unfold radd. replace (k + 4) with (k + 2 + 2) by ring. apply close_rnd; [|apply above_tiny; nra|lra].
    pose proof (close_add _ _ _ _ _ _ _ _ P1 P2) as M. rewrite Rmax_left in M by lra. exact M. }
  unfold rmul at 1. replace (k + 9) with (2 + (k + 4) + 1 + 2) by ring. apply close_rnd; [|apply above_tiny|lra].
  - pose proof (close_mul _ _ _ _ _ _ _ _ I S ltac:(lra) ltac:(rewrite u_value; lra)) as M.
    replace (1 / z * (f * X + c * z)) with (f * (X / z) + c) in M by (field; lra).
    replace (1 / z * (f * W + c * z + c * z)) with (f * (W / z) + 2 * c) in M by (field; lra). exact M.
  - assert (0 <= f * (W / z)) by (apply Rmult_le_pos; [lra|]; apply Rmult_le_pos; lra). lra.
Qed.
Lemma project_x fx fy cx cy p : usual_camera fx fy cx cy -> vz p <> 0 ->
  rcamera_to_screen (intrinsics fx fy cx cy) p =
  Some (mkV (rmul (rdiv 1 (vz p)) (radd (rmul fx (vx p)) (rmul cx (vz p)))) (rmul (rdiv 1 (vz p)) (radd (rmul fy (vy p)) (rmul cy (vz p)))) (vz p)).
Proof.
  intros _ Z. unfold rcamera_to_screen, rmvmul, rdot, intrinsics. cbn [vx vy vz r0 r1 r2]. destruct (Req_EM_T (vz p) 0); [easy|].
  now rewrite !rmul_0_l, !radd_0_r, !radd_0_l by auto with dbl.
Qed.
Lemma unproject fx fy cx cy s : usual_camera fx fy cx cy -> usual_pixel s ->
  rscreen_to_camera (intrinsics fx fy cx cy) s =
  Value (mkV (rmul (vz s) (radd (rmul (rmul fy (rdiv 1 (rnd (fx * fy)))) (vx s)) (rmul (- rmul cx fy) (rdiv 1 (rnd (fx * fy))))))
             (rmul (vz s) (radd (rmul (rmul fx (rdiv 1 (rnd (fy * fx)))) (vy s)) (rmul (- rmul cy fx) (rdiv 1 (rnd (fy * fx)))))) (vz s)).
Proof.
  intros Cam ((Dx & Dy & Dz) & X & Y & Z). unfold rscreen_to_camera. destruct (Rlt_dec (vx s) 0); [lra|]. destruct (Rlt_dec (vy s) 0); [lra|].
  destruct (double_equal (vz s) 0) eqn:E.
  { unfold double_equal in E. destruct (Rle_dec _ _) as [L|]; [|discriminate]. rewrite Rminus_0_r, Rabs_pos_eq in L by lra. unfold machine_epsilon in L.
    assert (/ 2 ^ 52 <= / 2) by (apply Rinv_le_contravar; [lra|]; rewrite <- (pow_1 2) at 1; apply Rle_pow; [lra|lia]). lra. }
  unfold rmvmul, rdot. destruct (rinverse_value fx fy cx cy Cam) as (R0 & R1). rewrite R0, R1. cbn [vx vy vz].
  rewrite !rmul_0_l, !radd_0_r, !radd_0_l, !(rmul_1_r (rmul _ _)) by auto with dbl. unfold inv_det, rmul.
  rewrite (Rmult_comm cy fx), (Rmult_comm fy fx). reflexivity.
Qed.

(** A pixel with a depth gives a point of the camera within a millionth of a millionth of its depth,
    and comes back at less than a billionth of a pixel, with the same depth. *)
Theorem C126_round_trip : forall fx fy cx cy s, usual_camera fx fy cx cy -> usual_pixel s ->
  exists c s', rscreen_to_camera (intrinsics fx fy cx cy) s = Value c /\ rcamera_to_screen (intrinsics fx fy cx cy) c = Some s' /\
    vz c = vz s /\ vz s' = vz s /\
    Rabs (vx c - at_depth fx cx (vz s) (vx s)) <= vz s / 10 ^ 12 /\ Rabs (vy c - at_depth fy cy (vz s) (vy s)) <= vz s / 10 ^ 12 /\
    Rabs (vx s' - vx s) <= / 10 ^ 9 /\ Rabs (vy s' - vy s) <= / 10 ^ 9.
Proof.
  intros fx fy cx cy s Cam Px. rewrite (unproject _ _ _ _ _ Cam Px). do 2 eexists. split; [reflexivity|].
  pose proof Cam as (_ & Fx & Fy & Cx & Cy). pose proof Px as (_ & X & Y & Z).
  rewrite (project_x _ _ _ _ _ Cam) by (cbn [vz]; lra). split; [reflexivity|]. cbn [vx vy vz].
  assert (Hx := row_close fx fy cx (fx * fy) (vx s) (vz s) Fx Fy Cx X Z eq_refl).
  assert (Hy := row_close fy fx cy (fy * fx) (vy s) (vz s) Fy Fx Cy Y Z eq_refl).
  assert (Sx := project_close 16 fx cx (vz s) _ _ _ Fx Cx Z ltac:(lra) Hx).
  assert (Sy := project_close 16 fy cy (vz s) _ _ _ Fy Cy Z ltac:(lra) Hy).
  assert (B : forall f c v : R, 100 <= f <= 10000 -> 1 <= c <= 10000 -> 0 <= v <= 10000 -> 16 * u * (vz s * ((v + 2 * c) / f)) <= vz s / 10 ^ 12).
  { intros f c v F C V. replace (16 * u * (vz s * ((v + 2 * c) / f))) with (vz s * (16 * u * ((v + 2 * c) / f))) by ring. unfold Rdiv at 2.
    apply Rmult_le_compat_l; [lra|]. assert (Q : (v + 2 * c) / f <= 300).
    { apply Rmult_le_reg_r with f; [lra|]. unfold Rdiv. rewrite Rmult_assoc, Rinv_l by lra. nra. }
    rewrite u_value. replace (10 ^ 12) with 1000000000000 by ring. lra. }
  assert (E : forall f c v : R, 100 <= f <= 10000 -> f * (at_depth f c (vz s) v / vz s) + c = v) by (intros; unfold at_depth; field; lra).
  assert (G : forall f c v : R, 100 <= f <= 10000 -> 1 <= c <= 10000 -> 0 <= v <= 10000 -> (16 + 9) * u * (f * (vz s * ((v + 2 * c) / f) / vz s) + 2 * c) <= / 10 ^ 9).
  { intros f c v F C V. replace (f * (vz s * ((v + 2 * c) / f) / vz s) + 2 * c) with (v + 4 * c) by (field; lra).
    rewrite u_value. replace (10 ^ 9) with 1000000000 by ring. lra. }
  destruct Hx as (Hx & _), Hy as (Hy & _), Sx as (Sx & _), Sy as (Sy & _). rewrite (E fx cx (vx s) Fx) in Sx. rewrite (E fy cy (vy s) Fy) in Sy.
  repeat split.
  - eapply Rle_trans; [exact Hx|now apply B].
  - eapply Rle_trans; [exact Hy|now apply B].
  - eapply Rle_trans; [exact Sx|now apply G].
  - eapply Rle_trans; [exact Sy|now apply G].
Qed.
Print Assumptions C126_round_trip.

(** A point in front of the camera is projected at less than a billionth of a pixel of where a pinhole
    camera sees it, as long as it is not seen far out of the image. *)
Theorem C126_projection : forall fx fy cx cy p, usual_camera fx fy cx cy -> 1 <= vz p <= 100000 ->
  Rabs (fx * (vx p / vz p)) <= 100000 -> Rabs (fy * (vy p / vz p)) <= 100000 ->
  exists s, rcamera_to_screen (intrinsics fx fy cx cy) p = Some s /\ vz s = vz p /\
    Rabs (vx s - seen_x fx cx p) <= / 10 ^ 9 /\ Rabs (vy s - seen_y fy cy p) <= / 10 ^ 9.
Proof.
  intros fx fy cx cy p Cam Z X Y. rewrite (project_x _ _ _ _ _ Cam) by lra. eexists. split; [reflexivity|]. cbn [vx vy vz]. split; [reflexivity|].
  pose proof Cam as (_ & Fx & Fy & Cx & Cy).
  assert (A : forall f c x : R, 100 <= f <= 10000 -> 1 <= c <= 10000 -> Rabs (f * (x / vz p)) <= 100000 ->
    Rabs (rmul (rdiv 1 (vz p)) (radd (rmul f x) (rmul c (vz p))) - (f * (x / vz p) + c)) <= / 10 ^ 9).
  { intros f c x F C L. destruct (project_close 0 f c (vz p) x x (Rabs x) F C Z ltac:(lra) (close_exact x)) as (P & _).
    eapply Rle_trans; [exact P|]. unfold Rdiv in L. rewrite !Rabs_mult, (Rabs_pos' f), (Rabs_pos' (/ vz p)) in L; [|left; apply Rinv_0_lt_compat; lra|lra].
    fold (Rabs x / vz p) in L. rewrite u_value. replace (10 ^ 9) with 1000000000 by ring. lra. }
  split; unfold seen_x, seen_y; apply A; auto.
Qed.
Print Assumptions C126_projection.

(** ** World coordinates *)
Lemma product_close a b : Rabs a <= 2 -> Rabs b <= 100000 -> close 2 (rmul a b) (a * b) 200000.
Proof.
  intros A B. unfold rmul. replace 2 with (0 + 2) by ring. apply close_rnd; [|apply above_tiny; lra|lra].
  apply close_wider with (Rabs (a * b)); [apply close_exact|]. rewrite Rabs_mult. pose proof (Rabs_pos a). pose proof (Rabs_pos b). nra.
Qed.
Lemma row4_close r p t : Rabs (vx r) <= 2 -> Rabs (vy r) <= 2 -> Rabs (vz r) <= 2 -> usual_position p -> a_double t -> Rabs t <= 100000 ->
  close 8 (rdot4 r p t 1) (dot r p + t) 700000.
Proof.
  intros A B C (X & Y & Z) D T. unfold rdot4, rdot, dot. rewrite (rmul_1_r t D).
  assert (S2 : close 4 (radd (rmul (vx r) (vx p)) (rmul (vy r) (vy p))) (vx r * vx p + vy r * vy p) 400000).
  { unfold radd. replace 4 with (2 + 2) by ring. apply close_rnd; [|apply above_tiny; lra|lra].
    pose proof (close_add _ _ _ _ _ _ _ _ (product_close _ _ A X) (product_close _ _ B Y)) as M. rewrite Rmax_left in M by lra.
    apply close_wider with (200000 + 200000); [exact M|lra]. }
  assert (S3 : close 6 (radd (radd (rmul (vx r) (vx p)) (rmul (vy r) (vy p))) (rmul (vz r) (vz p))) (vx r * vx p + vy r * vy p + vz r * vz p) 600000).
  { unfold radd at 1. replace 6 with (4 + 2) by ring. apply close_rnd; [|apply above_tiny; lra|lra].
    pose proof (close_add _ _ _ _ _ _ _ _ S2 (product_close _ _ C Z)) as M. rewrite Rmax_left in M by lra.
    apply close_wider with (400000 + 200000); [exact M|lra]. }
  unfold radd at 1. replace 8 with (6 + 2) by ring. apply close_rnd; [|apply above_tiny; lra|lra].
  assert (T0 : close 0 t t 100000) by (apply close_wider with (Rabs t); [apply close_exact|exact T]).
  pose proof (close_add _ _ _ _ _ _ _ _ S3 T0) as M. rewrite Rmax_left in M by lra.
  apply close_wider with (600000 + 100000); [exact M|lra].
Qed.
Lemma double_1 : a_double 1.
Proof. change 1 with (bpow radix2 0). apply generic_format_bpow. cbn. lia. Qed.
Lemma to_camera_close m p : usual_transform m -> usual_position p ->
  let q := rpoint_to_camera m p in let e := point_to_camera m p in
  close 8 (vx q) (vx e) 700000 /\ close 8 (vy q) (vy e) 700000 /\ close 8 (vz q) (vz e) 700000.
Proof.
  intros (R & ((Dx & Dy & Dz) & Tx & Ty & Tz) & Rw & Cn) P. unfold rpoint_to_camera, point_to_camera, mulv4, homogeneous, vadd, vscal, mvmul.
  cbn [vx vy vz hd4 tl4]. rewrite Rw, Cn.
  assert (W : rdot4 v0 p 1 1 = 1).
  { unfold rdot4, rdot, v0. cbn [vx vy vz]. rewrite !rmul_0_l, (rmul_1_r 1 double_1). rewrite !(radd_0_l 0) by auto with dbl. apply radd_0_l, double_1. }
  rewrite W. replace (dot v0 p + 1 * 1) with 1 by (unfold dot, v0; cbn; ring).
  assert (Q : forall a b c d, rdiv (rdot4 a b c d) 1 = rdot4 a b c d).
  { intros. unfold rdiv. replace (rdot4 a b c d / 1) with (rdot4 a b c d) by field. apply rnd_id. apply double_radd. }
  rewrite !Q. unfold Rdiv. rewrite Rinv_1, !Rmult_1_r, !Rmult_1_l.
  destruct (R (r0 (lin m)) ltac:(auto)) as (? & ? & ?), (R (r1 (lin m)) ltac:(auto)) as (? & ? & ?), (R (r2 (lin m)) ltac:(auto)) as (? & ? & ?).
  split; [|split]; apply row4_close; auto.
Qed.
(** The position of a world point in the camera is within a billionth of a millimeter. *)
Theorem C126_world_to_camera : forall m p, usual_transform m -> usual_position p ->
  let q := rpoint_to_camera m p in let e := point_to_camera m p in
  Rabs (vx q - vx e) <= / 10 ^ 9 /\ Rabs (vy q - vy e) <= / 10 ^ 9 /\ Rabs (vz q - vz e) <= / 10 ^ 9.
Proof.
  intros m p M P q e. destruct (to_camera_close m p M P) as ((X & _) & (Y & _) & (Z & _)).
  rewrite u_value in X, Y, Z. replace (10 ^ 9) with 1000000000 by ring. fold q e in X, Y, Z. repeat split; lra.
Qed.
Print Assumptions C126_world_to_camera.

Lemma project_world f c xc X zc Z : 100 <= f <= 10000 -> 1 <= c <= 10000 -> 40 <= Z -> close 8 xc X 700000 -> close 8 zc Z 700000 ->
  Rabs (f * (X / Z) + c) <= 20000 ->
  Rabs (rmul (rdiv 1 zc) (radd (rmul f xc) (rmul c zc)) - (f * (X / Z) + c)) <= 2 / 10 ^ 6.
Proof.
  intros F C Zl HX HZ L. assert (Zh : Z <= 700000) by (destruct HZ as (_ & H & _); pose proof (Rle_abs Z); lra).
  assert (Zi : 0 < / Z) by (apply Rinv_0_lt_compat; lra). assert (Zj : / Z <= / 40) by (apply Rinv_le_contravar; lra). assert (Zk : / 700000 <= / Z) by (apply Rinv_le_contravar; lra).
  assert (I : close 280003 (rdiv 1 zc) (1 / Z) (1 / Z)).
  { unfold rdiv. replace 280003 with (280001 + 2) by ring. apply close_rnd; [|apply above_tiny; unfold Rdiv; lra|lra].
    assert (K : 8 * (700000 / Z) <= 140000) by (unfold Rdiv; lra).
    assert (K0 : 0 <= 8 * (700000 / Z)) by (unfold Rdiv; lra).
    assert (H : close 140000 zc Z Z).
    { apply close_more with (8 * (700000 / Z)); [|lra]. apply close_scale; [exact HZ|rewrite Rabs_pos'; lra|lra|lra]. }
    replace 280001 with (2 * 140000 + 1) by ring. apply close_inv; [exact H|lra|lra]. }
  assert (S : close 12 (radd (rmul f xc) (rmul c zc)) (f * X + c * Z) (f * 700000 + c * 700000)).
  { assert (A : forall a x Y, 1 <= a <= 10000 -> close 8 x Y 700000 -> close 10 (rmul a x) (a * Y) (a * 700000)).
    { intros a x Y Ha Hx. unfold rmul. replace 10 with (8 + 2) by ring. apply close_rnd; [|apply above_tiny; lra|lra].
      apply (close_times _ _ _ _ a) in Hx. now rewrite (Rabs_pos' a) in Hx by lra. }
    unfold radd. replace 12 with (10 + 2) by ring. apply close_rnd; [|apply above_tiny; lra|lra].
    pose proof (close_add _ _ _ _ _ _ _ _ (A f xc X ltac:(lra) HX) (A c zc Z C HZ)) as M. now rewrite Rmax_left in M by lra. }
  assert (S' : close 210000 (radd (rmul f xc) (rmul c zc)) (f * X + c * Z) (Z * 20000)).
  { apply close_more with (12 * ((f * 700000 + c * 700000) / (Z * 20000))).
    - apply close_scale; [exact S| |lra|].
      + replace (f * X + c * Z) with (Z * (f * (X / Z) + c)) by (field; lra). rewrite Rabs_mult, (Rabs_pos' Z) by lra. nra.
      + replace (12 * ((f * 700000 + c * 700000) / (Z * 20000))) with (420 * (f + c) * / Z) by (field; lra). nra.
    - replace (12 * ((f * 700000 + c * 700000) / (Z * 20000))) with (420 * (f + c) * / Z) by (field; lra). split; [nra|lra]. }
  pose proof (close_mul _ _ _ _ _ _ _ _ I S' ltac:(lra) ltac:(rewrite u_value; lra)) as M.
  replace (1 / Z * (f * X + c * Z)) with (f * (X / Z) + c) in M by (field; lra). replace (1 / Z * (Z * 20000)) with 20000 in M by (field; lra).
  apply close_rnd in M; [|apply above_tiny; lra|lra]. destruct M as (M & _). eapply Rle_trans; [exact M|]. rewrite u_value. replace (10 ^ 6) with 1000000 by ring. lra.
Qed.
(** A world point at more than four centimeters in front of the camera is projected at less than two
    millionths of a pixel of its place. *)
Theorem C126_world_to_screen : forall fx fy cx cy m p, usual_camera fx fy cx cy -> usual_transform m -> usual_position p ->
  let e := point_to_camera m p in
  40 <= vz e -> Rabs (seen_x fx cx e) <= 20000 -> Rabs (seen_y fy cy e) <= 20000 ->
  exists s, rworld_to_screen (intrinsics fx fy cx cy) m p = Some s /\
    Rabs (vx s - seen_x fx cx e) <= 2 / 10 ^ 6 /\ Rabs (vy s - seen_y fy cy e) <= 2 / 10 ^ 6 /\ Rabs (vz s - vz e) <= / 10 ^ 9.
Proof.
  intros fx fy cx cy m p Cam M P e Z Sx Sy. destruct (to_camera_close m p M P) as (X & Y & Zc). fold e in X, Y, Zc.
  destruct (C126_world_to_camera m p M P) as (_ & _ & Ez). fold e in Ez. unfold rworld_to_screen.
  assert (N : vz (rpoint_to_camera m p) <> 0).
  { intros E. rewrite E in Ez. replace (10 ^ 9) with 1000000000 in Ez by ring. apply Rabs_le_inv in Ez. lra. }
  rewrite (project_x _ _ _ _ _ Cam N). eexists. split; [reflexivity|]. cbn [vx vy vz]. pose proof Cam as (_ & Fx & Fy & Cx & Cy).
  repeat split; [apply project_world; auto|apply project_world; auto|exact Ez].
Qed.
Print Assumptions C126_world_to_screen.

(** A camera of the project (configuration of the examples), a pixel and a pose of these sizes. *)
Example C126_example : usual_camera 550 550 320 240 /\ usual_pixel (mkV 100 30 2000) /\
  usual_transform (transformation mid (mkV 10 20 30)) /\ usual_position (mkV 100 200 3000) /\
  point_to_camera (transformation mid (mkV 10 20 30)) (mkV 100 200 3000) = mkV 110 220 3030 /\
  Rabs (seen_x 550 320 (mkV 110 220 3030)) <= 20000.
Proof.
  assert (D : forall z, (Z.abs z < 2 ^ 53)%Z -> a_double (IZR z)).
  { intros z H. apply (generic_format_FLT radix2 (-1074) 53). exists (Float radix2 z 0); [unfold F2R; cbn; ring|cbn; lia|cbn; lia]. }
  repeat split; cbn [vx vy vz lin col row corner transformation mid r0 r1 r2]; try (apply D; lia); try lra; try (apply Rabs_le; lra).
  all: try (destruct H as [-> | [-> | ->]]; cbn; apply Rabs_le; lra).
  - unfold point_to_camera, mulv4, homogeneous, transformation, mvmul, dot, vadd, vscal, mid, v0. cbn. f_equal; field.
  - unfold seen_x. cbn. apply Rabs_le. lra.
Qed.

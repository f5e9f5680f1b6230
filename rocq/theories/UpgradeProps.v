(** Property C84: upgrade of the 2D points. *)
From Coq Require Import Reals Lra List.
From Coquelicot Require Import Coquelicot.
From Verif Require Import UpgradeModel UpgradeSpec InverseDepthProps CovarianceProps.
From Verif Require Import Vec3.
Local Open Scope R_scope.

Lemma cartesian_quad c j v : msym (c_pose c) -> quad (cartesian_covariance c j) v = variance6 c v (mvmul (mT j) v).
Proof.
  intros _. unfold cartesian_covariance, variance6.
  replace (quad (madd (madd (c_pose c) (madd (mmul (c_cross c) (mT j)) (mmul j (mT (c_cross c))))) (propagate (c_param c) j)) v)
    with (quad (c_pose c) v + (quad (mmul (c_cross c) (mT j)) v + quad (mmul j (mT (c_cross c))) v) + quad (propagate (c_param c) j) v)
    by (generalize (mmul (c_cross c) (mT j)), (mmul j (mT (c_cross c))), (propagate (c_param c) j), (c_pose c); v3ring).
  rewrite propagate_quad. f_equal. f_equal. unfold quad. rewrite !mvmul_mmul.
  rewrite (dot_mvmul j v), (dot_comm (mvmul (mT j) v)), <- (dot_mvmul (mT (c_cross c))) || idtac.
  assert (E : dot v (mvmul j (mvmul (mT (c_cross c)) v)) = dot v (mvmul (c_cross c) (mvmul (mT j) v))).
  { rewrite (dot_mvmul j), (dot_mvmul (c_cross c)). apply dot_comm. }
  lra.
Qed.
Lemma madd_sym a b : msym a -> msym b -> msym (madd a b).
Proof. unfold msym. intros A B. replace (mT (madd a b)) with (madd (mT a) (mT b)) by v3ring. now rewrite A, B. Qed.
Lemma cartesian_valid c j : covariance6 c -> covariance (cartesian_covariance c j).
Proof.
  intros (A & B & P). split.
  - unfold cartesian_covariance. apply madd_sym; [apply madd_sym; [exact A|]|].
    + unfold msym. replace (mT (madd (mmul (c_cross c) (mT j)) (mmul j (mT (c_cross c)))))
        with (madd (mT (mmul (c_cross c) (mT j))) (mT (mmul j (mT (c_cross c))))) by (generalize (mmul (c_cross c) (mT j)), (mmul j (mT (c_cross c))); v3ring).
      rewrite !mT_mmul, !mT_mT. generalize (mmul j (mT (c_cross c))), (mmul (c_cross c) (mT j)). v3ring.
    + unfold propagate, msym. rewrite !mT_mmul, mT_mT, B. now rewrite mmul_assoc.
  - intros v. rewrite cartesian_quad by exact A. apply P.
Qed.
Lemma variance_nonneg c : covariance6 c -> 0 <= inverse_depth_variance c.
Proof.
  intros (_ & _ & P). specialize (P v0 (mkV 1 0 0)). unfold variance6 in P. unfold inverse_depth_variance.
  destruct c as [a b c]. cbn [c_pose c_cross c_param] in *. replace (quad a v0 + 2 * dot v0 (mvmul b (mkV 1 0 0)) + quad c (mkV 1 0 0)) with (vx (r0 c)) in P by v3ring. exact P.
Qed.
Lemma bearing_norm p : norm (bearing p) = 1.
Proof. apply norm_unit. unfold is_unit. apply bearing_unit. Qed.
Lemma is_deviation rho s d : rho <> 0 -> is_depth_deviation rho s d <-> d = s / (rho * rho).
Proof.
  intros N. assert (D : is_derive (fun r : R => / r) rho (- / (rho * rho))).
  { auto_derive; [exact N|]. field. exact N. }
  assert (A : Rabs (- / (rho * rho)) = / (rho * rho)).
  { rewrite Rabs_Ropp. apply Rabs_right, Rle_ge, Rlt_le, Rinv_0_lt_compat. nra. }
  split.
  - intros (k & K & ->). rewrite (is_derive_unique _ _ _ K) in * || idtac.
    replace k with (- / (rho * rho)) by (apply is_derive_unique in K; apply is_derive_unique in D; rewrite D in K; exact K).
    rewrite A. unfold Rdiv. ring.
  - intros ->. exists (- / (rho * rho)). split; [exact D|]. rewrite A. unfold Rdiv. ring.
Qed.
Lemma to_world_some p : 0 < inverse_depth p -> exists w, to_world p = Some w.
Proof. intros P. unfold to_world. destruct (Req_EM_T (inverse_depth p) 0); [lra|]. eauto. Qed.
Lemma score_value p s camera w : to_world p = Some w -> w <> camera -> 0 <= s ->
  linearity_score p s camera =
  Some (4 * (sqrt s / (inverse_depth p * inverse_depth p)) / dist w camera * Rabs (dot (bearing p) (vsub w camera) / dist w camera)).
Proof.
  intros W N S. unfold linearity_score. rewrite W. fold (dist w camera).
  pose proof (norm_vsub_nz w camera N) as D. fold (dist w camera) in D.
  assert (Z : inverse_depth p <> 0). { unfold to_world in W. destruct (Req_EM_T (inverse_depth p) 0); [discriminate|assumption]. }
  destruct (Req_EM_T (dist w camera) 0); [lra|]. destruct (Rlt_dec s 0); [lra|]. f_equal. field. split; [exact Z|lra].
Qed.
Lemma localised_iff p s camera w : to_world p = Some w -> w <> camera -> 0 <= s ->
  (exists x, linearity_score p s camera = Some x /\ x < 1 / 10) <->
  well_localised camera w (bearing p) (sqrt s / (inverse_depth p * inverse_depth p)).
Proof.
  intros W N S. rewrite (score_value p s camera w W N S).
  pose proof (norm_vsub_nz w camera N) as D. fold (dist w camera) in D. unfold well_localised, is_cosine. fold (dist w camera).
  rewrite bearing_norm, Rmult_1_l. set (k := sqrt s / (inverse_depth p * inverse_depth p)). set (l := dist w camera) in *. set (q := dot (bearing p) (vsub w camera)).
  assert (Q : 4 * k / l * Rabs (q / l) * l = 4 * (k * Rabs (q / l))) by (field; lra).
  split.
  - intros (x & E & L). injection E as <-. exists (q / l). split; [field; lra|]. rewrite <- Q. nra.
  - intros (x & E & L). eexists. split; [reflexivity|]. replace x with (q / l) in L by (rewrite E; field; lra).
    rewrite <- Q in L. nra.
Qed.

Section C84.
Variables (valid6 : cov6 -> bool) (valid3 : mat -> bool) (descriptor : Type).
Hypothesis V6 : decides6 valid6.
Hypothesis V3 : decides3 valid3.

(** For every 2D point with a valid covariance and every camera elsewhere than on it: it is
    upgraded if and only if it is well localised, to a 3D point at the same place, with the same
    descriptor and matches, and with a valid covariance, the one propagated at first order. *)
Theorem C84_upgraded_iff : forall (p : idp) (c : cov6) (d : descriptor) matches camera w u,
  0 < inverse_depth p -> covariance6 c -> to_world p = Some w -> w <> camera ->
  compute_upgraded valid6 valid3 descriptor p c d matches camera = Some u <->
  (exists s, is_depth_deviation (inverse_depth p) (sqrt (inverse_depth_variance c)) s /\
             well_localised camera w (bearing p) s) /\
  u_point _ u = w /\ u_descriptor _ u = d /\ u_matches _ u = matches /\
  u_covariance _ u = cartesian_covariance c (to_world_jacobian p).
Proof.
  intros p c d ms camera w u P C W N.
  assert (L := localised_iff p (inverse_depth_variance c) camera w W N (variance_nonneg c C)).
  assert (Cov : compute_cartesian_covariance valid6 valid3 c (to_world_jacobian p) = Some (cartesian_covariance c (to_world_jacobian p))).
  { unfold compute_cartesian_covariance. rewrite (proj2 (V6 c) C). cbn [negb]. now rewrite (proj2 (V3 _) (cartesian_valid c _ C)). }
  unfold compute_upgraded. rewrite W, Cov. split.
  - destruct linearity_score as [x|] eqn:E; [|discriminate]. destruct (Rlt_dec x (1 / 10)) as [T|T]; [|discriminate].
    intros H. injection H as <-. split; [|auto]. eexists. split; [apply is_deviation; [lra|reflexivity]|]. apply L. eauto.
  - intros [(s & D & H) (E1 & E2 & E3 & E4)]. apply is_deviation in D; [|lra]. subst s.
    apply L in H. destruct H as (x & E & T). rewrite E. destruct (Rlt_dec x (1 / 10)); [|contradiction].
    destruct u. cbn in *. now subst.
Qed.

(** Its covariance is valid and is the one of the 2D point propagated by the derivative of the
    conversion: the first pose counts fully, the parameters by the jacobian. *)
Theorem C84_covariance : forall (p : idp) (c : cov6) (d : descriptor) matches camera u,
  0 < inverse_depth p -> covariance6 c ->
  compute_upgraded valid6 valid3 descriptor p c d matches camera = Some u ->
  covariance (u_covariance _ u) /\
  exists j, is_jacobian (fun q => some_of (to_world (mkIdp (first p) (vx q) (vy q) (vz q)))) j (mkV (inverse_depth p) (theta p) (phi p)) /\
    forall v, quad (u_covariance _ u) v = variance6 c v (mvmul (mT j) v).
Proof.
  intros p c d ms camera u P C. unfold compute_upgraded. destruct linearity_score; [|discriminate].
  destruct Rlt_dec; [|discriminate]. destruct (to_world p) as [w|] eqn:W; [|discriminate].
  unfold compute_cartesian_covariance. rewrite (proj2 (V6 c) C). cbn [negb]. rewrite (proj2 (V3 _) (cartesian_valid c _ C)). cbn [negb].
  intros H. injection H as <-. cbn [u_covariance]. split; [now apply cartesian_valid|].
  exists (to_world_jacobian p). split.
  - apply C68_to_world. lra.
  - intros v. apply cartesian_quad, C.
Qed.

(** Nothing is upgraded at infinity, from a camera on the point, or with a broken covariance. *)
Theorem C84_not_upgraded : forall (p : idp) (c : cov6) (d : descriptor) matches camera,
  inverse_depth p = 0 \/ to_world p = Some camera \/ ~ covariance6 c ->
  compute_upgraded valid6 valid3 descriptor p c d matches camera = None.
Proof.
  intros p c d ms camera H. unfold compute_upgraded, linearity_score.
  destruct (to_world p) as [w|] eqn:W.
  2: reflexivity.
  destruct (Req_EM_T (norm (vsub w camera)) 0) as [Z|Z]; [reflexivity|]. destruct Rlt_dec; [reflexivity|].
  destruct Rlt_dec; [|reflexivity].
  destruct H as [H|[H|H]].
  - unfold to_world in W. destruct (Req_EM_T (inverse_depth p) 0); [discriminate|contradiction].
  - injection H as ->. destruct Z. unfold norm. replace (sqn (vsub camera camera)) with 0 by v3ring. apply sqrt_0.
  - unfold compute_cartesian_covariance. destruct (valid6 c) eqn:E; [|reflexivity]. apply V6 in E. contradiction.
Qed.

(** From the place of its first observation, a point is upgraded exactly when the deviation of
    its inverse depth is less than a fortieth of it. *)
Theorem C84_first_place : forall (p : idp) (c : cov6) (d : descriptor) matches,
  0 < inverse_depth p -> covariance6 c ->
  (exists u, compute_upgraded valid6 valid3 descriptor p c d matches (first p) = Some u) <->
  sqrt (inverse_depth_variance c) < inverse_depth p / 40.
Proof.
  intros p c d ms P C. destruct (to_world_some p P) as [w W].
  assert (Ew : w = vadd (first p) (vscal (/ inverse_depth p) (bearing p))).
  { unfold to_world in W. destruct (Req_EM_T (inverse_depth p) 0); congruence. }
  pose proof (Rinv_0_lt_compat _ P) as I.
  assert (Dv : vsub w (first p) = vscal (/ inverse_depth p) (bearing p)) by (rewrite Ew; generalize (first p), (vscal (/ inverse_depth p) (bearing p)); v3ring).
  assert (D : dist w (first p) = / inverse_depth p).
  { unfold dist. rewrite Dv, norm_scal, bearing_norm, Rabs_right by lra. ring. }
  assert (N : w <> first p).
  { intros E. rewrite E in D. unfold dist, norm in D. replace (sqn (vsub (first p) (first p))) with 0 in D by v3ring. rewrite sqrt_0 in D. lra. }
  assert (Q : forall x, is_cosine (bearing p) (vsub w (first p)) x <-> x = 1).
  { intros x. unfold is_cosine. fold (dist w (first p)). rewrite D, bearing_norm, Dv, dot_scal_r. fold (sqn (bearing p)).
    replace (sqn (bearing p)) with 1 by (symmetry; apply bearing_unit). split; [intros E; nra|intros ->; ring]. }
  set (s := sqrt (inverse_depth_variance c)).
  assert (K : s / (inverse_depth p * inverse_depth p) = s * / inverse_depth p * / inverse_depth p) by (field; lra).
  assert (I1 : inverse_depth p * / inverse_depth p = 1) by (field; lra).
  transitivity (well_localised (first p) w (bearing p) (s / (inverse_depth p * inverse_depth p))).
  - split.
    + intros [u U]. apply (C84_upgraded_iff p c d ms (first p) w) in U; try assumption. destruct U as [(s' & S' & L) _].
      apply is_deviation in S'; [|lra]. now subst s'.
    + intros L. eexists (mkUpgraded descriptor w _ d ms). apply (C84_upgraded_iff p c d ms (first p) w); try assumption.
      split; [|cbn; auto]. eexists. split; [apply is_deviation; [lra|reflexivity]|exact L].
  - unfold well_localised. rewrite D, K. split.
    + intros (x & X & L). apply Q in X. subst x. rewrite Rabs_R1 in L. nra.
    + intros L. exists 1. split; [now apply Q|]. rewrite Rabs_R1.
      assert (s * / inverse_depth p < 1 / 40).
      { replace (1 / 40) with (inverse_depth p / 40 * / inverse_depth p) by (field; lra). now apply Rmult_lt_compat_r. }
      nra.
Qed.
(** In particular a point just observed for the first time is not upgraded. *)
Theorem C84_new_point : forall (ki : mat) (c2w : m4) x y (p : idp) (c : cov6) (d : descriptor) matches,
  from_screen ki c2w x y = Built p -> covariance6 c -> inverse_depth_variance c = new_inverse_depth_variance ->
  compute_upgraded valid6 valid3 descriptor p c d matches (first p) = None.
Proof.
  intros ki c2w x y p c d ms B C E.
  assert (P : inverse_depth p = inverse_depth_baseline / 2).
  { unfold from_screen in B. destruct from_cartesian; try discriminate. injection B as <-. reflexivity. }
  destruct compute_upgraded as [u|] eqn:U; [|reflexivity]. exfalso.
  assert (L : sqrt (inverse_depth_variance c) < inverse_depth p / 40).
  { apply (C84_first_place p c d ms); [rewrite P; unfold inverse_depth_baseline; lra|assumption|eauto]. }
  rewrite E, P in L. unfold new_inverse_depth_variance in L. rewrite sqrt_square in L by (unfold inverse_depth_baseline; lra).
  unfold inverse_depth_baseline in L. lra.
Qed.
(** Its depth is from 1 m to infinity, within two standard deviations of the inverse depth. *)
Theorem C84_new_interval : forall (ki : mat) (c2w : m4) x y (p : idp) (c : cov6) s,
  from_screen ki c2w x y = Built p -> inverse_depth_variance c = new_inverse_depth_variance ->
  0 <= s -> s * s = inverse_depth_variance c ->
  inverse_depth p - 2 * s = 0 /\ inverse_depth p + 2 * s = 1 / 1000.
Proof.
  intros ki c2w x y p c s B E S Q.
  assert (P : inverse_depth p = inverse_depth_baseline / 2).
  { unfold from_screen in B. destruct from_cartesian; try discriminate. injection B as <-. reflexivity. }
  rewrite E in Q. unfold new_inverse_depth_variance in Q. assert (s = inverse_depth_baseline / 4).
  { unfold inverse_depth_baseline in *. nra. }
  subst s. rewrite P. unfold inverse_depth_baseline. split; lra.
Qed.
(** A point which is upgraded is also upgraded when its depth is known better. *)
Theorem C84_monotone : forall (p : idp) (c c' : cov6) (d : descriptor) matches camera,
  0 < inverse_depth p -> covariance6 c -> covariance6 c' ->
  inverse_depth_variance c' <= inverse_depth_variance c ->
  compute_upgraded valid6 valid3 descriptor p c d matches camera <> None ->
  compute_upgraded valid6 valid3 descriptor p c' d matches camera <> None.
Proof.
  intros p c c' d ms camera P C C' V H. destruct (to_world_some p P) as [w W].
  destruct (Req_EM_T (norm (vsub w camera)) 0) as [Z|Z].
  { destruct H. apply C84_not_upgraded. right. left. rewrite W. f_equal. apply norm_zero in Z. revert Z. generalize camera. intros k Z.
    destruct w, k. unfold vsub, v0 in Z. cbn in Z. injection Z as Z1 Z2 Z3. f_equal; lra. }
  assert (N : w <> camera). { intros ->. apply Z. unfold norm. replace (sqn (vsub camera camera)) with 0 by v3ring. apply sqrt_0. }
  destruct compute_upgraded as [u|] eqn:U in H; [|easy]. apply (C84_upgraded_iff p c d ms camera w) in U; try assumption.
  destruct U as [(s & S & x & X & L) _]. apply is_deviation in S; [|lra]. subst s.
  intros F. assert (G : compute_upgraded valid6 valid3 descriptor p c' d ms camera = Some (mkUpgraded _ w (cartesian_covariance c' (to_world_jacobian p)) d ms)).
  2: { rewrite G in F. discriminate. }
  apply (C84_upgraded_iff p c' d ms camera w); try assumption. split; [|cbn; auto].
  eexists. split; [apply is_deviation; [lra|reflexivity]|]. exists x. split; [exact X|].
  assert (Q : sqrt (inverse_depth_variance c') / (inverse_depth p * inverse_depth p) <= sqrt (inverse_depth_variance c) / (inverse_depth p * inverse_depth p)).
  { apply Rmult_le_compat_r; [apply Rlt_le, Rinv_0_lt_compat; nra|]. now apply sqrt_le_1_alt. }
  pose proof (Rabs_pos x). nra.
Qed.
(** However uncertain its depth is, a point is upgraded when it is seen from a place
    perpendicular to its first ray. *)
Theorem C84_uncertain_upgraded_refuted : forall deviation : R, 0 < deviation -> exists (p : idp) (c : cov6) camera,
  0 < inverse_depth p /\ covariance6 c /\ inverse_depth_variance c = deviation /\
  forall (d : descriptor) matches, compute_upgraded valid6 valid3 descriptor p c d matches camera <> None.
Proof.
  intros e E. set (p := mkIdp v0 1 0 0).
  assert (B : bearing p = mkV 0 0 1).
  { unfold bearing, cartesian_from. cbn [theta phi p vx vy vz]. rewrite sin_0, cos_0. apply vec_eq; cbn [vx vy vz]; ring. }
  assert (W : to_world p = Some (mkV 0 0 1)).
  { unfold to_world. cbn [inverse_depth p]. destruct (Req_EM_T 1 0); [lra|]. f_equal. fold p. rewrite B. unfold p. cbn [first]. rewrite Rinv_1. v3ring. }
  set (c := mkC6 m0 m0 (mkM3 (mkV e 0 0) v0 v0)).
  assert (C : covariance6 c).
  { unfold c. split; [|split]; cbn [c_pose c_param c_cross]; try (unfold msym; v3ring).
    intros u v. unfold variance6. cbn [c_pose c_param c_cross]. v3des. v3unfold. nra. }
  exists p, c, (mkV 1 0 1). split; [cbn; lra|]. split; [exact C|]. split; [reflexivity|]. intros d ms F.
  assert (G : compute_upgraded valid6 valid3 descriptor p c d ms (mkV 1 0 1) = Some (mkUpgraded _ (mkV 0 0 1) (cartesian_covariance c (to_world_jacobian p)) d ms)).
  2: { rewrite G in F. discriminate. }
  assert (N : mkV 0 0 1 <> mkV 1 0 1) by (intros H; injection H; lra).
  apply (C84_upgraded_iff p c d ms (mkV 1 0 1) (mkV 0 0 1)); try assumption; [cbn; lra|]. split; [|cbn; auto].
  eexists. split; [apply is_deviation; [cbn; lra|reflexivity]|]. exists 0. split.
  - unfold is_cosine. rewrite B. unfold dot, vsub. cbn [vx vy vz]. ring.
  - rewrite Rabs_R0. pose proof (norm_vsub_nz _ _ N) as D. fold (dist (mkV 0 0 1) (mkV 1 0 1)) in D. lra.
Qed.
End C84.
Print Assumptions C84_upgraded_iff.
Print Assumptions C84_covariance.
Print Assumptions C84_not_upgraded.
Print Assumptions C84_first_place.
Print Assumptions C84_new_point.
Print Assumptions C84_new_interval.
Print Assumptions C84_monotone.
Print Assumptions C84_uncertain_upgraded_refuted.

(** A point 2 m away known within 20 mm is upgraded by the camera that saw it; with 100 mm it
    is not. *)
Definition cases (s : R) : cov6 := mkC6 m0 m0 (mkM3 (mkV (s * s) 0 0) v0 v0).
Lemma cases_valid s : covariance6 (cases s).
Proof.
  unfold cases. split; [|split]; cbn [c_pose c_param c_cross]; try (unfold msym; v3ring).
  intros u v. unfold variance6. cbn [c_pose c_param c_cross]. v3des. v3unfold. nra.
Qed.
Example C84_example : forall valid6 valid3, decides6 valid6 -> decides3 valid3 ->
  (exists u, compute_upgraded valid6 valid3 nat (mkIdp (mkV 3 4 5) (1 / 2000) 1 1) (cases (1 / 200000)) 7%nat (cons 2%nat nil) (mkV 3 4 5) = Some u) /\
  ~ (exists u, compute_upgraded valid6 valid3 nat (mkIdp (mkV 3 4 5) (1 / 2000) 1 1) (cases (1 / 40000)) 7%nat (cons 2%nat nil) (mkV 3 4 5) = Some u).
Proof.
  intros v6 v3 V6 V3. pose proof (C84_first_place v6 v3 nat V6 V3 (mkIdp (mkV 3 4 5) (1 / 2000) 1 1)) as H. cbn [first inverse_depth] in H.
  split.
  - apply H; [lra|apply cases_valid|]. unfold inverse_depth_variance, cases. cbn [c_param r0 vx]. rewrite sqrt_square by lra. lra.
  - rewrite H; [|lra|apply cases_valid]. unfold inverse_depth_variance, cases. cbn [c_param r0 vx]. rewrite sqrt_square by lra. lra.
Qed.

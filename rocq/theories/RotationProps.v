(** Properties of the parametrisation of rotations (C25, C26) and of the objective
    function (C57). *)
From Coquelicot Require Import Coquelicot.
From Coq Require Import Psatz.
From Verif Require Import RotationModel.
Local Open Scope R_scope.

(** ** Specification *)
Definition unit (q : quat) : Prop := q_w q * q_w q + q_x q * q_x q + q_y q * q_y q + q_z q * q_z q = 1.
(** [d] is the partial derivative of [f] at [c] along coefficient [j] *)
Definition partial (f : coefs -> R) (c : coefs) (j : nat) (d : R) : Prop :=
  derivable_pt_lim (fun t => f (fun k => if Nat.eqb k j then t else c k)) (c j) d.

(** ** C25 *)
Lemma alpha_nonneg c : 0 <= alpha c.
Proof. unfold alpha. nra. Qed.

Lemma quat_eq q w x y z : q_w q = w -> q_x q = x -> q_y q = y -> q_z q = z -> q = mkQuat w x y z.
Proof. destruct q. cbn. congruence. Qed.

(** The inverse conversion always gives a unit quaternion. *)
Theorem C25_always_unit : forall c, unit (of_coefs c).
Proof.
  intros c. unfold unit, of_coefs. cbn. pose proof (alpha_nonneg c).
  assert (D : alpha c + 1 <> 0) by lra.
  replace (2 * c 0%nat * (1 / (alpha c + 1)) * (2 * c 0%nat * (1 / (alpha c + 1))) +
    2 * c 1%nat * (1 / (alpha c + 1)) * (2 * c 1%nat * (1 / (alpha c + 1))) +
    2 * c 2%nat * (1 / (alpha c + 1)) * (2 * c 2%nat * (1 / (alpha c + 1))) +
    (1 - alpha c) * (1 / (alpha c + 1)) * ((1 - alpha c) * (1 / (alpha c + 1))))
  with ((4 * alpha c + (1 - alpha c) * (1 - alpha c)) / ((alpha c + 1) * (alpha c + 1))).
  - field. exact D.
  - unfold alpha at 1. field. exact D.
Qed.
Print Assumptions C25_always_unit.

Lemma to_coefs_far q : -999 / 1000 <= q_z q -> forall k, to_coefs q k = vec3 (q_w q / (1 + q_z q)) (q_x q / (1 + q_z q)) (q_y q / (1 + q_z q)) k.
Proof.
  intros H k. unfold to_coefs. rewrite Rmax_left by lra. destruct k as [|[|k]]; cbn; field; lra.
Qed.

(** Round trip for every orientation whose last part is at least -0.999. *)
Theorem C25_round_trip : forall q, unit q -> -999 / 1000 <= q_z q -> of_coefs (to_coefs q) = q.
Proof.
  intros [w x y z] U H. unfold unit in U. cbn in U, H.
  assert (K := to_coefs_far (mkQuat w x y z) H). cbn in K.
  assert (D : 1 + z <> 0) by lra.
  assert (A : alpha (to_coefs (mkQuat w x y z)) = (1 - z) / (1 + z)).
  { unfold alpha. rewrite !K. cbn [vec3].
    replace (w / (1 + z) * (w / (1 + z)) + x / (1 + z) * (x / (1 + z)) + y / (1 + z) * (y / (1 + z)))
      with ((w * w + x * x + y * y) / ((1 + z) * (1 + z))) by (field; exact D).
    replace (w * w + x * x + y * y) with ((1 - z) * (1 + z)) by lra. field. exact D. }
  apply quat_eq; unfold of_coefs; cbn [q_w q_x q_y q_z]; rewrite A, ?K; cbn [vec3]; field; repeat split; lra.
Qed.
Print Assumptions C25_round_trip.

(** The coefficients round trip too: every triple of the ball where the last
    part stays above -0.999 is recovered. *)
Theorem C25_round_trip_coefficients :
  forall c, alpha c <= 1999 -> forall k, (k < 3)%nat -> to_coefs (of_coefs c) k = c k.
Proof.
  intros c H k Hk. pose proof (alpha_nonneg c).
  assert (Z : -999 / 1000 <= q_z (of_coefs c)).
  { cbn. unfold Rdiv at 2. rewrite Rmult_1_l. apply Rmult_le_reg_r with (alpha c + 1); [lra|].
    rewrite Rmult_assoc, Rinv_l by lra. lra. }
  rewrite to_coefs_far by exact Z. cbn [of_coefs q_z q_w q_x q_y].
  assert (E : 1 + (1 - alpha c) * (1 / (alpha c + 1)) = 2 / (alpha c + 1)) by (field; lra). rewrite E.
  destruct k as [|[|[|k]]]; [| | |lia]; cbn; field; lra.
Qed.
Print Assumptions C25_round_trip_coefficients.

(** Whole poses round trip as well: position and orientation. *)
Theorem C25_pose_round_trip :
  forall p, unit (p_orientation p) -> -999 / 1000 <= q_z (p_orientation p) ->
  p_orientation (pose_of_coefs (coefs_of_pose p)) = p_orientation p /\
  forall k, (k < 3)%nat -> p_position (pose_of_coefs (coefs_of_pose p)) k = p_position p k.
Proof.
  intros [pos q] U H. cbn [p_position p_orientation] in *. split.
  - unfold pose_of_coefs, set_parameters. cbn [p_orientation].
    assert (E : of_coefs (vec3 (coefs_of_pose (mkPose pos q) 3%nat) (coefs_of_pose (mkPose pos q) 4%nat) (coefs_of_pose (mkPose pos q) 5%nat)) = q).
    { rewrite <- (C25_round_trip q U H) at 4. unfold of_coefs, alpha, coefs_of_pose. cbn [Nat.ltb Nat.leb Nat.sub p_orientation vec3]. reflexivity. }
    rewrite E. unfold normalized, qnorm. unfold unit in U. rewrite U. rewrite sqrt_1.
    destruct (Rlt_dec 0 1) as [_|X]; [|lra]. destruct q as [w x y z]. cbn. f_equal; field.
  - intros k Hk. unfold pose_of_coefs, set_parameters, coefs_of_pose. cbn. destruct k as [|[|[|k]]]; [reflexivity..|lia].
Qed.
Print Assumptions C25_pose_round_trip.

(** Below -0.999 the round trip is not the identity. *)
Theorem C25_round_trip_everywhere_refuted :
  exists q, unit q /\ of_coefs (to_coefs q) <> q.
Proof.
  exists (mkQuat (200 / 10001) 0 0 (- 9999 / 10001)). split; [unfold unit; cbn; field|].
  intros E. apply (f_equal q_z) in E. unfold of_coefs, to_coefs, alpha in E. cbn in E.
  rewrite Rmax_right in E by lra.
  replace (200 / 10001 * (1 / (1 / 1000)) * (200 / 10001 * (1 / (1 / 1000))) + 0 * (1 / (1 / 1000)) * (0 * (1 / (1 / 1000))) + 0 * (1 / (1 / 1000)) * (0 * (1 / (1 / 1000))))
    with (40000000000 / 100020001) in E by field.
  replace ((1 - 40000000000 / 100020001) * (1 / (40000000000 / 100020001 + 1))) with (-39899979999 / 40100020001) in E by field.
  lra.
Qed.
Print Assumptions C25_round_trip_everywhere_refuted.

(** ... except at the pole itself, where the opposite quaternion (the same
    rotation) comes back. *)
Theorem C25_pole : of_coefs (to_coefs (mkQuat 0 0 0 (-1))) = mkQuat 0 0 0 1.
Proof.
  unfold of_coefs, to_coefs, alpha. cbn. f_equal; rewrite ?Rmult_0_l, ?Rmult_0_r, ?Rplus_0_l; try ring; field.
Qed.
Print Assumptions C25_pole.

(** ** C26 *)
Ltac entry c :=
  unfold partial; cbn [part of_coefs jacobian q_w q_x q_y q_z]; unfold alpha; cbn [Nat.eqb];
  set (x := c 0%nat); set (y := c 1%nat); set (z := c 2%nat);
  apply is_derive_Reals; auto_derive; [nra|field; nra].

(** All the entries outside of the diagonal of the vector part are right. *)
Theorem C26_other_entries :
  forall c i j, (i < 4)%nat -> (j < 3)%nat -> i <> j -> partial (fun c => part (of_coefs c) i) c j (jacobian c i j).
Proof.
  intros c i j Hi Hj N.
  destruct i as [|[|[|[|i]]]]; [| | | |lia]; (destruct j as [|[|[|j]]]; [| | |lia]); try (now elim N); entry c.
Qed.
Print Assumptions C26_other_entries.

(** The right value of the diagonal entries. *)
Lemma diagonal c i : (i < 3)%nat ->
  partial (fun c => part (of_coefs c) i) c i (2 / (alpha c + 1) - 4 * c i * c i / ((alpha c + 1) * (alpha c + 1))).
Proof. intros Hi. destruct i as [|[|[|i]]]; [| | |lia]; entry c. Qed.

(** A diagonal entry is right exactly when the coefficient is zero. *)
Theorem C26_diagonal_entries :
  forall c i, (i < 3)%nat -> (partial (fun c => part (of_coefs c) i) c i (jacobian c i i) <-> c i = 0).
Proof.
  intros c i Hi. pose proof (diagonal c i Hi) as D. pose proof (alpha_nonneg c) as A.
  assert (J : jacobian c i i = 2 / (alpha c + 1) + 4 * c i * c i / ((alpha c + 1) * (alpha c + 1))).
  { destruct i as [|[|[|i]]]; [| | |lia]; cbn [jacobian]; field; lra. }
  rewrite J. split.
  - intros P. assert (E := uniqueness_limite _ _ _ _ P D).
    assert (Z : 4 * c i * c i / ((alpha c + 1) * (alpha c + 1)) = 0) by lra.
    apply Rmult_integral in Z. destruct Z as [Z|Z].
    + nra.
    + exfalso. revert Z. apply Rinv_neq_0_compat. nra.
  - intros Z. replace (2 / (alpha c + 1) + 4 * c i * c i / ((alpha c + 1) * (alpha c + 1)))
      with (2 / (alpha c + 1) - 4 * c i * c i / ((alpha c + 1) * (alpha c + 1))); [exact D|].
    rewrite Z. field. lra.
Qed.
Print Assumptions C26_diagonal_entries.

(** So the matrix is not the matrix of derivatives. *)
Theorem C26_jacobian_refuted :
  exists c i j, (i < 4)%nat /\ (j < 3)%nat /\ ~ partial (fun c => part (of_coefs c) i) c j (jacobian c i j).
Proof.
  exists (vec3 1 0 0), 0%nat, 0%nat. split; [lia|]. split; [lia|]. intros P.
  apply C26_diagonal_entries in P; [|lia]. cbn in P. lra.
Qed.
Print Assumptions C26_jacobian_refuted.

(** Examples: a rotation of 90 degrees around x. *)
Example C25_example : unit (mkQuat (3 / 5) (4 / 5) 0 0) /\ -999 / 1000 <= q_z (mkQuat (3 / 5) (4 / 5) 0 0) /\ alpha (vec3 1 2 3) <= 1999.
Proof. unfold unit, alpha. cbn. repeat split; lra. Qed.
Example C26_example : jacobian (vec3 1 1 0) 0 1 = - (4 / 9) /\ jacobian (vec3 1 1 0) 3 0 = - (4 / 9).
Proof. unfold jacobian, alpha. cbn. split; field. Qed.

(** ** C57 — the objective function *)

(** sum of the parts of the features *)
Definition total (l : list feature) : nat := list_sum (map f_parts l).
(** distances have one number by part *)
Definition well_sized (f : feature) : Prop := forall d, f_distance f = Some d -> length d = f_parts f.
(** what the residuals should be: for each feature its scaled distances, or the
    previous content when the distance is not a number *)
Fixpoint expected (l : list feature) (out : list R) : list R :=
  match l with
  | [] => out
  | f :: l' =>
    match f_distance f with
    | Some d => map (fun x => x * f_alpha f / INR (f_parts f)) d
    | None => firstn (f_parts f) out
    end ++ expected l' (skipn (f_parts f) out)
  end.

Lemma skipn_skipn {A} n m (l : list A) : skipn n (skipn m l) = skipn (n + m) l.
Proof.
  revert l. induction m as [|m IH]; intros l; [now rewrite Nat.add_0_r|]. destruct l as [|a l]; [now rewrite !skipn_nil|].
  rewrite Nat.add_succ_r. cbn. apply IH.
Qed.
Lemma firstn_plus {A} n m (l : list A) : firstn (n + m) l = firstn n l ++ firstn m (skipn n l).
Proof.
  revert l. induction n as [|n IH]; intros l; [reflexivity|]. destruct l as [|a l]; [now rewrite !firstn_nil|].
  cbn. now rewrite IH.
Qed.
Lemma residuals_spec l index out :
  Forall well_sized l -> (index + total l <= length out)%nat ->
  residuals l index out = Some (firstn index out ++ expected l (skipn index out)).
Proof.
  revert index out. induction l as [|f l IH]; intros index out W H; cbn [residuals expected].
  - now rewrite firstn_skipn.
  - assert (Wf := Forall_inv W). assert (Wl := Forall_inv_tail W).
    unfold total in H. cbn [map list_sum fold_right] in H. change (fold_right Nat.add 0%nat (map f_parts l)) with (total l) in H.
    destruct (f_distance f) as [d|] eqn:D.
    + specialize (Wf d D). rewrite Wf, Nat.eqb_refl. unfold write_segment. rewrite map_length, Wf.
      destruct (Nat.leb_spec (index + f_parts f) (length out)) as [L|L]; [|lia].
      set (v := map (fun x => x * f_alpha f / INR (f_parts f)) d).
      assert (Lv : length v = f_parts f) by (unfold v; now rewrite map_length).
      rewrite IH; auto.
      * f_equal. assert (Lf : length (firstn index out) = index) by (rewrite firstn_length; lia).
        rewrite app_assoc, firstn_app. rewrite app_length, Lf, Lv.
        rewrite (firstn_all2 (n := index + f_parts f) (firstn index out ++ v)) by (rewrite app_length; lia).
        replace (index + f_parts f - (index + f_parts f))%nat with 0%nat by lia. rewrite firstn_O, app_nil_r.
        rewrite skipn_app, app_length, Lf, Lv.
        rewrite (skipn_all2 (n := index + f_parts f) (firstn index out ++ v)) by (rewrite app_length; lia).
        replace (index + f_parts f - (index + f_parts f))%nat with 0%nat by lia.
        cbn [app skipn]. rewrite skipn_skipn, (Nat.add_comm (f_parts f) index). now rewrite app_assoc.
      * rewrite !app_length, skipn_length, firstn_length. lia.
    + rewrite IH; auto; [|lia]. f_equal. rewrite skipn_skipn, (Nat.add_comm (f_parts f) index), app_assoc. f_equal.
      rewrite firstn_plus. reflexivity.
Qed.

(** The estimator built by the optimisation never throws on a set of matches that is
    not empty and has residuals. *)
Theorem C57_estimator_accepts :
  forall l, (0 < total l)%nat -> estimator_ok (total l) l = true /\ forall n, n <> total l -> estimator_ok n l = false.
Proof.
  intros l H.
  assert (E : fold_left (fun n f => (n + f_parts f)%nat) l 0%nat = total l).
  { unfold total. assert (G : forall n, fold_left (fun n f => (n + f_parts f)%nat) l n = (n + list_sum (map f_parts l))%nat).
    { clear H. induction l as [|f l IH]; intros n; cbn; [lia|]. rewrite IH. unfold list_sum; lia. }
    apply G. }
  unfold estimator_ok. rewrite E.
  assert (L : length l <> 0%nat) by (destruct l; [cbn in H; lia|discriminate]).
  destruct (Nat.eqb_spec (length l) 0) as [|_]; [lia|]. cbn [negb andb]. split.
  - destruct (Nat.eqb_spec (total l) 0); [lia|]. now rewrite Nat.eqb_refl.
  - intros n N. destruct (Nat.eqb_spec n 0); cbn; auto. now apply Nat.eqb_neq; auto.
Qed.
Print Assumptions C57_estimator_accepts.

(** Every residual is written exactly once, by the feature it belongs to, within
    the bounds of the vector; the residuals of a feature without a distance
    keep their previous content. *)
Theorem C57_residuals :
  forall l out, Forall well_sized l -> length out = total l ->
  residuals l 0 out = Some (expected l out) /\ length (expected l out) = length out.
Proof.
  intros l out W H. split; [apply residuals_spec; auto; lia|].
  revert out H W. induction l as [|f l IH]; intros out H W; [reflexivity|].
  assert (Wf := Forall_inv W). assert (Wl := Forall_inv_tail W).
  unfold total in H. cbn [map list_sum fold_right] in H. change (fold_right Nat.add 0%nat (map f_parts l)) with (total l) in H.
  cbn [expected]. rewrite app_length, IH; auto; [|rewrite skipn_length; lia]. rewrite skipn_length.
  destruct (f_distance f) as [d|] eqn:D; [rewrite map_length, (Wf d D)|rewrite firstn_length]; lia.
Qed.
Print Assumptions C57_residuals.

(** When every distance is a number, the result does not depend on the previous
    content. *)
Theorem C57_no_stale_residual :
  forall l out out', Forall well_sized l -> length out = total l -> length out' = total l ->
  (forall f, In f l -> f_distance f <> None) -> residuals l 0 out = residuals l 0 out'.
Proof.
  intros l out out' W H H' N. rewrite (proj1 (C57_residuals l out W H)), (proj1 (C57_residuals l out' W H')). f_equal.
  revert out out' H H' N W. induction l as [|f l IH]; intros out out' H H' N W.
  - destruct out, out'; cbn in *; congruence || discriminate.
  - assert (Wl := Forall_inv_tail W).
    unfold total in H, H'. cbn [map list_sum fold_right] in H, H'. change (fold_right Nat.add 0%nat (map f_parts l)) with (total l) in *.
    cbn [expected]. assert (Nf := N f (or_introl eq_refl)). destruct (f_distance f) as [d|]; [|congruence].
    f_equal. apply IH; auto; rewrite ?skipn_length; try lia. intros g G. apply N. now right.
Qed.
Print Assumptions C57_no_stale_residual.

(** A distance that is not a number leaves stale content. *)
Theorem C57_no_stale_residual_refuted :
  exists l out out', Forall well_sized l /\ length out = total l /\ length out' = total l /\ residuals l 0 out <> residuals l 0 out'.
Proof.
  exists [mkFeature 2 1 None], [0; 0], [1; 1]. split; [constructor; [intros d; discriminate|constructor]|]. repeat split. cbn. intros [= E]. lra.
Qed.
Print Assumptions C57_no_stale_residual_refuted.
Example C57_example : Forall well_sized [mkFeature 2 1 (Some [3; 4]); mkFeature 3 1 None] /\
  residuals [mkFeature 2 1 (Some [3; 4]); mkFeature 3 1 None] 0 [0;0;7;8;9] = Some [3 * 1 / INR 2; 4 * 1 / INR 2; 7; 8; 9].
Proof. split; [repeat constructor; intros d [= <-]; reflexivity|reflexivity]. Qed.

(** Properties of the motion model (C73). *)
From Coq Require Import Lra Psatz List Arith.
From Verif Require Import GeometryProps.
From Verif Require Import GeometrySpec MotionModel.
From Verif Require Import Vec3.
Import ListNotations.
Local Open Scope R_scope.

Lemma unit_qsqn q : unit_quat q <-> qsqn q = 1.
Proof. reflexivity. Qed.
Lemma qmul_sqn a b : qsqn (qmul a b) = qsqn a * qsqn b.
Proof. destruct a, b. unfold qsqn, qmul. cbn. ring. Qed.
Lemma qmul_unit a b : unit_quat a -> unit_quat b -> unit_quat (qmul a b).
Proof. rewrite !unit_qsqn, qmul_sqn. intros -> ->. ring. Qed.
Lemma qinverse_value q : unit_quat q -> qinverse q = mkQuat (q_w q) (- q_x q) (- q_y q) (- q_z q).
Proof.
  rewrite unit_qsqn. intros U. unfold qinverse. rewrite U. destruct (Rlt_dec 0 1); [|lra]. f_equal; field.
Qed.
Lemma qinverse_unit q : unit_quat q -> unit_quat (qinverse q).
Proof. intros U. rewrite qinverse_value by assumption. unfold unit_quat in *. cbn. lra. Qed.
Lemma normalized_unit_quat q : unit_quat q -> normalized q = q.
Proof.
  intros U. unfold normalized, qnorm. unfold unit_quat in U. rewrite U. destruct (Rlt_dec 0 1); [|lra].
  rewrite sqrt_1. destruct q. cbn. f_equal; field.
Qed.
Lemma normalized_quat_unit q : 0 < qsqn q -> unit_quat (normalized q).
Proof.
  intros P. unfold normalized. fold (qsqn q). destruct (Rlt_dec 0 (qsqn q)); [|easy].
  assert (N : qnorm q * qnorm q = qsqn q) by (apply sqrt_sqrt; unfold qsqn in P; lra).
  assert (Z : qnorm q <> 0) by (intros E; rewrite E in N; lra).
  unfold unit_quat. cbn.
  transitivity (qsqn q / (qnorm q * qnorm q)); [unfold qsqn; field; easy|]. rewrite N. field. lra.
Qed.
Lemma qmix_sqn k l a b : qsqn (qmix k l a b) = k * k * qsqn a + 2 * k * l * qdot a b + l * l * qsqn b.
Proof. unfold qsqn, qmix, qdot. cbn. ring. Qed.
Lemma qdot_bound a b : unit_quat a -> unit_quat b -> Rabs (qdot a b) <= 1.
Proof.
  intros A B. rewrite unit_qsqn in A, B. apply Rabs_le. split.
  - pose proof (qmix_sqn 1 1 a b) as H. rewrite A, B in H. assert (0 <= qsqn (qmix 1 1 a b)) by (unfold qsqn; nra). lra.
  - pose proof (qmix_sqn 1 (-1) a b) as H. rewrite A, B in H. assert (0 <= qsqn (qmix 1 (-1) a b)) by (unfold qsqn; nra). lra.
Qed.
Lemma slerp_pos a b : unit_quat a -> unit_quat b -> 0 < qsqn (slerp a (1 / 2) b).
Proof.
  intros A B. pose proof (qdot_bound a b A B) as D. rewrite unit_qsqn in A, B. unfold slerp.
  assert (K : exists k, 0 < k /\ (if Rle_dec (1 - machine_epsilon) (Rabs (qdot a b)) then (1 - 1 / 2, 1 / 2)
     else (sin ((1 - 1 / 2) * acos (Rabs (qdot a b))) / sin (acos (Rabs (qdot a b))), sin (1 / 2 * acos (Rabs (qdot a b))) / sin (acos (Rabs (qdot a b))))) = (k, k)).
  { destruct (Rle_dec _ _) as [L|L].
    - exists (1 / 2). split; [lra|]. f_equal; lra.
    - pose proof eps_pos. set (x := Rabs (qdot a b)) in *. assert (0 <= x) by apply Rabs_pos. assert (x < 1) by lra.
      assert (B1 : 0 < acos x < PI) by (apply acos_bound_lt; lra).
      exists (sin (1 / 2 * acos x) / sin (acos x)). split.
      + apply Rdiv_lt_0_compat; apply sin_gt_0; lra.
      + f_equal. f_equal. f_equal. lra. }
  destruct K as [k [Kp ->]]. rewrite qmix_sqn, A, B.
  destruct (Rlt_dec (qdot a b) 0).
  - nra.
  - nra.
Qed.

(** The state keeps unit quaternions, and all the predicted orientations are unit quaternions. *)
Definition unit_state (s : motion) : Prop := unit_quat (last_q s) /\ unit_quat (angular_velocity s).
Lemma predict_unit s p q b : unit_state s -> unit_quat q ->
  unit_state (fst (predict s p q b)) /\ unit_quat (pr_rotation (snd (predict s p q b))).
Proof.
  intros [L A] Q. unfold predict. destruct (is_set s); cbn [negb fst snd pr_rotation].
  - set (w := normalized (slerp (qmul q (qinverse (last_q s))) (1 / 2) (angular_velocity s))).
    assert (W : unit_quat w).
    { apply normalized_quat_unit, slerp_pos; [|assumption]. apply qmul_unit; [assumption|now apply qinverse_unit]. }
    split; [split; assumption|]. apply normalized_quat_unit. fold w.
    pose proof (qmul_unit q w Q W) as U. rewrite unit_qsqn in U. lra.
  - split; [split; assumption|assumption].
Qed.
Lemma qid_unit : unit_quat qid.
Proof. unfold unit_quat, qid. cbn. ring. Qed.
Theorem C73_predictions_are_unit :
  forall poses : list (vec * quat), Forall (fun pq => unit_quat (snd pq)) poses ->
  Forall (fun r => unit_quat (pr_rotation r)) (snd (predictions reset poses)).
Proof.
  intros poses F. assert (U : unit_state reset) by (split; apply qid_unit). revert F U. generalize reset.
  induction poses as [|[p q] l IH]; intros s F U; [constructor|]. apply Forall_cons_iff in F as [Q F]. cbn [predictions].
  destruct (predict_unit s p q true U Q) as [U' R]. destruct (predict s p q true) as [s' r]. cbn [fst snd] in *.
  specialize (IH s' F U'). destruct (predictions s' l) as [s'' rs]. cbn [snd] in *. now constructor.
Qed.

(** The camera moves by the same vector between frames: the n-th prediction misses the next
    position by the move divided by 2^n. *)
Definition moving (start step : vec) (n : nat) : vec := vadd start (vscal (INR n) step).
Lemma predictions_nth s poses n :
  nth_error (snd (predictions s poses)) n =
  match nth_error poses n with
  | Some (p, q) => Some (snd (predict (fst (predictions s (firstn n poses))) p q true))
  | None => None
  end.
Proof.
  revert s n. induction poses as [|[p q] l IH]; intros s n; [now destruct n|].
  cbn [predictions]. destruct (predict s p q true) as [s' r] eqn:E. destruct n as [|n].
  - cbn. destruct (predictions s' l). cbn. now rewrite E.
  - cbn [nth_error firstn]. specialize (IH s' n). cbn [predictions]. rewrite E.
    destruct (predictions s' l) as [s'' rs]. cbn [snd nth_error] in *. rewrite IH.
    destruct (nth_error l n) as [[p' q']|]; [|reflexivity]. now destruct (predictions s' (firstn n l)).
Qed.
Lemma predictions_snoc s l p q : fst (predictions s (l ++ [(p, q)])) = fst (predict (fst (predictions s l)) p q true).
Proof.
  revert s. induction l as [|[p' q'] l IH]; intros s; cbn [app predictions].
  - cbn [fst]. destruct (predict s p q true). reflexivity.
  - destruct (predict s p' q' true) as [s' r]. specialize (IH s'). destruct (predictions s' (l ++ [(p, q)])), (predictions s' l). exact IH.
Qed.
Lemma moving_velocity start step (rotations : nat -> quat) n :
  let s := fst (predictions reset (map (fun k => (moving start step k, rotations k)) (seq 0 (S n)))) in
  is_set s = true /\ last_position s = moving start step n /\ linear_velocity s = vscal (1 - (1 / 2) ^ n) step.
Proof.
  induction n as [|n IH].
  - cbn. repeat split. v3ring.
  - cbv zeta in *. rewrite seq_S, map_app. cbn [map]. rewrite predictions_snoc. rewrite Nat.add_0_l.
    destruct IH as [A [B C]]. set (s := fst (predictions reset _)) in *. unfold predict. rewrite A. cbn [negb fst is_set last_position linear_velocity].
    split; [reflexivity|]. split; [reflexivity|]. rewrite B, C. unfold moving. rewrite S_INR. cbn [pow].
    generalize ((1 / 2) ^ n) (INR n). intros. destruct start, step. v3unfold. f_equal; field.
Qed.
Theorem C73_constant_velocity :
  forall (start step : vec) (rotations : nat -> quat) (n len : nat), (n < len)%nat ->
  exists r, nth_error (snd (predictions reset (map (fun k => (moving start step k, rotations k)) (seq 0 len)))) n = Some r /\
    vsub (moving start step (S n)) (pr_position r) = vscal ((1 / 2) ^ n) step.
Proof.
  intros start step rot n len L. rewrite predictions_nth, nth_error_map.
  assert (E : nth_error (seq 0 len) n = Some n).
  { rewrite (nth_error_nth' _ 0%nat) by now rewrite seq_length. f_equal. now rewrite seq_nth. }
  rewrite E. cbn [option_map]. eexists. split; [reflexivity|].
  assert (F : firstn n (map (fun k => (moving start step k, rot k)) (seq 0 len)) = map (fun k => (moving start step k, rot k)) (seq 0 n)).
  { rewrite firstn_map. f_equal. clear E. revert L. generalize 0%nat. revert len. induction n; intros len a L; [reflexivity|].
    destruct len; [lia|]. cbn. f_equal. apply IHn. lia. }
  rewrite F. destruct n as [|n].
  - cbn. unfold moving. cbn [INR]. v3ring.
  - pose proof (moving_velocity start step rot n) as [A [B C]]. cbv zeta in *. set (s := fst (predictions reset _)) in *.
    unfold predict. rewrite A. cbn [negb snd pr_position]. rewrite B, C. unfold moving. rewrite !S_INR. cbn [pow].
    generalize ((1 / 2) ^ n) (INR n). intros. destruct start, step. v3unfold. f_equal; field.
Qed.

(** A camera which does not move is predicted where it is, with its orientation. *)
Lemma qmul_inverse q : unit_quat q -> qmul q (qinverse q) = qid.
Proof.
  intros U. rewrite qinverse_value by assumption. unfold unit_quat in U. unfold qmul, qid. cbn. f_equal; lra || ring.
Qed.
Lemma qmul_inverse_r a q : unit_quat q -> qmul (qmul a q) (qinverse q) = a.
Proof.
  intros U. rewrite qinverse_value by assumption. unfold unit_quat in U. destruct a as [w x y z], q as [a b c d]. unfold qmul in *. cbn in *.
  f_equal.
  - transitivity (w * (a * a + b * b + c * c + d * d)); [ring|rewrite U; ring].
  - transitivity (x * (a * a + b * b + c * c + d * d)); [ring|rewrite U; ring].
  - transitivity (y * (a * a + b * b + c * c + d * d)); [ring|rewrite U; ring].
  - transitivity (z * (a * a + b * b + c * c + d * d)); [ring|rewrite U; ring].
Qed.
Lemma slerp_same q : unit_quat q -> normalized (slerp q (1 / 2) q) = q.
Proof.
  intros U. rewrite <- (normalized_unit_quat q) at 3 by assumption. f_equal.
  assert (D : qdot q q = 1) by exact U. unfold slerp. rewrite D, Rabs_R1. pose proof eps_pos.
  destruct (Rle_dec (1 - machine_epsilon) 1); [|lra]. destruct (Rlt_dec 1 0); [lra|]. destruct q. unfold qmix. cbn. f_equal; field.
Qed.
Lemma qmul_id_r q : qmul q qid = q.
Proof. destruct q. unfold qmul, qid. cbn. f_equal; ring. Qed.
Theorem C73_at_rest :
  forall (p : vec) (q : quat) (n : nat), unit_quat q ->
  Forall (fun r => pr_position r = p /\ pr_rotation r = q) (snd (predictions reset (repeat (p, q) n))).
Proof.
  intros p q n U.
  assert (G : forall n s, is_set s = true -> last_q s = q -> angular_velocity s = qid -> last_position s = p -> linear_velocity s = v0 ->
     Forall (fun r => pr_position r = p /\ pr_rotation r = q) (snd (predictions s (repeat (p, q) n)))).
  { clear n. induction n as [|n IH]; intros s A B C D E; [constructor|]. cbn [repeat predictions].
    assert (X : predict s p q true = (mkMotion q qid p v0 true, mkPrediction p q (10 * 10, 1 / 10 * (1 / 10)))).
    { unfold predict. rewrite A, B, C, D, E. cbn [negb]. rewrite qmul_inverse, slerp_same by (assumption || apply qid_unit).
      rewrite qmul_id_r, normalized_unit_quat by assumption.
      assert (Z : vscal (1 / 2) (vadd (vsub p p) v0) = v0) by (destruct p; v3unfold; f_equal; field). rewrite Z.
      f_equal. f_equal. v3ring. }
    rewrite X. specialize (IH (mkMotion q qid p v0 true)). destruct (predictions _ (repeat (p, q) n)) as [s'' rs]. cbn [snd] in *.
    constructor; [easy|]. now apply IH. }
  destruct n as [|n]; [constructor|]. cbn [repeat predictions predict reset is_set negb].
  specialize (G n (mkMotion q qid p v0 true)). cbn [angular_velocity linear_velocity reset]. destruct (predictions _ (repeat (p, q) n)) as [s'' rs].
  cbn [snd] in *. constructor; [easy|]. now apply G.
Qed.

(** C73: a model reset at a pose predicts, for every later history, what a new model predicts once this pose was given to it. *)
Theorem C73_reset :
  forall (p : vec) (q : quat) (poses : list (vec * quat)),
  snd (predictions reset ((p, q) :: poses)) = mkPrediction p q (0, 0) :: snd (predictions (reset_at p q) poses) /\
  fst (predictions reset ((p, q) :: poses)) = fst (predictions (reset_at p q) poses).
Proof.
  intros p q poses. cbn [predictions predict reset is_set negb angular_velocity linear_velocity]. change (mkMotion q qid p v0 true) with (reset_at p q).
  now destruct (predictions (reset_at p q) poses) as [s rs].
Qed.
Print Assumptions C73_reset.

(** The camera turns by [w] between two frames, and the model has this velocity: it keeps it,
    and predicts the next orientation when the two rotations commute. *)
Theorem C73_constant_rotation :
  forall s p q w increase, is_set s = true -> unit_quat (last_q s) -> unit_quat w ->
  angular_velocity s = w -> q = qmul w (last_q s) ->
  let '(s', r) := predict s p q increase in
  angular_velocity s' = w /\ pr_rotation r = qmul q w /\
  (qmul q w = qmul w q -> pr_rotation r = qmul w q).
Proof.
  intros s p q w b A L W Aw Q. unfold predict. rewrite A, Q, Aw. cbn [negb]. rewrite qmul_inverse_r, slerp_same by assumption.
  cbn [angular_velocity pr_rotation]. rewrite normalized_unit_quat by (repeat apply qmul_unit; assumption).
  split; [reflexivity|]. split; [reflexivity|]. now intros ->.
Qed.
(** Otherwise it is applied on the wrong side: the velocity measured from one frame to the
    next, the prediction does not follow it. *)
Theorem C73_rotation_refuted :
  exists q0 q1 p, unit_quat q0 /\ unit_quat q1 /\
    let s := fst (predict reset p q0 true) in
    let '(s', r) := predict s p q1 true in
    unit_quat (angular_velocity s') /\
    pr_rotation r <> qmul (angular_velocity s') q1 /\ pr_rotation r <> qmul (mkQuat (-1) 0 0 0) (qmul (angular_velocity s') q1).
Proof.
  exists (mkQuat (3 / 5) (4 / 5) 0 0), (mkQuat 0 0 (4 / 5) (3 / 5)), v0.
  assert (U0 : unit_quat (mkQuat (3 / 5) (4 / 5) 0 0)) by (unfold unit_quat; cbn; lra).
  assert (U1 : unit_quat (mkQuat 0 0 (4 / 5) (3 / 5))) by (unfold unit_quat; cbn; lra).
  split; [exact U0|]. split; [exact U1|]. cbv zeta.
  set (h := mkQuat (1 / sqrt 2) 0 0 (1 / sqrt 2)).
  assert (S2 : sqrt 2 * sqrt 2 = 2) by (apply sqrt_sqrt; lra).
  assert (N2 : sqrt 2 <> 0) by (intros E; rewrite E in S2; lra).
  assert (Sp : 0 < sqrt 2) by (apply sqrt_lt_R0; lra).
  assert (Hu : unit_quat h).
  { unfold unit_quat, h. cbn. transitivity (2 / (sqrt 2 * sqrt 2)); [field; easy|]. rewrite S2. field. }
  assert (W : qmul (mkQuat 0 0 (4 / 5) (3 / 5)) (qinverse (mkQuat (3 / 5) (4 / 5) 0 0)) = mkQuat 0 0 0 1).
  { rewrite qinverse_value by exact U0. unfold qmul. cbn. f_equal; field. }
  assert (Sl : slerp (mkQuat 0 0 0 1) (1 / 2) qid = h).
  { unfold slerp, qdot, qid. cbn [q_w q_x q_y q_z]. replace (0 * 1 + 0 * 0 + 0 * 0 + 1 * 0) with 0 by ring. rewrite Rabs_R0.
    pose proof eps_pos. assert (E1 : machine_epsilon < 1).
    { unfold machine_epsilon. apply Rlt_le_trans with (/ 1); [|rewrite Rinv_1; lra].
      apply Rinv_lt_contravar; [rewrite Rmult_1_l; apply pow_lt; lra|]. apply Rlt_pow_R1; [lra|lia]. }
    destruct (Rle_dec (1 - machine_epsilon) 0); [lra|]. destruct (Rlt_dec 0 0); [lra|].
    rewrite acos_0. replace ((1 - 1 / 2) * (PI / 2)) with (PI / 4) by field. replace (1 / 2 * (PI / 2)) with (PI / 4) by field.
    rewrite sin_PI2, sin_PI4. unfold qmix, h. cbn. f_equal; field; easy. }
  unfold predict, reset. cbn [is_set negb fst last_q angular_velocity]. rewrite W, Sl, (normalized_unit_quat h) by exact Hu.
  cbn [angular_velocity pr_rotation]. rewrite (normalized_unit_quat (qmul _ h)) by now apply qmul_unit.
  split; [exact Hu|]. assert (Ip : 0 < 1 / sqrt 2) by (apply Rdiv_lt_0_compat; lra).
  split; intros E; apply (f_equal q_x) in E as X; apply (f_equal q_y) in E as Y; unfold qmul, h in X, Y; cbn in X, Y; lra.
Qed.
(** Every prediction but the first adds the asked variance. *)
Theorem C73_variance :
  forall s p q increase, is_set s = true ->
  pr_added (snd (predict s p q increase)) = (if increase then (100, 1 / 100) else (0, 0)) /\
  pr_added (snd (predict reset p q increase)) = (0, 0).
Proof.
  intros s p q b A. unfold predict. rewrite A. cbn [negb snd pr_added is_set reset]. split; [|reflexivity].
  destruct b; [|reflexivity]. f_equal; field.
Qed.

(** ** Examples *)
Example C73_example :
  snd (predictions reset [(v0, qid); (mkV 4 0 0, qid); (mkV 8 0 0, qid)]) =
  [mkPrediction v0 qid (0, 0); mkPrediction (mkV 6 0 0) qid (10 * 10, 1 / 10 * (1 / 10)); mkPrediction (mkV 11 0 0) qid (10 * 10, 1 / 10 * (1 / 10))].
Proof.
  cbn [predictions predict reset is_set negb angular_velocity linear_velocity last_q last_position].
  rewrite !qmul_inverse, !slerp_same by apply qid_unit. rewrite !qmul_id_r, !normalized_unit_quat by apply qid_unit.
  cbn [snd]. repeat f_equal; v3unfold; cbn; repeat f_equal; field.
Qed.

Print Assumptions C73_predictions_are_unit.
Print Assumptions C73_constant_velocity.
Print Assumptions C73_rotation_refuted.

(** C131: the random variations of a set of matches, and the variance they give. *)
From Coq Require Import Bool Arith ZArith Reals Lra Lia List Permutation.
From Verif Require Import RealSums OptFeatureModel OptFeatureSpec OptFeatureProps PoseVarianceModel PoseVarianceProps VariationModel VariationSpec.
From Verif Require PoseOptModel.
From Verif Require Import Vec3.
Import ListNotations.
Local Open Scope R_scope.

Lemma feature_same d f : well_formed f -> exists g, feature_variation d f = Some g /\ same_match f g /\ well_formed g.
Proof.
  destruct f as [p|p|p]; cbn [feature_variation well_formed]; intros W.
  - eexists. split; [reflexivity|]. cbn. repeat split.
  - destruct (C82_point2d_variation (d 0%nat) (d 1%nat) p W) as (g & -> & V & _ & _ & _ & _ & E). exists (FPoint2d g). split; [reflexivity|]. split; [exact E|exact V].
  - eexists. split; [reflexivity|]. cbn. repeat split.
Qed.
(** C131: a variation of a set of matches never ends the program; it has the same matches in the same order, with the same
    detections, observations and deviations. *)
Theorem C131_same_matches : forall draws l i, Forall well_formed l ->
  exists r, variated_set draws i l = Some r /\ Forall2 same_match l r /\ Forall well_formed r.
Proof.
  intros draws l. induction l as [|f l IH]; intros i W; [exists []; repeat split; constructor|].
  inversion W as [|x y Wf Wl]; subst. destruct (feature_same (draws i) f Wf) as (g & E & Sg & Wg). destruct (IH (S i) Wl) as (r & Er & Sr & Wr).
  exists (g :: r). cbn. rewrite E, Er. split; [reflexivity|]. split; constructor; assumption.
Qed.
Print Assumptions C131_same_matches.

Lemma clamp_inside x lo hi : lo <= x <= hi -> clamp x lo hi = x.
Proof. intros H. unfold clamp. destruct (Rlt_dec x lo); [lra|]. destruct (Rlt_dec hi x); lra. Qed.
Lemma feature_moved d f g : feature_variation d f = Some g -> moved_by d f g.
Proof.
  destruct f as [p|p|p]; cbn [feature_variation].
  - intros [= <-]. cbn. repeat split.
  - unfold point2d_variation. set (t := clamp _ 0 PI). set (h := clamp _ (- PI) PI). unfold make_idp.
    repeat match goal with |- context [Rlt_dec ?a ?b] => destruct (Rlt_dec a b); [discriminate|] end.
    intros [= <-]. cbn. split; [reflexivity|]. split; [reflexivity|]. split; intros B; [unfold t|unfold h]; now rewrite clamp_inside.
  - intros [= <-]. destruct (C82_plane_variation (mkV (d 0%nat) (d 1%nat) (d 2%nat)) (d 3%nat) p) as (N & D & _). split; [exact N|cbn; cbn in D; lra].
Qed.
(** C131: and each map feature moves by its own draws. *)
Theorem C131_moves : forall draws l i r, variated_set draws i l = Some r ->
  length r = length l /\ forall j f g, nth_error l j = Some f -> nth_error r j = Some g -> moved_by (draws (i + j)%nat) f g.
Proof.
  intros draws l. induction l as [|f l IH]; intros i r; cbn; [intros [= <-]; split; [reflexivity|]; intros [|j] ? ?; discriminate|].
  destruct (feature_variation (draws i) f) as [g|] eqn:E; [|discriminate]. destruct (variated_set draws (S i) l) as [r'|] eqn:Er; [|discriminate]. intros [= <-].
  destruct (IH (S i) r' Er) as (L & M). split; [cbn; now rewrite L|]. intros [|j] f' g'; cbn.
  - intros [= <-] [= <-]. rewrite Nat.add_0_r. now apply feature_moved.
  - intros A B. replace (i + S j)%nat with (S i + j)%nat by lia. now apply M.
Qed.
Print Assumptions C131_moves.

Lemma same_kind f g : same_match f g -> kind_of g = kind_of f.
Proof. destruct f, g; cbn; easy. Qed.
Lemma same_gates l r : Forall2 same_match l r ->
  PoseOptModel.set_score kind_of r = PoseOptModel.set_score kind_of l /\ PoseOptModel.parts kind_of r = PoseOptModel.parts kind_of l.
Proof.
  intros H. assert (K : map kind_of r = map kind_of l) by (induction H as [|f g l r S H IH]; [reflexivity|cbn; now rewrite IH, (same_kind _ _ S)]).
  assert (G : forall A (op : A -> PoseOptModel.fkind -> A) z l, fold_left (fun s f => op s (kind_of f)) l z = fold_left op (map kind_of l) z).
  { intros A op z k. revert z. induction k as [|f k IH]; intros z; [reflexivity|]. cbn. apply IH. }
  unfold PoseOptModel.set_score, PoseOptModel.parts, PoseOptModel.score.
  rewrite !(G _ (fun s k => DoubleModel.dadd s (PoseOptModel.kind_score k))), !(G _ (fun n k => (n + PoseOptModel.kind_parts k)%nat)), K. auto.
Qed.
(** C131: so a set of matches is enough to optimise a pose if and only if its variations are: each iteration of the variance
    is the minimisation of its variation from the same pose, or all of them give no pose. *)
Theorem C131_same_decision : forall P finite (lm : P -> list feature -> option P) draws pose l, Forall well_formed l ->
  let enough := finite pose = true /\ (1 < PoseOptModel.parts kind_of l)%nat /\ DoubleModel.dlt (PoseOptModel.set_score kind_of l) DoubleModel.done = false in
  exists r, variated_set draws 0 l = Some r /\ Forall2 same_match l r /\
    (enough -> variation_of_pose finite lm draws pose l = Some (lm pose r)) /\
    (~ enough -> variation_of_pose finite lm draws pose l = Some None).
Proof.
  intros P finite lm draws pose l W enough. destruct (C131_same_matches draws l 0 W) as (r & E & S & _). exists r. split; [exact E|]. split; [exact S|].
  unfold variation_of_pose. rewrite E. unfold PoseOptModel.global_pose. destruct (same_gates l r S) as (-> & ->). change (PoseOptModel.coefficient_columns) with 1%nat. unfold enough.
  destruct (finite pose); cbn [negb]; [|split; [intros (X & _); discriminate|reflexivity]]. change (Nat.ltb 0 1) with true. cbn [andb].
  destruct (Nat.leb_spec (PoseOptModel.parts kind_of l) 1); [split; [intros (_ & X & _); lia|reflexivity]|].
  destruct (DoubleModel.dlt _ _); [split; [intros (_ & _ & X); discriminate|reflexivity]|]. split; [reflexivity|]. intros N. exfalso. apply N. auto.
Qed.
Print Assumptions C131_same_decision.

Lemma feature_exact d f : well_formed f -> known_exactly f -> feature_variation d f = Some f.
Proof.
  destruct f as [p|p|p]; cbn [feature_variation well_formed known_exactly]; intros W K.
  - destruct (C82_point_variation (mkV (d 0%nat) (d 1%nat) (d 2%nat)) p) as (_ & _ & _ & _ & _ & _ & _ & _ & E). now rewrite (E K).
  - destruct (C82_point2d_variation (d 0%nat) (d 1%nat) p W) as (g & -> & _ & F & I & T & H & X & Y & D & Id & De). f_equal. f_equal.
    rewrite K in T, H. cbn [vy vz v0] in T, H. rewrite Rmult_0_r, Rabs_R0 in T, H.
    assert (Z : forall a b, Rabs (a - b) <= 0 -> a = b) by (intros a b Q; unfold Rabs in Q; destruct (Rcase_abs (a - b)); lra). apply Z in T, H.
    destruct p as [px py [pa pb pc pe] pd pi pt], g as [gx gy [ga gb gc ge] gd gi gt]. cbn in *. now subst.
  - destruct K as (K & U). destruct (C82_plane_variation (mkV (d 0%nat) (d 1%nat) (d 2%nat)) (d 3%nat) p) as (_ & _ & _ & _ & _ & _ & E). now rewrite (E U K).
Qed.
Lemma set_exact draws l i : Forall well_formed l -> Forall known_exactly l -> variated_set draws i l = Some l.
Proof.
  revert i. induction l as [|f l IH]; intros i W K; [reflexivity|]. inversion W; inversion K; subst. cbn. now rewrite feature_exact, IH.
Qed.
Lemma variance_of_copies v (l : list vec6) a b : (2 <= length l)%nat -> (forall w, In w l -> w = v) -> sample_covariance l a b = 0.
Proof.
  intros L C. unfold sample_covariance. assert (N : 2 <= INR (length l)) by (replace 2 with (INR 2) by reflexivity; now apply le_INR).
  assert (M : forall c, mean l c = v c).
  { intros c. unfold mean. rewrite (rsum_ext _ (fun _ : vec6 => v c) l) by (intros w I; now rewrite (C w I)). rewrite rsum_const. field. lra. }
  rewrite (rsum_ext _ (fun _ : vec6 => 0) l) by (intros w I; rewrite (C w I), !M; ring). rewrite rsum_const. ring.
Qed.
(** C131: and when the features of the map are known exactly, the iterations compute the same pose, and the variance is the
    thousandth of the diagonal: nothing else is uncertain for it, not even the detections. *)
Theorem C131_exact_features : forall P finite (lm : P -> list feature -> option P) vector ldlt draws pose l iterations order m,
  Forall well_formed l -> Forall known_exactly l ->
  variance_of_matches finite lm vector ldlt draws pose l iterations order true = Some m ->
  forall a b, m a b = if Nat.eqb a b then / 1000 else 0.
Proof.
  intros P finite lm vector ldlt draws pose l iterations order m W K H a b. unfold variance_of_matches in H.
  destruct (C24_variance _ _ _ _ _ _ H) as ([(_ & _ & E)|(L & _ & E)] & _); rewrite E; [reflexivity|].
  assert (C : forall i, iteration_pose finite lm vector draws pose l i = iteration_pose finite lm vector draws pose l 0).
  { intros i. unfold iteration_pose, variation_of_pose. now rewrite !(set_exact _ l 0 W K). }
  set (ps := poses (iteration_pose finite lm vector draws pose l) order) in *.
  assert (exists v, forall w, In w ps -> w = v) as (v & V).
  { destruct (iteration_pose finite lm vector draws pose l 0) as [v|] eqn:E0.
    - exists v. intros w I. unfold ps, poses in I. apply in_flat_map in I. destruct I as (i & _ & I). rewrite C in I. destruct I as [<-|[]]. reflexivity.
    - exists (fun _ => 0). intros w I. unfold ps, poses in I. apply in_flat_map in I. destruct I as (i & _ & I). rewrite C in I. destruct I. }
  rewrite (variance_of_copies v) by assumption. ring.
Qed.
Print Assumptions C131_exact_features.
(** and it is computed when the pose is. *)
Theorem C131_exact_accepted : forall P finite (lm : P -> list feature -> option P) vector ldlt draws pose l iterations order p,
  Forall well_formed l -> Forall known_exactly l -> (2 <= iterations)%nat -> length order = iterations ->
  (forall m, (forall x, PoseVarianceProps.nonzero x -> 0 < quadratic m x) -> ldlt m = true) ->
  PoseOptModel.global_pose kind_of finite lm pose l = Some p ->
  exists m, variance_of_matches finite lm vector ldlt draws pose l iterations order true = Some m.
Proof.
  intros P finite lm vector ldlt draws pose l it order p W K I O Ld G. unfold variance_of_matches, pose_variance. destruct (Nat.eqb_spec it 0); [lia|].
  assert (C : forall i, iteration_pose finite lm vector draws pose l i = Some (vector p)).
  { intros i. unfold iteration_pose, variation_of_pose. now rewrite (set_exact _ l 0 W K), G. }
  assert (E : poses (iteration_pose finite lm vector draws pose l) order = map (fun _ => vector p) order).
  { unfold poses. clear O. induction order as [|i o IH]; [reflexivity|]. cbn. rewrite C, IH. reflexivity. }
  rewrite E. destruct (Nat.ltb_spec (length (map (fun _ : nat => vector p) order)) (it / 2)) as [Lt|_].
  { rewrite map_length, O in Lt. pose proof (Nat.div_lt it 2). lia. }
  destruct (covariance (map (fun _ => vector p) order)) as [m|] eqn:Cv.
  - exists m. unfold covariance_valid. rewrite Ld; [reflexivity|]. intros x X.
    assert (L2 : (2 <= length (map (fun _ : nat => vector p) order))%nat) by (rewrite map_length; lia).
    rewrite (quadratic_ext _ _ x (covariance_two _ _ L2 Cv)), quadratic_plus, quadratic_diag.
    rewrite (quadratic_ext (sample_covariance _) (fun _ _ => 0)).
    + pose proof (squares_pos x X). replace (quadratic (fun _ _ : nat => 0) x) with 0 by (unfold quadratic, six, rsum; cbn; ring). lra.
    + intros a b. apply (variance_of_copies (vector p)); [exact L2|]. intros w J. apply in_map_iff in J. now destruct J as (_ & <- & _).
  - exfalso. destruct order as [|i [|j o]]; cbn in O; [lia|lia|discriminate].
Qed.
Print Assumptions C131_exact_accepted.
(** Not vacuous: a set of five points known exactly is enough for the optimisation. *)
Definition known_point (i : nat) : feature := FPoint (mkPointF (INR i) 0 (mkV (INR i) 0 1000) v0 i i).
Example C131_example : let l := map known_point [0; 1; 2; 3; 4]%nat in
  Forall well_formed l /\ Forall known_exactly l /\ PoseOptModel.global_pose (P := nat) kind_of (fun _ => true) (fun p _ => Some p) 7%nat l = Some 7%nat.
Proof. cbv zeta. split; [repeat constructor|]. split; [repeat constructor|]. vm_compute. reflexivity. Qed.
(** C131: the poses of the variance are those of the variations, each with the draws of its iteration. *)
Theorem C131_iteration : forall P finite (lm : P -> list feature -> option P) vector draws pose l i v, Forall well_formed l ->
  (iteration_pose finite lm vector draws pose l i = Some v <->
   exists r p, variated_set (draws i) 0 l = Some r /\ PoseOptModel.global_pose kind_of finite lm pose r = Some p /\ v = vector p).
Proof.
  intros P finite lm vector draws pose l i v W. destruct (C131_same_matches (draws i) l 0 W) as (r & E & _). unfold iteration_pose, variation_of_pose. rewrite E. split.
  - destruct (PoseOptModel.global_pose kind_of finite lm pose r) as [p|] eqn:G; [|discriminate]. intros [= <-]. exists r, p. auto.
  - intros (r' & p & [= <-] & -> & ->). reflexivity.
Qed.
Print Assumptions C131_iteration.
(** The kinds that count: three planes, or five 2D points, are enough; two planes and a point are not. *)
Definition known_plane : feature := FPlane (mkPlaneF (mkPlane (mkV 0 0 1) 0) (mkPlane (mkV 0 0 1) 0) (mkV4 v0 0) 0 0).
Definition known_2d : feature := FPoint2d (mkPoint2F 0 0 (mkIdp v0 (/ 1000) 1 1) v0 0 0).
Example C131_kinds :
  let optimised l := PoseOptModel.global_pose (P := nat) kind_of (fun _ => true) (fun p _ => Some p) 7%nat l in
  optimised [known_plane; known_plane; known_plane] = Some 7%nat /\ optimised (repeat known_2d 5) = Some 7%nat /\
  optimised [known_plane; known_plane; known_point 0] = None /\ optimised (repeat known_2d 4) = None.
Proof. cbv zeta. repeat split; vm_compute; reflexivity. Qed.

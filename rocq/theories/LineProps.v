(** Lines and segments (C105). *)
From Verif Require Import LineSpec GeometryProps InverseDepthProps.
From Coq Require Import List Reals Lra.
Import ListNotations.
From Verif Require Import Vec3.
Local Open Scope R_scope.

Lemma sqn_zero a : sqn a = 0 -> a = v0.
Proof. destruct a as [x y z]. unfold sqn, dot. cbn [vx vy vz]. intros E. unfold v0. f_equal; nra. Qed.
Lemma sqn_nonneg a : 0 <= sqn a.
Proof. destruct a as [x y z]. unfold sqn, dot. cbn [vx vy vz]. nra. Qed.
Lemma normal_cases n : is_unit (vnormalized n) \/ vnormalized n = v0.
Proof.
  unfold vnormalized. destruct (Rlt_dec 0 (sqn n)) as [P|P].
  - left. pose proof (normalized_is_unit n) as U. unfold vnormalized in U. destruct (Rlt_dec 0 (sqn n)); [|easy]. apply U.
    intros ->. v3unfold. lra.
  - right. apply sqn_zero. pose proof (sqn_nonneg n). lra.
Qed.
Lemma scaled_line s d n k : k <> 0 -> d = vscal k n -> forall x, on_line s d x <-> on_line s n x.
Proof.
  intros K -> x. split; intros [t ->].
  - exists (t * k). v3ring.
  - exists (t / k). v3des. v3unfold. f_equal; field; exact K.
Qed.
Lemma regular_normal l : regular l ->
  (is_unit (compute_normal l) \/ compute_normal l = v0) /\ forall x, points_of l x <-> on_line (start_point l) (compute_normal l) x.
Proof.
  destruct l as [s e|s n]; intros R; cbn [regular compute_normal start_point points_of] in *; [|split; [exact R|reflexivity]].
  unfold segment_normal. split; [apply normal_cases|]. unfold vnormalized. destruct (Rlt_dec 0 (sqn (vsub e s))) as [P|P]; [|reflexivity].
  assert (N : 0 < norm (vsub e s)) by (apply sqrt_lt_R0; exact P).
  apply (scaled_line s (vsub e s) _ (norm (vsub e s))); [lra|]. set (k := norm (vsub e s)) in *. clearbody k. set (d := vsub e s). clearbody d.
  v3des. v3unfold. f_equal; field; lra.
Qed.
Lemma foot_gap s n p t : is_unit n \/ n = v0 ->
  sqn (vsub p (vadd s (vscal t n))) = sqn (vsub p (vadd s (vscal (dot (vsub p s) n) n))) + sqn (vscal (t - dot (vsub p s) n) n).
Proof.
  intros U. set (d := vsub p s). set (e := dot d n).
  assert (A : forall k, vsub p (vadd s (vscal k n)) = vsub d (vscal k n)) by (intros; unfold d; v3ring). rewrite !A.
  assert (S : forall k, sqn (vsub d (vscal k n)) = sqn d - 2 * k * dot d n + k * k * dot n n) by (intros k; v3ring).
  assert (Q : sqn (vscal (t - e) n) = (t - e) * (t - e) * dot n n) by v3ring. rewrite !S, Q. fold e. destruct U as [U| ->].
  - unfold is_unit in U. rewrite U. ring.
  - assert (e = 0) as -> by (unfold e; v3ring). unfold dot, v0. cbn. ring.
Qed.
(** The closest point of a line is the only point of the line nearest to the given one, and the
    distance is the vector between them, orthogonal to the line. *)
Theorem C105_nearest : forall l p, regular l ->
  nearest l p (closest_point l p) /\ (forall q, nearest l p q -> q = closest_point l p) /\
  line_distance l p = vsub p (closest_point l p) /\
  forall x y, points_of l x -> points_of l y -> dot (line_distance l p) (vsub x y) = 0.
Proof.
  intros l p R. destruct (regular_normal l R) as [U P]. unfold line_distance, closest_point.
  set (s := start_point l) in *. set (n := compute_normal l) in *. clearbody s n.
  set (c := vadd s (vscal (dot (vsub p s) n) n)).
  assert (C : points_of l c) by (apply P; exists (dot (vsub p s) n); reflexivity).
  split; [|split; [|split; [reflexivity|]]].
  - split; [exact C|]. intros x X. apply P in X as [t ->]. unfold dist, norm. apply sqrt_le_1_alt. rewrite (foot_gap s n p t U). fold c.
    pose proof (sqn_nonneg (vscal (t - dot (vsub p s) n) n)). lra.
  - intros q [Q M]. specialize (M c C). apply P in Q as [t ->]. unfold dist, norm in M.
    apply sqrt_le_0 in M; [|apply sqn_nonneg|apply sqn_nonneg]. rewrite (foot_gap s n p t U) in M. fold c in M.
    pose proof (sqn_nonneg (vscal (t - dot (vsub p s) n) n)) as NN. assert (Z : vscal (t - dot (vsub p s) n) n = v0) by (apply sqn_zero; lra).
    unfold c. assert (E : vscal t n = vadd (vscal (dot (vsub p s) n) n) (vscal (t - dot (vsub p s) n) n)).
    { generalize (dot (vsub p s) n). v3ring. }
    rewrite E, Z. generalize (vscal (dot (vsub p s) n) n). v3ring.
  - intros x y X Y. apply P in X as [t ->], Y as [u ->].
    assert (E : dot (vsub p c) (vsub (vadd s (vscal t n)) (vadd s (vscal u n))) = (t - u) * (dot (vsub p s) n - dot (vsub p s) n * dot n n)).
    { assert (G : forall e, dot (vsub p (vadd s (vscal e n))) (vsub (vadd s (vscal t n)) (vadd s (vscal u n))) =
                            (t - u) * (dot (vsub p s) n - e * dot n n)) by (intros e; v3ring).
      unfold c. apply G. }
    rewrite E. destruct U as [U| ->]; [unfold is_unit in U; rewrite U; ring|]. unfold dot, v0. cbn. ring.
Qed.
Print Assumptions C105_nearest.
(** The lines and segments built by their constructors stay in this case with all the changes,
    except when they are given a direction that is not of length 1. *)
Theorem C105_history : forall start v segment changes, Forall regular_change changes ->
  regular (fold_left apply changes (if segment : bool then Seg start v else make_line start v)).
Proof.
  intros start v segment changes F. assert (I : regular (if segment then Seg start v else make_line start v)).
  { destruct segment; [exact I|]. apply normal_cases. }
  revert I. generalize (if segment then Seg start v else make_line start v) as l.
  induction F as [|c changes C F IH]; intros l L; [exact L|]. cbn [fold_left]. apply IH. destruct l, c; cbn in *; auto.
Qed.
Print Assumptions C105_history.
(** A line given the direction (2, 0, 0) does not find the closest point. *)
Theorem C105_direction_refuted : exists l p, l = apply (make_line v0 (mkV 1 0 0)) (SetNormal (mkV 2 0 0)) /\ ~ nearest l p (closest_point l p).
Proof.
  exists (Dir v0 (mkV 2 0 0)), (mkV 1 0 0). split; [reflexivity|]. intros [_ M].
  specialize (M (mkV 1 0 0)). cbn in M. unfold closest_point in M. cbn in M.
  assert (X : on_line v0 (mkV 2 0 0) (mkV 1 0 0)) by (exists (1 / 2); unfold vadd, vscal, v0; cbn; f_equal; lra).
  specialize (M X). unfold dist, norm in M. apply sqrt_le_0 in M; try apply sqn_nonneg.
  unfold sqn, dot, vsub, vadd, vscal, v0 in M. cbn in M. lra.
Qed.
Print Assumptions C105_direction_refuted.

(** ** Intersections *)

(** The point found is common to the two segments, and one is found whenever there is one. *)
Theorem C105_segments : forall crossings a b c d, lawful crossings ->
  (forall p, intersects_segments crossings a b c d = Crosses p -> common a b c d p) /\
  ((exists p, common a b c d p) -> exists p, intersects_segments crossings a b c d = Crosses p).
Proof.
  intros crossings a b c d L. specialize (L a b c d). unfold intersects_segments. destruct (crossings a b c d) as [[|q l]|].
  - destruct L as [_ L]. split; [discriminate|]. intros X. now apply L in X.
  - destruct L as [L _]. split; [|eauto]. intros p [= <-]. apply L. now left.
  - split; [discriminate|]. intros X. now destruct L.
Qed.
Print Assumptions C105_segments.
(** When the segments have no common point the answer is [false] or, with a library that
    reports success with no point, a read out of an empty vector. *)
Theorem C105_apart : forall crossings a b c d, lawful crossings -> (~ exists p, common a b c d p) ->
  (crossings a b c d = None /\ intersects_segments crossings a b c d = Apart) \/
  (crossings a b c d = Some [] /\ intersects_segments crossings a b c d = Missing).
Proof.
  intros crossings a b c d L N. specialize (L a b c d). unfold intersects_segments. destruct (crossings a b c d) as [[|q l]|]; auto.
  exfalso. apply N. exists q. apply L. now left.
Qed.
Print Assumptions C105_apart.
Lemma ahead_segment l p : ahead l p <-> on_segment (start_point l) (vadd (start_point l) (vscal 100 (compute_normal l))) p.
Proof.
  unfold ahead, on_segment. generalize (start_point l) (compute_normal l). intros s n. split; intros (t & T & ->).
  - exists (t / 100). split; [lra|]. v3des. v3unfold. f_equal; field.
  - exists (100 * t). split; [lra|]. v3ring.
Qed.
(** The point found is on both lines, at 100 units at most of their starts and in their
    directions, and one is found whenever there is such a point. *)
Theorem C105_lines : forall crossings l m, lawful crossings -> regular l -> regular m ->
  (forall p, intersects_lines crossings l m = Crosses p -> (ahead l p /\ ahead m p) /\ points_of l p /\ points_of m p) /\
  ((exists p, ahead l p /\ ahead m p) -> exists p, intersects_lines crossings l m = Crosses p).
Proof.
  intros crossings l m L RL RM. unfold intersects_lines, projection_distance.
  destruct (C105_segments crossings (start_point l) (vadd (start_point l) (vscal 100 (compute_normal l)))
              (start_point m) (vadd (start_point m) (vscal 100 (compute_normal m))) L) as [A B]. split.
  - intros p E. apply A in E as [X Y]. apply ahead_segment in X, Y. split; [auto|].
    destruct (regular_normal l RL) as [_ PL], (regular_normal m RM) as [_ PM]. rewrite PL, PM.
    destruct X as (t & _ & ->), Y as (u & _ & E). split; [now exists t|exists u; exact E].
  - intros (p & X & Y). apply B. exists p. split; now apply ahead_segment.
Qed.
Print Assumptions C105_lines.
(** So two lines that cross further are not seen to cross. *)
Theorem C105_far_refuted : exists l m p, regular l /\ regular m /\ points_of l p /\ points_of m p /\
  forall crossings q, lawful crossings -> intersects_lines crossings l m <> Crosses q.
Proof.
  assert (UX : is_unit (mkV 1 0 0)) by (v3unfold; ring). assert (UY : is_unit (mkV 0 1 0)) by (v3unfold; ring).
  exists (Dir v0 (mkV 1 0 0)), (Dir (mkV 200 0 0) (mkV 0 1 0)), (mkV 200 0 0). split; [now left|]. split; [now left|]. split; [|split].
  - exists 200. v3unfold. f_equal; ring.
  - exists 0. v3unfold. f_equal; ring.
  - intros crossings q L E. apply (C105_lines crossings) in E; [|exact L|now left|now left].
    destruct E as [[(t & T & E1) (u & U & E2)] _]. rewrite E1 in E2. cbn in E2. v3unfold. injection E2 as E2 _. lra.
Qed.
Print Assumptions C105_far_refuted.
(** A library that gives the crossing of the two axes: the diagonals of a square cross. *)
Example C105_example : nearest (make_line (mkV 0 0 0) (mkV 0 3 0)) (mkV 2 5 0) (mkV 0 5 0) /\
  common (mkV 0 0 0) (mkV 2 2 0) (mkV 2 0 0) (mkV 0 2 0) (mkV 1 1 0).
Proof.
  split.
  - assert (N : vnormalized (mkV 0 3 0) = mkV 0 1 0).
    { unfold vnormalized. destruct (Rlt_dec 0 (sqn (mkV 0 3 0))) as [P|P]; [|exfalso; apply P; v3unfold; lra].
      assert (norm (mkV 0 3 0) = 3) as ->. { unfold norm. replace (sqn _) with (3 * 3) by (v3unfold; ring). apply sqrt_square. lra. }
      v3unfold. f_equal; field. }
    assert (R : regular (make_line (mkV 0 0 0) (mkV 0 3 0))) by apply normal_cases.
    destruct (C105_nearest _ (mkV 2 5 0) R) as [C _].
    replace (mkV 0 5 0) with (closest_point (make_line (mkV 0 0 0) (mkV 0 3 0)) (mkV 2 5 0)); [exact C|].
    unfold closest_point, make_line. cbn [compute_normal start_point]. rewrite N. v3unfold. f_equal; ring.
  - split; exists (1 / 2); (split; [lra|]); v3unfold; f_equal; lra.
Qed.

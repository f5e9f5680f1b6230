(** The distance to a detected cylinder (C116). *)
From Verif Require Import Vec3 CylinderDistanceSpec CylinderDistanceModel.
From Coq Require Import Lia Lra.
Local Open Scope R_scope.

(** ** The distance to a line *)
Lemma lagrange a b : sqn (cross a b) = sqn a * sqn b - dot a b * dot a b.
Proof. v3ring. Qed.
Lemma sqn_pos a : a <> v0 -> 0 < sqn a.
Proof. intros N. destruct (Rle_lt_or_eq_dec 0 (sqn a) (sqn_nonneg a)) as [H|H]; [exact H|]. exfalso. apply N, sqn_zero. now symmetry. Qed.
Lemma norm_pos a : a <> v0 -> 0 < norm a.
Proof. intros N. apply sqrt_lt_R0. now apply sqn_pos. Qed.
Lemma cross_distance c u p : u <> v0 -> line_distance c u p (norm (cross (vsub (vadd c u) c) (vsub p (vadd c u))) / norm u).
Proof.
  intros N. set (q := vsub p c).
  assert (E : norm (cross (vsub (vadd c u) c) (vsub p (vadd c u))) = norm (cross u q)).
  { unfold norm. f_equal. unfold q. v3ring. }
  rewrite E. pose proof (sqn_pos u N) as S. pose proof (norm_pos u N) as P.
  assert (D : forall t, dist p (vadd c (vscal t u)) = norm (vsub q (vscal t u))).
  { intros t. unfold dist, norm. f_equal. unfold q. v3ring. }
  assert (X : forall t, sqn (vsub q (vscal t u)) * sqn u = sqn (cross u q) + (dot u q - t * sqn u) * (dot u q - t * sqn u)).
  { intros t. unfold q. v3ring. }
  assert (L : forall t, norm (cross u q) / norm u <= norm (vsub q (vscal t u))).
  { intros t. apply Rmult_le_reg_r with (norm u); [exact P|]. unfold Rdiv. rewrite Rmult_assoc, Rinv_l, Rmult_1_r by lra.
    unfold norm. rewrite <- sqrt_mult by apply sqn_nonneg. apply sqrt_le_1; [apply sqn_nonneg|apply Rmult_le_pos; apply sqn_nonneg|].
    rewrite X. pose proof (Rle_0_sqr (dot u q - t * sqn u)) as Q. unfold Rsqr in Q. lra. }
  split.
  - exists (dot u q / sqn u). rewrite D. apply Rmult_eq_reg_r with (norm u); [|lra].
    unfold Rdiv at 2. rewrite Rmult_assoc, Rinv_l, Rmult_1_r by lra. unfold norm. rewrite <- sqrt_mult by apply sqn_nonneg. f_equal.
    rewrite X. replace (dot u q / sqn u * sqn u) with (dot u q) by (field; lra). ring.
  - intros t. rewrite D. apply L.
Qed.
Lemma line_distance_unique c u p d d' : line_distance c u p d -> line_distance c u p d' -> d = d'.
Proof. intros [[t E] L] [[t' E'] L']. specialize (L t'). specialize (L' t). lra. Qed.

(** ** The parts of a detected cylinder *)
Lemma detected_parts : forall parts s, let s' := fold_left (fun s p => add_part s (fst p) (snd p)) parts s in
  axis s' = axis s /\ centers s' = centers s ++ map fst parts /\ points1 s' = points1 s ++ map fst parts /\
  points2 s' = points2 s ++ map (fun p => vadd (fst p) (axis s)) parts /\
  lengths s' = lengths s ++ map (fun p => norm (vsub (vadd (fst p) (axis s)) (fst p))) parts /\
  radii s' = radii s ++ map (fun p => Rabs (snd p)) parts /\ count s' = (count s + length parts)%nat.
Proof.
  induction parts as [|[c r] parts IH]; intros s; cbn [fold_left map fst snd length]; cbv zeta.
  - rewrite !app_nil_r, Nat.add_0_r. repeat split.
  - destruct (IH (add_part s c r)) as (A & B & C & D & E & F & G). cbv zeta in *. rewrite A, B, C, D, E, F, G.
    cbn [add_part axis centers points1 points2 lengths radii count]. rewrite <- !app_assoc.
    assert (AB : (if Rlt_dec r 0 then - r else r) = Rabs r).
    { destruct (Rlt_dec r 0); [rewrite Rabs_left; lra|rewrite Rabs_right; lra]. }
    rewrite AB. repeat split. lia.
Qed.
Lemma vsub_vadd c u : vsub (vadd c u) c = u.
Proof. v3ring. Qed.
Lemma part_found a parts p i : a <> v0 -> forall part, nth_error parts i = Some part ->
  exists d, part_distance (detected a parts) p i = Some (d - Rabs (snd part)) /\ line_distance (fst part) a p d.
Proof.
  intros N part E. destruct (detected_parts parts (no_part a)) as (_ & _ & P1 & P2 & L & R & _). cbv zeta in *.
  cbn [no_part axis points1 points2 lengths radii app] in *. unfold part_distance, detected.
  rewrite P1, P2, L, R, !nth_error_map, E. cbn [option_map]. eexists. split; [reflexivity|].
  rewrite (vsub_vadd (fst part) a) at 2. now apply cross_distance.
Qed.
Lemma nearest_part a parts p : a <> v0 -> forall n i best, (i + n = length parts)%nat ->
  exists d, nearest (detected a parts) p n i best = Some d /\ d <= best /\
    (forall j part x, (i <= j)%nat -> nth_error parts j = Some part -> line_distance (fst part) a p x -> d <= x - Rabs (snd part)) /\
    (d = best \/ exists part x, In part parts /\ line_distance (fst part) a p x /\ d = x - Rabs (snd part)).
Proof.
  intros N. induction n as [|n IH]; intros i best L; cbn [nearest].
  - exists best. split; [reflexivity|]. split; [lra|]. split; [|now left].
    intros j part x I E. assert (nth_error parts j <> None) as B by congruence. apply nth_error_Some in B. lia.
  - destruct (nth_error parts i) as [part|] eqn:E; [|apply nth_error_None in E; lia].
    destruct (part_found a parts p i N part E) as (x & F & X). rewrite F.
    destruct (IH (S i) (if Rlt_dec (x - Rabs (snd part)) best then x - Rabs (snd part) else best)) as (d & Q & B & A & W); [lia|].
    exists d. split; [exact Q|]. destruct (Rlt_dec (x - Rabs (snd part)) best) as [l|l].
    + split; [lra|]. split.
      * intros j part' x' I E' X'. destruct (Nat.eq_dec j i) as [->|D]; [|apply (A j part'); auto; lia].
        rewrite E in E'. injection E' as <-. rewrite (line_distance_unique _ _ _ _ _ X' X). exact B.
      * right. destruct W as [->|W]; [|exact W]. exists part, x. repeat split; [|exact (proj1 X)|exact (proj2 X)]. eapply nth_error_In; exact E.
    + split; [lra|]. split; [|exact W]. intros j part' x' I E' X'. destruct (Nat.eq_dec j i) as [->|D]; [|apply (A j part'); auto; lia].
      rewrite E in E'. injection E' as <-. rewrite (line_distance_unique _ _ _ _ _ X' X). lra.
Qed.

(** The distance is that to the axis of a part less its radius, and the least one. *)
Theorem C116_distance : forall a parts p, a <> v0 -> parts <> [] ->
  exists d, get_distance (detected a parts) p = Some d /\
    (exists part x, In part parts /\ line_distance (fst part) a p x /\ d = x - Rabs (snd part)) /\
    forall part x, In part parts -> line_distance (fst part) a p x -> d <= x - Rabs (snd part).
Proof.
  intros a parts p N NE. destruct parts as [|first parts]; [easy|].
  destruct (part_found a (first :: parts) p 0 N first eq_refl) as (x & F & X). unfold get_distance. rewrite F.
  assert (L : length (points1 (detected a (first :: parts))) = S (length parts)).
  { destruct (detected_parts (first :: parts) (no_part a)) as (_ & _ & P1 & _). cbv zeta in P1. unfold detected. rewrite P1.
    rewrite app_length, map_length. reflexivity. }
  rewrite L. destruct (nearest_part a (first :: parts) p N (S (length parts) - 1) 1 (x - Rabs (snd first))) as (d & Q & B & A & W).
  { cbn [length]. lia. }
  exists d. split; [exact Q|]. split.
  - destruct W as [->|W]; [|exact W]. exists first, x. split; [now left|]. now split.
  - intros part x' I X'. apply In_nth_error in I as [j E]. destruct j as [|j]; [|apply (A (S j) part); auto; lia].
    injection E as <-. rewrite (line_distance_unique _ _ _ _ _ X' X). exact B.
Qed.
Print Assumptions C116_distance.

(** Its sign: negative inside of a part, null on the surface of the whole, positive outside. *)
Theorem C116_sign : forall a parts p, a <> v0 -> parts <> [] ->
  exists d, get_distance (detected a parts) p = Some d /\
    (d < 0 <-> exists part, In part parts /\ inside a part p) /\
    (d <= 0 <-> exists part, In part parts /\ touches a part p).
Proof.
  intros a parts p N NE. destruct (C116_distance a parts p N NE) as (d & E & (part & x & I & X & D) & L). exists d. split; [exact E|].
  destruct X as [[t T] M]. split; (split; [intros H; exists part; split; [exact I|]; exists t; lra|]).
  - intros (part' & I' & t' & T'). pose proof (L part' _ I' (cross_distance (fst part') a p N)) as B.
    destruct (cross_distance (fst part') a p N) as [_ Q]. specialize (Q t'). lra.
  - intros (part' & I' & t' & T'). pose proof (L part' _ I' (cross_distance (fst part') a p N)) as B.
    destruct (cross_distance (fst part') a p N) as [_ Q]. specialize (Q t'). lra.
Qed.
Print Assumptions C116_sign.

(** Two directions: between 0 and 1, the same for both orders, 1 exactly for parallel axes. *)
Theorem C116_similarity : forall a b parts parts', is_unit a -> is_unit b ->
  let s := similarity (detected a parts) (detected b parts') in
  0 <= s <= 1 /\ similarity (detected b parts') (detected a parts) = s /\ (s = 1 <-> a = b \/ a = vneg b) /\ (s = 0 <-> dot a b = 0).
Proof.
  intros a b parts parts' A B s.
  assert (S : s = Rabs (dot a b)).
  { unfold s, similarity, detected. destruct (detected_parts parts (no_part a)) as (-> & _). destruct (detected_parts parts' (no_part b)) as (-> & _). reflexivity. }
  assert (S' : similarity (detected b parts') (detected a parts) = Rabs (dot b a)).
  { unfold similarity, detected. destruct (detected_parts parts (no_part a)) as (-> & _). destruct (detected_parts parts' (no_part b)) as (-> & _). reflexivity. }
  rewrite S, S', (dot_comm b a). pose proof (cauchy a b) as C. unfold sqn in C. unfold is_unit in A, B. rewrite A, B in C.
  assert (U : forall c, dot c c = 0 -> c = v0) by (intros c H; apply sqn_zero; exact H).
  split; [split; [apply Rabs_pos|apply Rabs_le; nra]|]. split; [reflexivity|]. split; split.
  - intros H. unfold Rabs in H. destruct (Rcase_abs (dot a b)).
    + right. assert (Z : vadd a b = v0).
      { apply U. rewrite dot_add_l, !dot_add_r, A, B, (dot_comm b a). lra. }
      apply (f_equal (fun v => vsub v b)) in Z. transitivity (vsub (vadd a b) b); [v3ring|]. rewrite Z. v3ring.
    + left. assert (Z : vsub a b = v0).
      { apply U. rewrite dot_sub_l, !dot_sub_r, A, B, (dot_comm b a). lra. }
      apply (f_equal (fun v => vadd v b)) in Z. transitivity (vadd (vsub a b) b); [v3ring|]. rewrite Z. v3ring.
  - intros [->| ->]; [rewrite B; apply Rabs_R1|]. rewrite dot_neg_l, B, Rabs_Ropp. apply Rabs_R1.
  - intros H. destruct (Req_dec (dot a b) 0) as [E|E]; [exact E|]. exfalso. now apply Rabs_no_R0 in E.
  - intros ->. apply Rabs_R0.
Qed.
Print Assumptions C116_similarity.

(** C116, refuted: a copy keeps the axis, the centres and the radii but no part: asking for a
    distance to it reads elements that do not exist, as for a cylinder without part. *)
Theorem C116_copy_refuted : forall a parts p,
  let s := detected a parts in
  count s = length parts /\ count (copy s) = O /\
  axis (copy s) = a /\ centers (copy s) = map fst parts /\ radii (copy s) = map (fun part => Rabs (snd part)) parts /\
  get_distance (copy s) p = None /\ get_distance (detected a []) p = None /\
  forall i, (i < length parts)%nat -> exists s', copy_part s i = Some s' /\ axis s' = a /\
    centers s' = firstn 1 (skipn i (map fst parts)) /\ radii s' = firstn 1 (skipn i (map (fun part => Rabs (snd part)) parts)) /\
    get_distance s' p = None.
Proof.
  intros a parts p s. destruct (detected_parts parts (no_part a)) as (A & C & _ & _ & _ & R & K). cbv zeta in *.
  change (fold_left _ parts (no_part a)) with s in *. cbn [no_part axis centers radii count app Nat.add] in *.
  repeat split; auto. intros i L. unfold copy_part. rewrite C, R.
  assert (F : forall (B : Type) (l : list B) j, (j < length l)%nat -> exists b, nth_error l j = Some b /\ firstn 1 (skipn j l) = [b]).
  { intros B l. induction l as [|b l IH]; intros j H; [cbn in H; lia|]. destruct j as [|j]; [exists b; now split|].
    cbn [nth_error skipn]. apply IH. cbn [length] in H. lia. }
  destruct (F _ (map fst parts) i) as (c & -> & ->); [now rewrite map_length|].
  destruct (F _ (map (fun part => Rabs (snd part)) parts) i) as (r & -> & ->); [now rewrite map_length|].
  eexists. split; [reflexivity|]. repeat split. exact A.
Qed.
Print Assumptions C116_copy_refuted.

(** Two vertical cylinders of radius 1, ten apart: a point at distance 3 of the axis of the first
    one is outside of both, its distance is 2. *)
Example C116_example : exists d,
  get_distance (detected (mkV 0 0 1) [(mkV 0 0 0, -1); (mkV 10 0 0, 1)]) (mkV 3 0 5) = Some d /\ d = 2.
Proof.
  assert (N : mkV 0 0 1 <> v0) by (intros H; injection H; lra).
  destruct (C116_distance (mkV 0 0 1) [(mkV 0 0 0, -1); (mkV 10 0 0, 1)] (mkV 3 0 5) N ltac:(discriminate)) as (d & E & (part & x & I & X & D) & L).
  exists d. split; [exact E|].
  assert (Q : forall c, line_distance (mkV c 0 0) (mkV 0 0 1) (mkV 3 0 5) (Rabs (3 - c))).
  { intros c. assert (Y : forall t, dist (mkV 3 0 5) (vadd (mkV c 0 0) (vscal t (mkV 0 0 1))) = sqrt ((3 - c) * (3 - c) + (5 - t) * (5 - t))).
    { intros t. unfold dist, norm. f_equal. v3unfold. ring. }
    split; [exists 5; rewrite Y; replace ((3 - c) * (3 - c) + (5 - 5) * (5 - 5)) with (Rsqr (3 - c)) by (unfold Rsqr; ring); apply sqrt_Rsqr_abs|].
    intros t. rewrite Y, <- sqrt_Rsqr_abs. pose proof (Rle_0_sqr (3 - c)) as Q1. pose proof (Rle_0_sqr (5 - t)) as Q2. unfold Rsqr in *. apply sqrt_le_1; lra. }
  destruct I as [<-|[<-|[]]]; cbn [fst snd] in *.
  - rewrite (line_distance_unique _ _ _ _ _ X (Q 0)) in D. rewrite D, Rminus_0_r, (Rabs_right 3), (Rabs_left (-1)); lra.
  - pose proof (L (mkV 0 0 0, -1) _ (or_introl eq_refl) (Q 0)) as B. cbn [snd] in B.
    rewrite (line_distance_unique _ _ _ _ _ X (Q 10)) in D. rewrite Rminus_0_r, (Rabs_right 3), (Rabs_left (-1)) in B by lra.
    replace (3 - 10) with (-7) in D by lra. rewrite (Rabs_left (-7)), Rabs_R1 in D by lra. lra.
Qed.

(** Property C63: the estimated cylinder is the best one, exact on exact data. *)
From Verif Require Import CylinderGeometryModel.
Local Open Scope R_scope.

(** sum of squared distances between the centers seen by each patch and a center *)
Definition cost (l : list patch) (r : R) (c : vec) : R := rsum (fun p => sqn (vsub (vsub (snd p) (vscal r (fst p))) c)) l.
Definition unit_normals (l : list patch) : Prop := forall p, In p l -> is_unit (fst p).

Lemma INR_pos {A} (l : list A) : l <> [] -> 0 < INR (length l).
Proof. intros H. destruct l; [congruence|]. cbn [length]. apply lt_0_INR. lia. Qed.

(** twice the number of patches squared times [lls_a]: spread of the normals *)
Lemma spread l : l <> [] -> unit_normals l ->
  2 * (INR (length l) * INR (length l)) * lls_a l = rsum (fun p => rsum (fun q => sqn (vsub (fst p) (fst q))) l) l.
Proof.
  intros N U. pose proof (INR_pos l N) as P.
  transitivity (rsum (fun p => rsum (fun q => 2 - 2 * dot (fst p) (fst q)) l) l).
  - transitivity (rsum (fun p => INR (length l) * 2 - 2 * dot (fst p) (vsum fst l)) l).
    + rewrite rsum_minus, rsum_const, rsum_scal.
      replace (rsum (fun p => dot (fst p) (vsum fst l)) l) with (sqn (vsum fst l)).
      * unfold lls_a. field. lra.
      * unfold sqn. rewrite dot_vsum. apply rsum_ext. intros. apply dot_comm.
    + apply rsum_ext. intros p _. rewrite rsum_minus, rsum_const, rsum_scal, dot_vsum. reflexivity.
  - apply rsum_ext. intros p Hp. apply rsum_ext. intros q Hq. pose proof (U p Hp). pose proof (U q Hq). unfold is_unit in *.
    unfold sqn. rewrite dot_sub_l, !dot_sub_r, (dot_comm (fst q) (fst p)). lra.
Qed.
Lemma lls_a_nonneg l : l <> [] -> unit_normals l -> 0 <= lls_a l.
Proof.
  intros N U. pose proof (spread l N U) as S. pose proof (INR_pos l N) as P.
  assert (0 <= 2 * (INR (length l) * INR (length l)) * lls_a l) as K.
  { rewrite S. apply rsum_nonneg. intros. apply rsum_nonneg. intros. apply sqn_nonneg. }
  apply Rmult_le_reg_l with (2 * (INR (length l) * INR (length l))); nra.
Qed.
Lemma lls_a_pos l : unit_normals l -> (exists p q, In p l /\ In q l /\ fst p <> fst q) -> 0 < lls_a l.
Proof.
  intros U (p & q & Ip & Iq & D). assert (l <> []) as N by (intros ->; destruct Ip).
  pose proof (spread l N U) as S. pose proof (INR_pos l N) as P.
  assert (0 < 2 * (INR (length l) * INR (length l)) * lls_a l) as K.
  { rewrite S. apply (rsum_pos _ _ p); [intros; apply rsum_nonneg; intros; apply sqn_nonneg|assumption|].
    apply (rsum_pos _ _ q); [intros; apply sqn_nonneg|assumption|].
    destruct (sqn_nonneg (vsub (fst p) (fst q))) as [L|E]; [exact L|]. exfalso. apply D. symmetry in E. apply sqn_zero in E.
    apply vec_eq; [apply (f_equal vx) in E|apply (f_equal vy) in E|apply (f_equal vz) in E]; cbn in E; lra. }
  apply Rmult_lt_reg_l with (2 * (INR (length l) * INR (length l))); nra.
Qed.

(** the cost as a function of the radius and center *)
Lemma cost_eq l r c : l <> [] -> unit_normals l ->
  cost l r c = (rsum (fun p => sqn (snd p)) l - sqn (vsum snd l) / INR (length l))
               - 2 * r * (INR (length l) * lls_b l) + r * r * (INR (length l) * lls_a l)
               + INR (length l) * sqn (vsub c (vscal (1 / INR (length l)) (vsub (vsum snd l) (vscal r (vsum fst l))))).
Proof.
  intros N U. pose proof (INR_pos l N) as P. unfold cost.
  transitivity (rsum (fun p => sqn (snd p) - 2 * r * dot (fst p) (snd p) + r * r * 1 - 2 * dot c (snd p) + 2 * r * dot c (fst p) + sqn c) l).
  { apply rsum_ext. intros p Hp. pose proof (U p Hp) as Up. unfold is_unit in Up. rewrite <- Up at 1. v3ring. }
  rewrite !rsum_plus, !rsum_minus, !rsum_plus, !rsum_minus, !rsum_scal, !rsum_const, <- !dot_vsum.
  unfold lls_a, lls_b. set (m := INR (length l)) in *. set (N1 := vsum fst l). set (C1 := vsum snd l).
  set (X := rsum (fun p => sqn (snd p)) l). set (Y := rsum (fun p => dot (fst p) (snd p)) l).
  replace (sqn (vsub c (vscal (1 / m) (vsub C1 (vscal r N1))))) with
    (sqn c - 2 / m * (dot c C1 - r * dot c N1) + 1 / (m * m) * (sqn C1 - 2 * r * dot N1 C1 + r * r * sqn N1)).
  2:{ clearbody m N1 C1. clear - P. v3des. v3unfold. field. lra. }
  field. lra.
Qed.

(** C63: among all radii and centers, those computed have the least cost. *)
Theorem C63_least_squares : forall l,
  unit_normals l -> (exists p q, In p l /\ In q l /\ fst p <> fst q) ->
  forall r c, cost l (lls_radius l) (lls_center l) <= cost l r c.
Proof.
  intros l U D r c. assert (l <> []) as N by (destruct D as (p & _ & I & _); intros ->; destruct I).
  pose proof (lls_a_pos l U D) as A. pose proof (INR_pos l N) as P.
  rewrite !cost_eq by assumption. fold (lls_center l).
  replace (sqn (vsub (lls_center l) (lls_center l))) with 0 by v3ring.
  set (K := sqn (vsub c _)). assert (0 <= INR (length l) * K) by (apply Rmult_le_pos; [lra|apply sqn_nonneg]).
  set (m := INR (length l)) in *. unfold lls_radius. set (a := lls_a l) in *. set (b := lls_b l). clearbody a b m K.
  assert (0 <= m * a * ((r - b / a) * (r - b / a))) as Q by (apply Rmult_le_pos; [nra|apply Rle_0_sqr]).
  replace (m * a * ((r - b / a) * (r - b / a))) with (- 2 * r * (m * b) + r * r * (m * a) - (- 2 * (b / a) * (m * b) + b / a * (b / a) * (m * a))) in Q by (field; lra).
  lra.
Qed.
Print Assumptions C63_least_squares.

(** patches of a cylinder: centroid at distance [r] of the axis line (c, axis) along the
    normal, which is orthogonal to the axis *)
Definition on_cylinder (axis c : vec) (r : R) (p : patch) : Prop :=
  is_unit (fst p) /\ dot axis (fst p) = 0 /\ exists t, snd p = vadd (vadd c (vscal t axis)) (vscal r (fst p)).

Lemma project_on axis c r p : is_unit axis -> on_cylinder axis c r p ->
  project_patch axis p = (fst p, vadd (project axis c) (vscal r (fst p))).
Proof.
  intros Ua (Un & O & t & E). unfold project_patch.
  assert (project axis (fst p) = fst p) as -> by (unfold project; rewrite O; v3ring).
  rewrite (norm_unit (fst p)), Rinv_1 by assumption. cbn [fst snd].
  f_equal; [v3ring|]. rewrite E. unfold project. rewrite !dot_add_r, !dot_scal_r, O. unfold is_unit in Ua. rewrite Ua. v3ring.
Qed.
Lemma exact_cost l c r : (forall p, In p l -> snd p = vadd c (vscal r (fst p))) -> cost l r c = 0.
Proof.
  intros E. unfold cost. transitivity (rsum (fun _ : patch => 0) l); [|rewrite rsum_const; ring].
  apply rsum_ext. intros p Hp. rewrite (E p Hp). v3ring.
Qed.
Lemma exact_lls l c r : unit_normals l -> (exists p q, In p l /\ In q l /\ fst p <> fst q) ->
  (forall p, In p l -> snd p = vadd c (vscal r (fst p))) -> lls_radius l = r /\ lls_center l = c.
Proof.
  intros U D E. assert (l <> []) as N by (destruct D as (p & _ & I & _); intros ->; destruct I).
  pose proof (lls_a_pos l U D) as A. pose proof (INR_pos l N) as P.
  assert (vsum snd l = vadd (vscal (INR (length l)) c) (vscal r (vsum fst l))) as S.
  { clear - E. induction l as [|p l IH]; [cbn; v3ring|]. rewrite !vsum_cons, (E p) by now left.
    rewrite IH by (intros; apply E; now right). cbn [length]. rewrite S_INR. generalize (vsum fst l) (INR (length l)) (fst p). v3ring. }
  assert (rsum (fun p => dot (fst p) (snd p)) l = dot c (vsum fst l) + r * INR (length l)) as B.
  { transitivity (rsum (fun p => dot c (fst p) + r * 1) l).
    - apply rsum_ext. intros p Hp. rewrite (E p Hp). pose proof (U p Hp) as Up. unfold is_unit in Up.
      rewrite dot_add_r, dot_scal_r, (dot_comm (fst p) c), Up. ring.
    - rewrite rsum_plus, rsum_const, <- dot_vsum. ring. }
  assert (lls_b l = r * lls_a l) as Eb.
  { unfold lls_b, lls_a. rewrite B, S. set (m := INR (length l)) in *. set (v := vsum fst l).
    rewrite dot_add_r, !dot_scal_r, (dot_comm v c). unfold sqn. field. lra. }
  assert (lls_radius l = r) as R by (unfold lls_radius; rewrite Eb; field; lra).
  split; [exact R|]. unfold lls_center. rewrite R, S. set (m := INR (length l)) in *. set (v := vsum fst l). clearbody m v. clear - P.
  v3des. v3unfold. apply vec_eq; cbn; field; lra.
Qed.
Lemma axis_distance_on axis c r t n : is_unit axis -> is_unit n -> dot axis n = 0 ->
  axis_distance (project axis c) (vadd (project axis c) axis) (vadd (vadd c (vscal t axis)) (vscal r n)) = Rabs r.
Proof.
  intros Ua Un O. unfold axis_distance.
  replace (vsub (vadd (project axis c) axis) (project axis c)) with axis by v3ring.
  rewrite (norm_unit axis) by assumption.
  replace (cross axis (vsub (vadd (vadd c (vscal t axis)) (vscal r n)) (vadd (project axis c) axis))) with (vscal r (cross axis n)) by (unfold project; v3ring).
  rewrite norm_scal. rewrite (norm_unit (cross axis n)); [field|].
  unfold is_unit in *. transitivity (dot axis axis * dot n n - dot axis n * dot axis n); [v3ring|]. rewrite Ua, Un, O. ring.
Qed.

(** C63: on the patches of a cylinder, with its axis, the radius and the axis line are
    recovered, with no error, as soon as two normals differ. *)
Theorem C63_exact : forall axis c r l,
  is_unit axis -> (forall p, In p l -> on_cylinder axis c r p) -> (exists p q, In p l /\ In q l /\ fst p <> fst q) ->
  estimate axis l = (Rabs r, project axis c, 0).
Proof.
  intros axis c r l Ua On D. unfold estimate. set (l' := map (project_patch axis) l).
  assert (forall p', In p' l' -> exists p, In p l /\ p' = (fst p, vadd (project axis c) (vscal r (fst p)))) as Im.
  { intros p' H. apply in_map_iff in H. destruct H as (p & <- & H). exists p. split; [exact H|]. apply project_on; auto. }
  assert (unit_normals l') as U.
  { intros p' H. destruct (Im p' H) as (p & Hp & ->). cbn. apply (On p Hp). }
  assert (exists p q, In p l' /\ In q l' /\ fst p <> fst q) as D'.
  { destruct D as (p & q & Ip & Iq & Ne). exists (project_patch axis p), (project_patch axis q).
    split; [now apply in_map|]. split; [now apply in_map|]. rewrite !(project_on axis c r) by auto. exact Ne. }
  assert (forall p, In p l' -> snd p = vadd (project axis c) (vscal r (fst p))) as E.
  { intros p' H. destruct (Im p' H) as (p & Hp & ->). reflexivity. }
  destruct (exact_lls l' (project axis c) r U D' E) as [R C].
  assert (part_radius l' = Rabs r) as Pr.
  { unfold part_radius. rewrite R. destruct (Rlt_dec r 0); [now rewrite Rabs_left|rewrite Rabs_right; lra]. }
  rewrite Pr, C. f_equal. unfold part_mse. cbv zeta. rewrite C, Pr.
  rewrite (rsum_ext _ (fun _ => 0)).
  - rewrite rsum_const. unfold Rdiv. ring.
  - intros p3 H. apply in_map_iff in H. destruct H as (p & <- & H). destruct (On p H) as (Un & O & t & ->).
    rewrite axis_distance_on by assumption. ring.
Qed.
Print Assumptions C63_exact.

(** C63: three cells of the cylinder with two different normals give a hypothesis which
    accepts all its cells, at distance zero. *)
Theorem C63_exact_hypothesis : forall axis c r h p,
  is_unit axis -> (forall q, In q (p :: h) -> on_cylinder axis c r q) -> (exists q q', In q h /\ In q' h /\ fst q <> fst q') ->
  hypothesis_distance (map (project_patch axis) h) (project_patch axis p) = 0.
Proof.
  intros axis c r h p Ua On D. set (l' := map (project_patch axis) h).
  assert (forall p', In p' l' -> exists p, In p h /\ p' = (fst p, vadd (project axis c) (vscal r (fst p)))) as Im.
  { intros p' H. apply in_map_iff in H. destruct H as (q & <- & H). exists q. split; [exact H|]. apply project_on; auto. apply On. now right. }
  assert (lls_radius l' = r /\ lls_center l' = project axis c) as [R C].
  { apply exact_lls.
    - intros p' H. destruct (Im p' H) as (q & Hq & ->). cbn. apply (On q). now right.
    - destruct D as (q & q' & Ip & Iq & Ne). exists (project_patch axis q), (project_patch axis q').
      split; [now apply in_map|]. split; [now apply in_map|]. rewrite !(project_on axis c r); auto; apply On; now right.
    - intros p' H. destruct (Im p' H) as (q & Hq & ->). reflexivity. }
  unfold hypothesis_distance. rewrite R, C, (project_on axis c r) by (auto; apply On; now left). cbn [fst snd].
  match goal with |- sqn ?v * _ = 0 => replace (sqn v) with 0 by v3ring end. ring.
Qed.
Print Assumptions C63_exact_hypothesis.

(** three patches of a cylinder of radius 2 around the line x = 5, y = 0 *)
Example C63_example :
  let axis := mkV 0 0 1 in let c := mkV 5 0 7 in
  let l := [(mkV (-1) 0 0, mkV 3 0 10); (mkV 0 1 0, mkV 5 2 11); (mkV 0 (-1) 0, mkV 5 (-2) 12)] in
  is_unit axis /\ (forall p, In p l -> on_cylinder axis c 2 p) /\ (exists p q, In p l /\ In q l /\ fst p <> fst q) /\
  estimate axis l = (2, mkV 5 0 0, 0).
Proof.
  intros axis c l.
  assert (is_unit axis) as U by (unfold axis, is_unit, dot; cbn; lra).
  assert (forall p, In p l -> on_cylinder axis c 2 p) as O.
  { intros p [<-|[<-|[<-|[]]]]; (split; [unfold is_unit, dot; cbn; lra|]; split; [unfold axis, dot; cbn; lra|]).
    - exists 3. unfold c, axis, vadd, vscal; cbn. apply vec_eq; cbn; lra.
    - exists 4. unfold c, axis, vadd, vscal; cbn. apply vec_eq; cbn; lra.
    - exists 5. unfold c, axis, vadd, vscal; cbn. apply vec_eq; cbn; lra. }
  assert (exists p q, In p l /\ In q l /\ fst p <> fst q) as D.
  { exists (mkV (-1) 0 0, mkV 3 0 10), (mkV 0 1 0, mkV 5 2 11). split; [now left|]. split; [right; now left|].
    cbn. intros E. apply (f_equal vx) in E. cbn in E. lra. }
  split; [exact U|]. split; [exact O|]. split; [exact D|].
  rewrite (C63_exact axis c 2 l U O D). rewrite Rabs_right by lra. f_equal. f_equal. unfold project, axis, c, dot, vsub, vscal. cbn. apply vec_eq; cbn; lra.
Qed.

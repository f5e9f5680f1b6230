(** Proofs about the concave hull. *)
From Coq Require Import Lra Lia Permutation Sorted Psatz.
From Verif Require Import ConcaveHullModel ConcaveHullSpec.
Local Open Scope R_scope.

Lemma tolerance_pos : 0 < tolerance.
Proof. unfold tolerance. apply Rinv_0_lt_compat, pow_lt. lra. Qed.
Lemma rle_spec a b : rle a b = true <-> a <= b.
Proof. unfold rle. destruct (Rle_dec a b); split; intros; try easy; lra. Qed.
Lemma rlt_spec a b : rlt a b = true <-> a < b.
Proof. unfold rlt. destruct (Rlt_dec a b); split; intros; try easy; lra. Qed.
Lemma rle_false a b : rle a b = false <-> b < a.
Proof. unfold rle. destruct (Rle_dec a b); split; intros; try easy; lra. Qed.
Lemma rlt_false a b : rlt a b = false <-> b <= a.
Proof. unfold rlt. destruct (Rlt_dec a b); split; intros; try easy; lra. Qed.

Lemma Rabs_le_both a b : Rabs a <= b <-> - b <= a <= b.
Proof. unfold Rabs. destruct (Rcase_abs a); split; lra. Qed.

(** ** The lowest point *)

Lemma lower_step p s : (lower p s = true -> py p <= py s + tolerance) /\ (lower p s = false -> py s <= py p + tolerance).
Proof.
  unfold lower, equal, greater_than, less_than. pose proof tolerance_pos.
  destruct (rle (Rabs (py p - py s)) tolerance) eqn:E.
  - apply rle_spec, Rabs_le_both in E. split; intros _; lra.
  - split; intros L; [apply rlt_spec in L|apply rlt_false in L]; lra.
Qed.
Lemma find_min_y_in first rest : In (find_min_y first rest) (first :: rest).
Proof.
  unfold find_min_y. revert first. induction rest as [|p rest IH]; intros first; [now left|]. cbn [fold_left].
  destruct (IH (if lower p first then p else first)) as [E|E].
  - rewrite <- E. destruct (lower p first); [right; now left|now left].
  - right. now right.
Qed.
Lemma find_min_y_lowest first rest q :
  In q (first :: rest) -> py (find_min_y first rest) <= py q + INR (length (first :: rest)) * tolerance.
Proof.
  pose proof tolerance_pos as T.
  enough (H : forall rest s slack, 0 <= slack ->
    (forall q, py s <= py q + slack \/ In q rest -> py (fold_left (fun smallest p => if lower p smallest then p else smallest) rest s)
       <= py q + slack + INR (length rest) * tolerance)).
  { intros Q. unfold find_min_y. eapply Rle_trans.
    - apply (H rest first tolerance ltac:(lra) q). destruct Q as [->|Q]; [left; lra|right; assumption].
    - cbn [length]. rewrite S_INR. lra. }
  clear q. induction rest0 as [|p l IH]; intros s slack N q Q.
  - cbn. destruct Q as [Q|[]]. lra.
  - cbn [fold_left length]. rewrite S_INR. destruct (lower_step p s) as [L1 L2].
    replace (py q + slack + (INR (length l) + 1) * tolerance) with (py q + (slack + tolerance) + INR (length l) * tolerance) by ring.
    apply IH; [lra|]. destruct Q as [Q|[->|Q]]; [left|left|now right].
    + destruct (lower p s); [specialize (L1 eq_refl)|specialize (L2 eq_refl)]; lra.
    + destruct (lower q s); [lra|specialize (L2 eq_refl); lra].
Qed.

(** ** Intersections *)

Lemma between a b t : 0 <= t <= 1 -> Rmin a b <= a + t * (b - a) <= Rmax a b.
Proof.
  intros T. unfold Rmin, Rmax. destruct (Rle_dec a b) as [L|L].
  - pose proof (Rmult_le_compat_l t a b ltac:(lra) L). pose proof (Rmult_le_compat_l (1 - t) a b ltac:(lra) L). lra.
  - assert (b <= a) as L' by lra.
    pose proof (Rmult_le_compat_l t b a ltac:(lra) L'). pose proof (Rmult_le_compat_l (1 - t) b a ltac:(lra) L'). lra.
Qed.
Lemma touch_intersects a1 a2 b1 b2 :
  touch a1 a2 b1 b2 -> ~ almost_parallel a1 a2 b1 b2 -> intersects a1 a2 b1 b2 = true.
Proof.
  intros (x & y & (t & T & X & Y) & (u & U & X' & Y')) P. unfold almost_parallel in P. pose proof tolerance_pos as E.
  unfold intersects.
  set (det := (py a2 - py a1) * (px b1 - px b2) - (py b2 - py b1) * (px a1 - px a2)).
  assert (D : tolerance < Rabs det).
  { replace det with ((px a2 - px a1) * (py b2 - py b1) - (py a2 - py a1) * (px b2 - px b1)) by (unfold det; ring). lra. }
  assert (Dn : det <> 0) by (intros Z; rewrite Z, Rabs_R0 in D; lra).
  unfold zero. replace (rle (Rabs det) tolerance) with false by (symmetry; now apply rle_false).
  assert (XE : (px b1 - px b2) * ((py a2 - py a1) * px a1 + (px a1 - px a2) * py a1) -
               (px a1 - px a2) * ((py b2 - py b1) * px b1 + (px b1 - px b2) * py b1) = x * det).
  { replace ((py a2 - py a1) * px a1 + (px a1 - px a2) * py a1) with ((py a2 - py a1) * x + (px a1 - px a2) * y) by (rewrite X, Y; ring).
    replace ((py b2 - py b1) * px b1 + (px b1 - px b2) * py b1) with ((py b2 - py b1) * x + (px b1 - px b2) * y) by (rewrite X', Y'; ring).
    unfold det. ring. }
  assert (YE : (py a2 - py a1) * ((py b2 - py b1) * px b1 + (px b1 - px b2) * py b1) -
               (py b2 - py b1) * ((py a2 - py a1) * px a1 + (px a1 - px a2) * py a1) = y * det).
  { replace ((py a2 - py a1) * px a1 + (px a1 - px a2) * py a1) with ((py a2 - py a1) * x + (px a1 - px a2) * y) by (rewrite X, Y; ring).
    replace ((py b2 - py b1) * px b1 + (px b1 - px b2) * py b1) with ((py b2 - py b1) * x + (px b1 - px b2) * y) by (rewrite X', Y'; ring).
    unfold det. ring. }
  rewrite XE, YE. replace (x * det / det) with x by (field; assumption). replace (y * det / det) with y by (field; assumption).
  pose proof (between (px a1) (px a2) t T) as B1. rewrite <- X in B1.
  pose proof (between (py a1) (py a2) t T) as B2. rewrite <- Y in B2.
  pose proof (between (px b1) (px b2) u U) as B3. rewrite <- X' in B3.
  pose proof (between (py b1) (py b2) u U) as B4. rewrite <- Y' in B4.
  unfold less_than_or_equal. rewrite !andb_true_iff, !rle_spec. lra.
Qed.

(** ** Choices *)

Lemma nth_error_some (l : list pt) i : (i < length l)%nat -> exists a, nth_error l i = Some a.
Proof. intros H. destruct (nth_error l i) eqn:E; [eauto|]. apply nth_error_None in E. lia. Qed.
Lemma crosses_total hull c l : (forall j, In j l -> (2 <= j < length hull)%nat) -> exists b, crosses hull c l = Some b.
Proof.
  induction l as [|j l IH]; intros B; [now exists false|]. cbn [crosses].
  specialize (B j (or_introl eq_refl)) as J.
  destruct (nth_error_some hull (length hull - 1)) as [x ->]; [lia|].
  destruct (nth_error_some hull (length hull - j - 1)) as [y ->]; [lia|].
  destruct (nth_error_some hull (length hull - j)) as [z ->]; [lia|].
  destruct (intersects x c y z); [now exists true|]. apply IH. intros. apply B. now right.
Qed.
Lemma crosses_false hull c l : crosses hull c l = Some false ->
  forall j, In j l -> exists last b1 b2, nth_error hull (length hull - 1) = Some last /\
    nth_error hull (length hull - j - 1) = Some b1 /\ nth_error hull (length hull - j) = Some b2 /\ intersects last c b1 b2 = false.
Proof.
  induction l as [|j l IH]; intros H i I; [easy|]. cbn [crosses] in H.
  destruct (nth_error hull (length hull - 1)) as [x|] eqn:E1; [|easy].
  destruct (nth_error hull (length hull - j - 1)) as [y|] eqn:E2; [|easy].
  destruct (nth_error hull (length hull - j)) as [z|] eqn:E3; [|easy].
  destruct (intersects x c y z) eqn:E4; [easy|]. destruct I as [<-|I].
  - exists x, y, z. auto.
  - specialize (IH H i I). exact IH.
Qed.
Lemma crosses_true hull c l : crosses hull c l = Some true ->
  exists j last b1 b2, In j l /\ nth_error hull (length hull - 1) = Some last /\
    nth_error hull (length hull - j - 1) = Some b1 /\ nth_error hull (length hull - j) = Some b2 /\ intersects last c b1 b2 = true.
Proof.
  induction l as [|j l IH]; intros H; [easy|]. cbn [crosses] in H.
  destruct (nth_error hull (length hull - 1)) as [x|] eqn:E1; [|easy].
  destruct (nth_error hull (length hull - j - 1)) as [y|] eqn:E2; [|easy].
  destruct (nth_error hull (length hull - j)) as [z|] eqn:E3; [|easy].
  destruct (intersects x c y z) eqn:E4.
  - exists j, x, y, z. repeat split; auto. now left.
  - destruct (IH H) as (i & last & b1 & b2 & I & R). exists i, last, b1, b2. split; [now right|exact R].
Qed.
Lemma js_range hull first c j : In j (js hull first c) ->
  (2 <= j < length hull - (if points_equal c first then 1 else 0))%nat.
Proof. unfold js. intros H. apply in_seq in H. lia. Qed.
Lemma js_in hull first c j : (2 <= j < length hull - (if points_equal c first then 1 else 0))%nat -> In j (js hull first c).
Proof. unfold js. intros H. apply in_seq. lia. Qed.
Lemma crosses_js hull first c : exists b, crosses hull c (js hull first c) = Some b.
Proof. apply crosses_total. intros j J. apply js_range in J. lia. Qed.
Lemma choose_total hull first cs : exists r, choose hull first cs = Some r.
Proof.
  induction cs as [|c cs [r IH]]; [now exists None|]. cbn [choose].
  destruct (crosses_js hull first c) as [[] ->]; [eauto|now exists (Some c)].
Qed.
Lemma choose_some hull first cs c : choose hull first cs = Some (Some c) ->
  exists before after, cs = before ++ c :: after /\ crosses hull c (js hull first c) = Some false /\
    forall q, In q before -> crosses hull q (js hull first q) = Some true.
Proof.
  induction cs as [|q cs IH]; intros H; [easy|]. cbn [choose] in H.
  destruct (crosses hull q (js hull first q)) as [[]|] eqn:E; [| |easy].
  - destruct (IH H) as (b & a & -> & F & B). exists (q :: b), a. split; [easy|]. split; [assumption|].
    intros r [<-|R]; auto.
  - injection H as <-. exists [], cs. split; [easy|]. split; [assumption|easy].
Qed.
Lemma choose_none hull first cs : choose hull first cs = Some None ->
  forall q, In q cs -> crosses hull q (js hull first q) = Some true.
Proof.
  induction cs as [|c cs IH]; intros H q Q; [easy|]. cbn [choose] in H.
  destruct (crosses hull c (js hull first c)) as [[]|] eqn:E; try easy. destruct Q as [<-|Q]; auto.
Qed.

(** ** The walk *)

Section Walk.
Variable nearest : list pt -> pt -> nat -> list pt.
Variable sort : list (R * pt) -> list (R * pt).
Variable points : list pt.
Variable k : nat.

(** the direction of the previous edge, seen from the last vertex *)
Definition previous_direction (hull : list pt) : R :=
  match length hull with
  | S (S n) => match nth_error hull (S n), nth_error hull n with Some a, Some b => angle a b | _, _ => 0 end
  | _ => 0
  end.
Definition again (first : pt) : pt := mkPt (px first) (py first) (length points).
(** the points in the index when a vertex is added *)
Definition available (hull : list pt) (first : pt) : list pt :=
  remove_hull points hull ++ (if (length hull <? 4)%nat then [] else [again first]).
Definition turn (hull : list pt) (current to : pt) : R := normalise_angle (angle current to - previous_direction hull).

(** the hulls built by the loop, from the first point *)
Inductive built (first : pt) : list pt -> Prop :=
| built_first : built first [first]
| built_next hull current c before after :
    built first hull -> nth_error hull (length hull - 1) = Some current ->
    (length hull = 1 \/ points_equal current first = false)%nat -> length hull <> length points ->
    map snd (sort (map (fun to => (turn hull current to, to)) (nearest (available hull first) current k))) = before ++ c :: after ->
    crosses hull c (js hull first c) = Some false ->
    (forall q, In q before -> crosses hull q (js hull first q) = Some true) ->
    built first (hull ++ [c]).

Lemma built_length first hull : built first hull -> (1 <= length hull)%nat.
Proof. intros [|? ? ? ? ? ?]; rewrite ?app_length; cbn; lia. Qed.
Lemma built_head first hull : built first hull -> nth_error hull 0 = Some first.
Proof.
  induction 1; [easy|]. pose proof (built_length _ _ H). rewrite nth_error_app1; [assumption|lia].
Qed.
Lemma previous_next hull (c cur : pt) : nth_error hull (length hull - 1) = Some cur -> (1 <= length hull)%nat ->
  previous_direction (hull ++ [c]) = angle c cur.
Proof.
  intros C L. unfold previous_direction.
  replace (length (hull ++ [c])) with (S (S (length hull - 1))) by (rewrite app_length; cbn; lia). cbv iota.
  rewrite nth_error_app2 by lia. replace (S (length hull - 1) - length hull)%nat with 0%nat by lia. cbn [nth_error].
  rewrite nth_error_app1 by lia. now rewrite C.
Qed.

Lemma existsb_false {A} (f : A -> bool) l : existsb f l = false <-> forall x, In x l -> f x = false.
Proof.
  split.
  - intros E x I. destruct (f x) eqn:F; [|easy]. rewrite <- E. symmetry. apply existsb_exists. eauto.
  - intros H. destruct (existsb f l) eqn:E; [|easy]. apply existsb_exists in E as (x & I & F). now rewrite H in F.
Qed.
Lemma remove_hull_in p hull : In p (remove_hull points hull) <-> In p points /\ ~ In (pid p) (map pid hull).
Proof.
  unfold remove_hull. rewrite filter_In, negb_true_iff, existsb_false, in_map_iff. split; intros [I H]; split; try assumption.
  - intros (x & E & J). specialize (H x J). apply Nat.eqb_neq in H. congruence.
  - intros x J. apply Nat.eqb_neq. intros E. apply H. eauto.
Qed.
Lemma remove_hull_next hull c : remove_hull points (hull ++ [c]) = remove_point (remove_hull points hull) (pid c).
Proof.
  unfold remove_hull, remove_point. induction points as [|p l IH]; [easy|]. cbn [filter]. rewrite existsb_app. cbn [existsb].
  rewrite orb_false_r, negb_orb. destruct (existsb (fun h => (pid h =? pid p)%nat) hull); cbn [negb andb].
  - exact IH.
  - cbn [filter]. rewrite (Nat.eqb_sym (pid c) (pid p)). destruct (pid p =? pid c)%nat; cbn [negb]; [exact IH|now rewrite IH].
Qed.

Hypothesis ids : forall p, In p points -> (pid p < length points)%nat.
Hypothesis search : takes_from_the_index nearest.
Hypothesis permutation : permutes sort.

Lemma candidate_in hull first current c before after :
  map snd (sort (map (fun to => (turn hull current to, to)) (nearest (available hull first) current k))) = before ++ c :: after ->
  In c (nearest (available hull first) current k) /\ In c (available hull first).
Proof.
  intros E. assert (I : In c (nearest (available hull first) current k)).
  { assert (I : In c (before ++ c :: after)) by (apply in_or_app; right; now left). rewrite <- E in I.
    apply in_map_iff in I as ((a & q) & <- & I). apply (Permutation_in _ (Permutation_sym (permutation _))) in I.
    apply in_map_iff in I as (q' & E' & I). now injection E' as _ <-. }
  split; [assumption|]. destruct (search (available hull first) current k) as (others & P).
  apply (Permutation_in _ (Permutation_sym P)). apply in_or_app. now left.
Qed.
Lemma available_in hull first c : In c (available hull first) ->
  (In c points /\ ~ In (pid c) (map pid hull)) \/ (4 <= length hull)%nat /\ c = again first.
Proof.
  unfold available. intros I. apply in_app_or in I as [I|I].
  - left. now apply remove_hull_in.
  - right. destruct (length hull <? 4)%nat eqn:E; [easy|]. destruct I as [<-|[]]. apply Nat.ltb_ge in E. auto.
Qed.
Lemma built_ids first hull : In first points -> built first hull ->
  NoDup (map pid hull) /\ forall i h, nth_error hull i = Some h ->
    In h points \/ (4 <= i)%nat /\ S i = length hull /\ h = again first.
Proof.
  intros F. induction 1 as [|hull current c before after B [IH1 IH2] C N L S X Y].
  - split; [constructor; [easy|constructor]|]. intros [|[|i]] h H; try easy. injection H as <-. now left.
  - destruct (candidate_in _ _ _ _ _ _ S) as [_ I]. apply available_in in I. pose proof (built_length _ _ B) as L1.
    assert (O : forall i h, nth_error hull i = Some h -> In h points).
    { intros i h H. destruct (IH2 i h H) as [|(G & E & ->)]; [assumption|]. exfalso.
      destruct N as [N|N]; [lia|]. replace (length hull - 1)%nat with i in C by lia. rewrite H in C. injection C as <-.
      unfold points_equal, again in N. cbn in N. unfold equal in N. rewrite !Rminus_eq_0, Rabs_R0 in N.
      replace (rle 0 tolerance) with true in N; [easy|]. symmetry. apply rle_spec. pose proof tolerance_pos. lra. }
    assert (Fr : ~ In (pid c) (map pid hull)).
    { destruct I as [[I J]|[_ ->]]; [assumption|]. cbn. intros J. apply in_map_iff in J as (h & E & J).
      apply In_nth_error in J as [i J]. apply O in J. apply ids in J. lia. }
    split.
    + rewrite map_app. cbn. apply (Permutation_NoDup (Permutation_cons_append _ _)). now constructor.
    + intros i h H. destruct (Nat.lt_ge_cases i (length hull)) as [Q|Q].
      * rewrite nth_error_app1 in H by assumption. left. eauto.
      * rewrite nth_error_app2 in H by assumption. destruct (i - length hull)%nat as [|m] eqn:M; [|now destruct m].
        cbn in H. injection H as <-. destruct I as [[I _]|[G ->]]; [now left|]. right. rewrite app_length. cbn. split; [lia|]. split; [lia|easy].
Qed.
Lemma built_inner first hull i h : In first points -> built first hull -> nth_error hull i = Some h ->
  (forall cur, nth_error hull (length hull - 1) = Some cur -> length hull = 1 \/ points_equal cur first = false)%nat -> In h points.
Proof.
  intros F B H N. destruct (built_ids _ _ F B) as [_ A]. destruct (A i h H) as [|(G & E & ->)]; [assumption|]. exfalso.
  destruct (N (again first)) as [M|M]; [replace (length hull - 1)%nat with i by lia; assumption|lia|].
  unfold points_equal, again in M. cbn in M. unfold equal in M. rewrite !Rminus_eq_0, Rabs_R0 in M.
  replace (rle 0 tolerance) with true in M; [easy|]. symmetry. apply rle_spec. pose proof tolerance_pos. lra.
Qed.

(** what the loop returns *)
Definition finished (hull : list pt) (first current : pt) : Prop :=
  (length hull <> 1 /\ points_equal current first = true)%nat \/ length hull = length points.
Lemma points_equal_again c first n : points_equal c (mkPt (px first) (py first) n) = points_equal c first.
Proof. reflexivity. Qed.
Lemma choose_again hull first n cs : choose hull (mkPt (px first) (py first) n) cs = choose hull first cs.
Proof. induction cs as [|c cs IH]; [easy|]. cbn [choose]. rewrite IH. reflexivity. Qed.
Lemma remove_point_app l l' i : remove_point (l ++ l') i = remove_point l i ++ remove_point l' i.
Proof. unfold remove_point. apply filter_app. Qed.
(** [index] is the one of the loop: the first point is put back at the fourth step *)
Definition index_of (hull : list pt) (first : pt) (index : list pt) : Prop :=
  index = remove_hull points hull ++ (if (length hull <? 5)%nat then [] else if existsb (Nat.eqb (length points)) (map pid hull) then [] else [again first]).
Lemma walk_result fuel first first' hull current index : In first points -> built first hull ->
  nth_error hull (length hull - 1) = Some current ->
  (px first' = px first /\ py first' = py first) -> index_of hull first index ->
  (length points < length hull + fuel)%nat -> (length hull <= length points)%nat ->
  match walk nearest sort fuel points k hull first' current (previous_direction hull) index with
  | Accepted h => built first h /\ (length h <= length points)%nat /\
                  (exists cur, nth_error h (length h - 1) = Some cur /\ finished h first cur) /\
                  multiple_point_in_polygon (remove_hull points h) h = true
  | Rejected => True
  | Out_of_bounds | Out_of_fuel => False
  end.
Proof.
  intros F. revert first' hull current index. induction fuel as [|fuel IH]; intros first' hull current index B C [Ex Ey] I W L.
  { exfalso. lia. }
  cbn [walk]. assert (PE : points_equal current first' = points_equal current first) by (unfold points_equal; now rewrite Ex, Ey).
  rewrite PE. destruct ((negb (points_equal current first) || (length hull =? 1)%nat) && negb (length hull =? length points)%nat) eqn:G.
  - apply andb_true_iff in G as [G1 G2]. apply negb_true_iff, Nat.eqb_neq in G2.
    assert (N : (length hull = 1 \/ points_equal current first = false)%nat).
    { apply orb_true_iff in G1 as [G1|G1]; [right; now apply negb_true_iff in G1|left; now apply Nat.eqb_eq]. }
    pose proof (built_length _ _ B) as L1.
    (* the state after the fourth step *)
    assert (A : exists first'', (if (length hull =? 4)%nat then (mkPt (px first') (py first') (length points), index ++ [mkPt (px first') (py first') (length points)]) else (first', index))
             = (first'', available hull first) /\ px first'' = px first /\ py first'' = py first).
    { unfold index_of in I. unfold available. destruct (Nat.eqb_spec (length hull) 4) as [E4|E4].
      - exists (again first). split; [|cbn; auto]. rewrite I, E4, Ex, Ey. cbn [Nat.ltb Nat.leb]. rewrite app_nil_r. reflexivity.
      - exists first'. split; [|auto]. f_equal. rewrite I. destruct (length hull <? 4)%nat eqn:E; destruct (length hull <? 5)%nat eqn:E'; try easy.
        + apply Nat.ltb_lt in E. apply Nat.ltb_ge in E'. lia.
        + apply Nat.ltb_ge in E. apply Nat.ltb_lt in E'. lia.
        + replace (existsb _ _) with false; [easy|]. symmetry. apply existsb_false. intros x J. apply in_map_iff in J as (h & <- & J).
          apply In_nth_error in J as [i J]. apply Nat.eqb_neq. pose proof (built_inner first hull i h F B J) as Q.
          enough (In h points) as Z by (apply ids in Z; lia). apply Q. intros cur E''. rewrite C in E''. now injection E'' as <-. }
    destruct A as (first'' & -> & Ex' & Ey').
    unfold sort_by_angle. fold (turn hull current).
    replace (choose hull first'' _) with (choose hull first (map snd (sort (map (fun to => (turn hull current to, to)) (nearest (available hull first) current k))))).
    2:{ destruct first'' as [x y n]. cbn in Ex', Ey'. rewrite Ex', Ey'. now rewrite choose_again. }
    destruct (choose_total hull first (map snd (sort (map (fun to => (turn hull current to, to)) (nearest (available hull first) current k))))) as [[c|] E]; rewrite E; [|easy].
    apply choose_some in E as (before & after & E & X & Y).
    rewrite nth_error_app2 by lia. rewrite Nat.sub_diag. cbn [nth_error].
    rewrite nth_error_app1 by lia. rewrite C.
    assert (B' : built first (hull ++ [c])) by (econstructor; eauto).
    rewrite <- (previous_next hull c current C L1).
    apply IH.
    + assumption.
    + rewrite app_length. cbn. replace (length hull + 1 - 1)%nat with (length hull) by lia. rewrite nth_error_app2 by lia. now rewrite Nat.sub_diag.
    + auto.
    + unfold index_of. rewrite remove_hull_next. unfold available. rewrite remove_point_app. f_equal.
      rewrite app_length. cbn [length].
      destruct (length hull <? 4)%nat eqn:E4; destruct (length hull + 1 <? 5)%nat eqn:E5; try easy.
      * apply Nat.ltb_lt in E4. apply Nat.ltb_ge in E5. lia.
      * apply Nat.ltb_ge in E4. apply Nat.ltb_lt in E5. lia.
      * rewrite map_app, existsb_app. cbn [map existsb]. rewrite orb_false_r.
        replace (existsb (Nat.eqb (length points)) (map pid hull)) with false.
        2:{ symmetry. apply existsb_false. intros x J. apply in_map_iff in J as (h & <- & J).
            apply In_nth_error in J as [i J]. apply Nat.eqb_neq. pose proof (built_inner first hull i h F B J) as Q.
            enough (In h points) as Z by (apply ids in Z; lia). apply Q. intros cur E''. rewrite C in E''. now injection E'' as <-. }
        cbn [orb]. unfold remove_point, again. cbn [filter pid].
        destruct (length points =? pid c)%nat; reflexivity.
    + rewrite app_length. cbn. lia.
    + rewrite app_length. cbn. lia.
  - destruct (multiple_point_in_polygon (remove_hull points hull) hull) eqn:M; [|easy].
    split; [assumption|]. split; [assumption|]. split; [|assumption]. exists current. split; [assumption|]. unfold finished.
    apply andb_false_iff in G as [G|G].
    + left. apply orb_false_iff in G as [G1 G2]. apply negb_false_iff in G1. apply Nat.eqb_neq in G2. auto.
    + right. now apply negb_false_iff, Nat.eqb_eq in G.
Qed.

(** [ConcaveHull] *)
Lemma concave_hull_result p rest : points = p :: rest -> (4 <= length points)%nat ->
  match concave_hull nearest sort points k with
  | Accepted h => let first := find_min_y p rest in
                  built first h /\ (length h <= length points)%nat /\
                  (exists cur, nth_error h (length h - 1) = Some cur /\ finished h first cur) /\
                  multiple_point_in_polygon (remove_hull points h) h = true
  | Rejected => True
  | Out_of_bounds | Out_of_fuel => False
  end.
Proof.
  intros E L. assert (F : In (find_min_y p rest) points) by (rewrite E; apply find_min_y_in).
  assert (C : concave_hull nearest sort points k =
     walk nearest sort (length points) points k [find_min_y p rest] (find_min_y p rest) (find_min_y p rest) 0 (remove_point points (pid (find_min_y p rest)))).
  { unfold concave_hull. rewrite E. destruct rest as [|p2 [|p3 [|p4 rest]]]; try reflexivity; exfalso; rewrite E in L; cbn in L; lia. }
  rewrite C. change 0 with (previous_direction [find_min_y p rest]).
  apply walk_result; try easy.
  - constructor.
  - unfold index_of. cbn [length Nat.ltb Nat.leb]. rewrite app_nil_r.
    rewrite <- (app_nil_l [find_min_y p rest]), remove_hull_next. f_equal. unfold remove_hull. cbn.
    clear. induction points; [easy|]. cbn. now f_equal.
  - cbn. lia.
  - cbn. lia.
Qed.
End Walk.

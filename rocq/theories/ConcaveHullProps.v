(** C51: the concave hull of the points of a plane. *)
From Coq Require Import Lra Lia Permutation Sorted Psatz Machin.
From Verif Require Import ConcaveHullModel ConcaveHullSpec ConcaveHullProofs.
Local Open Scope R_scope.

(** ** The search ends, for every behaviour of the oracles *)

Lemma walk_ends nearest sort points k fuel first hull current previous index :
  (1 <= length hull)%nat -> (length hull <= length points)%nat -> (length points <= length hull + fuel)%nat ->
  match walk nearest sort fuel points k hull first current previous index with
  | Accepted _ | Rejected => True | Out_of_bounds | Out_of_fuel => False end.
Proof.
  revert first hull current previous index. induction fuel as [|fuel IH]; intros first hull current previous index L M N.
  - cbn [walk]. assert (E : length hull = length points) by lia. rewrite E, Nat.eqb_refl. cbn [negb]. rewrite andb_false_r.
    now destruct (multiple_point_in_polygon (remove_hull points hull) hull).
  - cbn [walk]. destruct ((negb (points_equal current first) || (length hull =? 1)%nat) && negb (length hull =? length points)%nat) eqn:G.
    + apply andb_true_iff in G as [_ G]. apply negb_true_iff, Nat.eqb_neq in G.
      destruct (if (length hull =? 4)%nat then _ else (first, index)) as [first' index'].
      destruct (choose_total hull first' (sort_by_angle sort (nearest index' current k) current previous)) as [[c|] ->]; [|easy].
      destruct (nth_error_some (hull ++ [c]) (length hull)) as [a ->]; [rewrite app_length; cbn; lia|].
      destruct (nth_error_some (hull ++ [c]) (length hull - 1)) as [b ->]; [rewrite app_length; cbn; lia|].
      apply IH; rewrite app_length; cbn; lia.
    + now destruct (multiple_point_in_polygon (remove_hull points hull) hull).
Qed.
Lemma concave_hull_ends nearest sort points k :
  match concave_hull nearest sort points k with
  | Accepted _ | Rejected => True | Out_of_bounds | Out_of_fuel => False end.
Proof.
  unfold concave_hull. destruct points as [|p [|p2 [|p3 [|p4 rest]]]]; try easy. apply walk_ends; cbn [length]; lia.
Qed.
Lemma retry_ends nearest sort points values : forall iteration k,
  match snd (retry nearest sort points iteration k values) with
  | Accepted _ | Rejected => True | Out_of_bounds | Out_of_fuel => False end.
Proof.
  induction values as [|v values IH]; intros iteration k; [easy|]. cbn [retry].
  pose proof (concave_hull_ends (nearest iteration) (sort iteration) points k) as C.
  destruct (concave_hull (nearest iteration) (sort iteration) points k); try easy.
  destruct (length points <? v)%nat; [easy|]. specialize (IH (S iteration) v).
  now destruct (retry nearest sort points (S iteration) v values).
Qed.
(** The search ends and reads no vertex out of the hull, whatever the search of the neighbours
    and the sort return. *)
Theorem C51_ends :
  forall nearest sort points, exists boundary_found, snd (boundary nearest sort points) = Boundary boundary_found.
Proof.
  intros nearest sort points. unfold boundary. destruct (length points <? 3)%nat; [now exists []|].
  unfold compute_concave_hull.
  pose proof (retry_ends nearest sort (identify 0 points) (firstn 8 possible_neighbours) 0 (nth 0 possible_neighbours 0%nat)) as E.
  destruct (retry nearest sort (identify 0 points) 0 (nth 0 possible_neighbours 0%nat) (firstn 8 possible_neighbours)) as [tried o]. cbn [snd] in E.
  destruct o; try easy; cbn; eauto.
Qed.

(** ** The numbers of neighbours *)

Lemma identify_length points : forall id, length (identify id points) = length points.
Proof. induction points as [|[x y] l IH]; intros id; [easy|]. cbn. now rewrite IH. Qed.
Lemma retry_counts nearest sort points values : forall iteration k, (k <= length points)%nat ->
  (exists m, fst (retry nearest sort points iteration k values) = firstn m (k :: values) /\ (m <= length values)%nat) /\
  Forall (fun n => n <= length points)%nat (fst (retry nearest sort points iteration k values)).
Proof.
  induction values as [|v values IH]; intros iteration k K.
  - cbn. split; [|constructor]. now exists 0%nat.
  - cbn [retry]. assert (A : (exists m, [k] = firstn m (k :: v :: values) /\ (m <= S (length values))%nat) /\ Forall (fun n => n <= length points)%nat [k]).
    { split; [exists 1%nat; split; [easy|lia]|]. repeat constructor. assumption. }
    destruct (concave_hull (nearest iteration) (sort iteration) points k); try exact A.
    destruct (length points <? v)%nat eqn:E; [exact A|]. apply Nat.ltb_ge in E.
    destruct (IH (S iteration) v E) as [[m [F G]] H].
    destruct (retry nearest sort points (S iteration) v values) as [tried r]. cbn [fst] in *. split.
    + exists (S m). split; [cbn; now rewrite F|cbn; lia].
    + now constructor.
Qed.
(** The numbers tried are the first ones of this list, no more than the number of points: from
    the second one they grow. *)
Theorem C51_numbers_tried :
  forall nearest sort points,
  (exists m, (m <= 8)%nat /\ fst (boundary nearest sort points) = firstn m [3; 3; 5; 7; 11; 13; 17; 21]%nat) /\
  Forall (fun k => k <= length points)%nat (fst (boundary nearest sort points)).
Proof.
  intros nearest sort points. unfold boundary. destruct (length points <? 3)%nat eqn:E.
  { cbn. split; [|constructor]. exists 0%nat. split; [lia|easy]. }
  apply Nat.ltb_ge in E. unfold compute_concave_hull. cbn [nth possible_neighbours].
  destruct (retry_counts nearest sort (identify 0 points) (firstn 8 possible_neighbours) 0 3) as [[m [F G]] H]; [now rewrite identify_length|].
  unfold possible_neighbours in *. cbn [nth]. rewrite identify_length in H.
  destruct (retry nearest sort (identify 0 points) 0 3 _) as [tried o]. cbn [fst] in *.
  assert (X : (exists m, (m <= 8)%nat /\ tried = firstn m [3; 3; 5; 7; 11; 13; 17; 21]%nat) /\ Forall (fun k => k <= length points)%nat tried).
  { split; [|assumption]. exists m. split; [exact G|]. rewrite F. cbn [firstn]. cbn in G.
    destruct m as [|[|[|[|[|[|[|[|[|m]]]]]]]]]; try reflexivity. lia. }
  destruct o; exact X.
Qed.

(** ** The accepted hulls *)

Lemma identify_ids points : forall id p, In p (identify id points) ->
  (id <= pid p < id + length points)%nat /\ nth_error points (pid p - id) = Some (px p, py p).
Proof.
  induction points as [|[x y] l IH]; intros id p I; [easy|]. destruct I as [<-|I].
  - cbn. split; [lia|]. now rewrite Nat.sub_diag.
  - apply IH in I as [I J]. cbn [length]. split; [lia|]. replace (pid p - id)%nat with (S (pid p - S id)) by lia. exact J.
Qed.
Lemma identify_nth points : forall id i x y, nth_error points i = Some (x, y) -> In (mkPt x y (id + i)) (identify id points).
Proof.
  induction points as [|[a b] l IH]; intros id i x y H; [now destruct i|]. destruct i as [|i]; cbn in H |- *.
  - injection H as -> ->. left. now rewrite Nat.add_0_r.
  - right. replace (id + S i)%nat with (S id + i)%nat by lia. now apply IH.
Qed.
Lemma retry_accepted nearest sort points values : forall iteration k tried hull,
  retry nearest sort points iteration k values = (tried, Accepted hull) ->
  exists i n, last tried 0%nat = n /\ S i = (iteration + length tried)%nat /\ concave_hull (nearest i) (sort i) points n = Accepted hull.
Proof.
  induction values as [|v values IH]; intros iteration k tried hull H; [easy|]. cbn [retry] in H.
  destruct (concave_hull (nearest iteration) (sort iteration) points k) as [h| | |] eqn:E; try easy.
  - injection H as <- <-. exists iteration, k. split; [easy|]. split; [cbn; lia|assumption].
  - destruct (length points <? v)%nat; [easy|].
    destruct (retry nearest sort points (S iteration) v values) as [t r] eqn:F. injection H as <- ->.
    destruct (IH _ _ _ _ F) as (i & n & L & W & C). exists i, n. split; [|split; [cbn in *; lia|assumption]].
    destruct t; [|exact L]. destruct values; [easy|]. cbn [retry] in F.
    destruct (concave_hull _ _ _ v); try easy. destruct (length points <? n0)%nat; [easy|].
    now destruct (retry nearest sort points (S (S iteration)) n0 values).
Qed.

(** an accepted hull comes from the walk, with the last number tried *)
Lemma accepted_built nearest sort coords tried hull :
  (forall i, takes_from_the_index (nearest i)) -> (forall i, permutes (sort i)) -> (4 <= length coords)%nat ->
  compute_concave_hull nearest sort (identify 0 coords) 8 = (tried, Accepted hull) ->
  exists i first, S i = length tried /\ In first (identify 0 coords) /\
    (forall x y, In (x, y) coords -> py first <= y + INR (length coords) * tolerance) /\
    built (nearest i) (sort i) (identify 0 coords) (last tried 0%nat) first hull /\ (length hull <= length coords)%nat /\
    (exists cur, nth_error hull (length hull - 1) = Some cur /\ finished (identify 0 coords) hull first cur) /\
    multiple_point_in_polygon (remove_hull (identify 0 coords) hull) hull = true.
Proof.
  intros N S L H. unfold compute_concave_hull in H. apply retry_accepted in H as (i & n & T & E & C).
  destruct (identify 0 coords) as [|p rest] eqn:I; [apply (f_equal (@length pt)) in I; rewrite identify_length in I; cbn in I; lia|].
  assert (D : forall q, In q (p :: rest) -> (pid q < length (p :: rest))%nat).
  { intros q Q. rewrite <- I in Q |- *. apply identify_ids in Q. rewrite identify_length. lia. }
  pose proof (concave_hull_result (nearest i) (sort i) (p :: rest) n D (N i) (S i) p rest eq_refl) as R.
  assert (LL : length (p :: rest) = length coords) by (rewrite <- I; apply identify_length).
  rewrite LL in R. specialize (R L). rewrite C in R. destruct R as (R1 & R2 & R3 & R4).
  exists i, (find_min_y p rest). split; [lia|]. split; [apply find_min_y_in|]. rewrite T. split; [|auto].
  intros x y J. apply In_nth_error in J as [m J]. apply (identify_nth _ 0) in J. rewrite I in J.
  apply find_min_y_lowest in J. rewrite LL in J. exact J.
Qed.

(** The vertices of an accepted hull are points of the set, none is used twice (the polygon may
    be closed by its first point), and the first one is the lowest, up to the tolerance of
    each comparison. *)
Theorem C51_vertices :
  forall nearest sort coords tried hull,
  (forall i, takes_from_the_index (nearest i)) -> (forall i, permutes (sort i)) -> (4 <= length coords)%nat ->
  compute_concave_hull nearest sort (identify 0 coords) 8 = (tried, Accepted hull) ->
  (2 <= length hull <= length coords)%nat /\ NoDup (map pid hull) /\
  exists first, nth_error hull 0 = Some first /\
    (forall x y, In (x, y) coords -> py first <= y + INR (length coords) * tolerance) /\
    forall i h, nth_error hull i = Some h ->
      nth_error coords (pid h) = Some (px h, py h) \/
      (S i = length hull /\ (4 <= i)%nat /\ px h = px first /\ py h = py first).
Proof.
  intros nearest sort coords tried hull N S L H.
  destruct (accepted_built nearest sort coords tried hull N S L H) as (i & first & _ & F & Lo & B & Le & (cur & C & Fi) & _).
  assert (D : forall q, In q (identify 0 coords) -> (pid q < length (identify 0 coords))%nat).
  { intros q Q. apply identify_ids in Q. rewrite identify_length. lia. }
  destruct (built_ids (nearest i) (sort i) _ _ D (N i) (S i) first hull F B) as [U V].
  split; [split; [|assumption]|].
  { pose proof (built_length _ _ _ _ _ _ B). unfold finished in Fi. rewrite identify_length in Fi. lia. }
  split; [assumption|]. exists first. split; [now apply built_head in B|]. split; [assumption|].
  intros j h J. destruct (V j h J) as [Q|(G & E & ->)].
  - left. apply identify_ids in Q as [_ Q]. now rewrite Nat.sub_0_r in Q.
  - right. auto.
Qed.

Lemma built_no_cross nearest sort points k first hull : built nearest sort points k first hull ->
  forall i j a1 a2 b1 b2, (j < i)%nat -> edge hull i a1 a2 -> edge hull j b1 b2 -> ~ adjacent hull j i -> touch a1 a2 b1 b2 -> almost_parallel a1 a2 b1 b2.
Proof.
  intros B. induction B as [|hull current c before after B IH C N L S X Y]; intros i j a1 a2 b1 b2 Lt [A1 A2] [B1 B2] Ad T.
  - now destruct i.
  - pose proof (built_length _ _ _ _ _ _ B) as L1. pose proof (built_head _ _ _ _ _ _ B) as H0.
    assert (Si : (Datatypes.S i < length (hull ++ [c]))%nat) by (apply nth_error_Some; congruence).
    rewrite app_length in Si. cbn in Si.
    destruct (Nat.eq_dec (Datatypes.S i) (length hull)) as [E|E].
    + rewrite nth_error_app2 in A2 by lia. rewrite E, Nat.sub_diag in A2. cbn in A2. injection A2 as <-.
      rewrite nth_error_app1 in A1 by lia. replace i with (length hull - 1)%nat in A1 by lia.
      assert (J : (Datatypes.S j < i)%nat).
      { destruct (Nat.eq_dec (Datatypes.S j) i); [|lia]. exfalso. apply Ad. unfold adjacent. auto. }
      rewrite nth_error_app1 in B1, B2 by lia.
      assert (J0 : ((if points_equal c first then 1 else 0) <= j)%nat).
      { destruct (points_equal c first) eqn:P; [|lia]. destruct j as [|j]; [|lia]. exfalso. apply Ad. unfold adjacent. do 3 right.
        split.
        - exists first, c. split; [rewrite nth_error_app1 by lia; assumption|]. split; [|assumption].
          rewrite app_length. cbn. rewrite nth_error_app2 by lia. now replace (length hull + 1 - 1 - length hull)%nat with 0%nat by lia.
        - left. split; [easy|]. rewrite app_length. cbn. lia. }
      assert (JJ : In (length hull - 1 - j)%nat (js hull first c)) by (apply js_in; destruct (points_equal c first); lia).
      destruct (crosses_false _ _ _ X _ JJ) as (last & d1 & d2 & E1 & E2 & E3 & E4).
      replace (length hull - (length hull - 1 - j) - 1)%nat with j in E2 by lia.
      replace (length hull - (length hull - 1 - j))%nat with (Datatypes.S j) in E3 by lia.
      rewrite A1 in E1. rewrite B1 in E2. rewrite B2 in E3. injection E1 as <-. injection E2 as <-. injection E3 as <-.
      destruct (Rle_dec (Rabs ((px c - px a1) * (py b2 - py b1) - (py c - py a1) * (px b2 - px b1))) tolerance) as [P|P]; [exact P|].
      exfalso. rewrite (touch_intersects _ _ _ _ T P) in E4. discriminate.
    + rewrite nth_error_app1 in A1, A2, B1, B2 by lia. apply (IH i j); try (split; assumption); try assumption.
      intros [Q|[Q|[Q|[(x & y & X0 & Xl & PE) Q]]]]; try (apply Ad; unfold adjacent; now auto).
      destruct N as [N|N]; [lia|]. rewrite H0 in X0. injection X0 as <-. rewrite C in Xl. injection Xl as <-. congruence.
Qed.
(** Two edges of an accepted hull which do not follow each other have no common point, unless
    they are almost parallel. *)
Theorem C51_no_crossing :
  forall nearest sort coords tried hull i j a1 a2 b1 b2,
  (forall i, takes_from_the_index (nearest i)) -> (forall i, permutes (sort i)) -> (4 <= length coords)%nat ->
  compute_concave_hull nearest sort (identify 0 coords) 8 = (tried, Accepted hull) ->
  edge hull i a1 a2 -> edge hull j b1 b2 -> ~ adjacent hull i j -> touch a1 a2 b1 b2 -> almost_parallel a1 a2 b1 b2.
Proof.
  intros nearest sort coords tried hull i j a1 a2 b1 b2 N S L H A B Ad T.
  destruct (accepted_built nearest sort coords tried hull N S L H) as (it & first & _ & _ & _ & Bu & _).
  assert (Ad' : ~ adjacent hull j i) by (unfold adjacent in *; intros Q; apply Ad; intuition congruence).
  destruct (Nat.lt_trichotomy i j) as [Q|[Q|Q]].
  - assert (P : almost_parallel b1 b2 a1 a2).
    { eapply built_no_cross; [exact Bu|exact Q|exact B|exact A|exact Ad|]. destruct T as (x & y & U & V). now exists x, y. }
    unfold almost_parallel in *. rewrite <- Rabs_Ropp in P.
    replace ((px a2 - px a1) * (py b2 - py b1) - (py a2 - py a1) * (px b2 - px b1))
      with (- ((px b2 - px b1) * (py a2 - py a1) - (py b2 - py b1) * (px a2 - px a1))) by ring. exact P.
  - exfalso. apply Ad. now left.
  - eapply built_no_cross; [exact Bu|exact Q|exact A|exact B|exact Ad'|exact T].
Qed.

(** ** Points left out of the hull *)

(** no vertex is at the height of the point and no edge passes through it, up to the tolerance *)
Definition clear_of (x y : R) (polygon : list pt) : Prop :=
  (forall v, In v polygon -> tolerance < Rabs (py v - y)) /\
  forall i a b t, edge polygon i a b -> 0 < t < 1 -> y = py a + t * (py b - py a) -> tolerance < Rabs (px a + t * (px b - px a) - x).
Lemma edge_spec p a b : tolerance < Rabs (py a - py p) -> tolerance < Rabs (py b - py p) ->
  (forall t, 0 < t < 1 -> py p = py a + t * (py b - py a) -> tolerance < Rabs (px a + t * (px b - px a) - px p)) ->
  (edge_on_the_right p a b = true <-> crosses_on_the_right (px p) (py p) a b).
Proof.
  intros A B E. pose proof tolerance_pos as T. unfold edge_on_the_right, crosses_on_the_right, less_than_or_equal, less_than, zero.
  rewrite !andb_true_iff, orb_true_iff, !andb_true_iff, negb_true_iff, !rle_spec, !rlt_spec, rle_false.
  assert (A' : tolerance < py a - py p \/ tolerance < py p - py a) by (revert A; unfold Rabs; destruct (Rcase_abs (py a - py p)); lra).
  assert (B' : tolerance < py b - py p \/ tolerance < py p - py b) by (revert B; unfold Rabs; destruct (Rcase_abs (py b - py p)); lra).
  split.
  - intros [[H Z] X]. set (d := py b - py a) in *. assert (D : d <> 0) by (unfold d; lra).
    exists ((py p - py a) / d). assert (Q : 0 < (py p - py a) / d < 1).
    { destruct H as [H|H].
      - assert (P : 0 < d) by (unfold d; lra). split; [apply Rdiv_lt_0_compat; lra|]. apply Rmult_lt_reg_r with d; [lra|]. unfold Rdiv. rewrite Rmult_assoc, Rinv_l, Rmult_1_r by lra. unfold d. lra.
      - assert (P : 0 < - d) by (unfold d; lra). replace ((py p - py a) / d) with ((py a - py p) / - d) by (field; lra).
        split; [apply Rdiv_lt_0_compat; lra|]. apply Rmult_lt_reg_r with (- d); [lra|]. unfold Rdiv. rewrite Rmult_assoc, Rinv_l, Rmult_1_r by lra. unfold d. lra. }
    split; [assumption|]. split; [field; assumption|].
    replace ((py p - py a) / d * (px b - px a)) with ((px b - px a) * (py p - py a) / d) by (field; assumption). lra.
  - intros (t & [T0 T1] & Y & X). specialize (E t (conj T0 T1) Y).
    assert (G : tolerance < px a + t * (px b - px a) - px p) by (revert E; unfold Rabs; destruct (Rcase_abs (px a + t * (px b - px a) - px p)); lra).
    assert (D : py b - py a <> 0) by (intros Z; rewrite Z in Y; rewrite Rmult_0_r in Y; lra).
    destruct (Rdichotomy _ _ D) as [D'|D'].
    + assert (P1 : 0 < t * - (py b - py a)) by (apply Rmult_lt_0_compat; lra). assert (P2 : 0 < (1 - t) * - (py b - py a)) by (apply Rmult_lt_0_compat; lra).
      split; [split|].
      * right. lra.
      * rewrite Rabs_left by lra. lra.
      * replace ((px b - px a) * (py p - py a) / (py b - py a)) with (t * (px b - px a)) by (rewrite Y; field; assumption). lra.
    + assert (P1 : 0 < t * (py b - py a)) by (apply Rmult_lt_0_compat; lra). assert (P2 : 0 < (1 - t) * (py b - py a)) by (apply Rmult_lt_0_compat; lra).
      split; [split|].
      * left. lra.
      * rewrite Rabs_right by lra. lra.
      * replace ((px b - px a) * (py p - py a) / (py b - py a)) with (t * (px b - px a)) by (rewrite Y; field; assumption). lra.
Qed.
Lemma edges_on_the_right_spec p polygon : clear_of (px p) (py p) polygon -> crossings (px p) (py p) polygon (edges_on_the_right p polygon).
Proof.
  induction polygon as [|a [|b l] IH]; intros [V E]; [constructor|constructor|].
  assert (H : crossings (px p) (py p) (b :: l) (edges_on_the_right p (b :: l))).
  { apply IH. split; [intros v Q; apply V; now right|]. intros i c d t [C D]. apply (E (S i)). now split. }
  assert (S : edge_on_the_right p a b = true <-> crosses_on_the_right (px p) (py p) a b).
  { apply edge_spec; [apply V; now left|apply V; right; now left|]. intros t. apply (E 0%nat). now split. }
  change (edges_on_the_right p (a :: b :: l)) with ((if edge_on_the_right p a b then 1 else 0) + edges_on_the_right p (b :: l))%nat.
  destruct (edge_on_the_right p a b).
  - apply crossings_yes; [now apply S|exact H].
  - apply crossings_no; [|exact H]. intros Q. apply S in Q. discriminate.
Qed.
Lemma crossings_unique x y l : forall n m, crossings x y l n -> crossings x y l m -> n = m.
Proof.
  induction l as [|a [|b l] IH]; intros n m N M; inversion N; inversion M; subst; try easy; try contradiction.
  - f_equal. auto.
  - auto.
Qed.
(** For every point of the set left out of an accepted hull, the half line from the point to
    the right crosses an odd number of edges, or none. *)
Theorem C51_points_left_out :
  forall nearest sort coords tried hull i x y n,
  (forall i, takes_from_the_index (nearest i)) -> (forall i, permutes (sort i)) -> (4 <= length coords)%nat ->
  compute_concave_hull nearest sort (identify 0 coords) 8 = (tried, Accepted hull) ->
  nth_error coords i = Some (x, y) -> ~ In i (map pid hull) -> clear_of x y hull ->
  crossings x y hull n -> Nat.Odd n \/ n = 0%nat.
Proof.
  intros nearest sort coords tried hull i x y n N S L H I O C Cr.
  destruct (accepted_built nearest sort coords tried hull N S L H) as (it & first & _ & _ & _ & _ & _ & _ & M).
  pose proof (identify_nth coords 0 i x y I) as J. cbn in J.
  assert (K : In (mkPt x y i) (remove_hull (identify 0 coords) hull)) by (apply remove_hull_in; split; assumption).
  unfold multiple_point_in_polygon in M. destruct (remove_hull (identify 0 coords) hull) as [|q l]; [easy|].
  apply negb_true_iff in M. rewrite existsb_false in M. specialize (M _ K). apply negb_false_iff in M.
  unfold point_in_polygon in M. destruct (length hull <=? 2)%nat; [easy|].
  rewrite (crossings_unique _ _ _ _ _ Cr (edges_on_the_right_spec (mkPt x y i) hull C)).
  apply orb_true_iff in M as [M|M]; [right; now apply Nat.eqb_eq|left].
  apply Nat.odd_spec. unfold Nat.odd. exact M.
Qed.

(** ** The choice of the next vertex *)

Lemma intersects_almost a1 a2 b1 b2 : intersects a1 a2 b1 b2 = true -> almost_touch a1 a2 b1 b2.
Proof.
  unfold intersects. destruct (zero _) eqn:Z; [easy|]. unfold zero in Z. rewrite rle_false in Z.
  set (det := (py a2 - py a1) * (px b1 - px b2) - (py b2 - py b1) * (px a1 - px a2)) in *.
  assert (D : det <> 0) by (intros E; rewrite E, Rabs_R0 in Z; pose proof tolerance_pos; lra).
  unfold less_than_or_equal. rewrite !andb_true_iff, !rle_spec. intros (((((((A & B) & C) & E) & F) & G) & H) & I).
  eexists. eexists. split; [|split; [|split; [split; [|exact B]|split; [split; [|exact E]|split; [split; [|exact G]|split; [|exact I]]]]]]; try lra.
  - unfold det in *. field. exact D.
  - unfold det in *. field. exact D.
Qed.
Lemma normalise_range a : - (2 * PI) <= a < 2 * PI -> 0 <= normalise_angle a < 2 * PI.
Proof.
  intros H. unfold normalise_angle, rlt. destruct (Rlt_dec a 0); lra.
Qed.
Lemma normalise_trig a : cos (normalise_angle a) = cos a /\ sin (normalise_angle a) = sin a.
Proof.
  unfold normalise_angle, rlt. destruct (Rlt_dec a 0); [|easy]. replace (a + PI + PI) with (a + 2 * PI) by ring.
  split; [apply cos_2PI_plus || now rewrite cos_plus, cos_2PI, sin_2PI; ring|now rewrite sin_plus, cos_2PI, sin_2PI; ring].
Qed.
Lemma angle_range a b : 0 <= angle a b < 2 * PI.
Proof. pose proof PI_RGT_0. apply normalise_range. pose proof (atan2_range (py b - py a) (px b - px a)). lra. Qed.
Lemma angle_polar a b : px b <> px a \/ py b <> py a ->
  exists r, 0 < r /\ px b - px a = r * cos (angle a b) /\ py b - py a = - (r * sin (angle a b)).
Proof.
  intros N. unfold angle. destruct (normalise_trig (- atan2 (py b - py a) (px b - px a))) as [-> ->].
  rewrite cos_neg, sin_neg. destruct (atan2_polar (py b - py a) (px b - px a)) as [C S].
  exists (sqrt ((px b - px a) * (px b - px a) + (py b - py a) * (py b - py a))). split; [|lra]. apply sqrt_lt_R0.
  set (u := px b - px a) in *. set (v := py b - py a) in *. assert (u <> 0 \/ v <> 0) by (unfold u, v; lra). nra.
Qed.
Lemma angle_unique_2PI a b : 0 <= a < 2 * PI -> 0 <= b < 2 * PI -> cos a = cos b -> sin a = sin b -> a = b.
Proof.
  intros A B C S. enough (PI - a = PI - b) by lra. apply angle_unique; [lra|lra| |]; rewrite ?cos_minus, ?sin_minus, cos_PI, sin_PI; lra.
Qed.
Lemma same_direction r r' c s c' s' : 0 < r -> 0 < r' -> c * c + s * s = 1 -> c' * c' + s' * s' = 1 -> r * c = r' * c' -> r * s = r' * s' -> c = c' /\ s = s'.
Proof.
  intros R R' N N' C S. assert (E : r * r = r' * r').
  { replace (r * r) with (r * r * (c * c + s * s)) by (rewrite N; ring). replace (r * r * (c * c + s * s)) with (r * c * (r * c) + r * s * (r * s)) by ring.
    rewrite C, S. replace (r' * c' * (r' * c') + r' * s' * (r' * s')) with (r' * r' * (c' * c' + s' * s')) by ring. rewrite N'. ring. }
  assert (Q : r = r') by nra. subst r'. split; apply Rmult_eq_reg_l with r; lra.
Qed.
(** the difference of the angles is the clockwise angle *)
Lemma clockwise_turn cur q P dx dy s t : px q <> px cur \/ py q <> py cur -> 0 <= P < 2 * PI ->
  0 < s -> dx = s * cos P -> dy = - (s * sin P) -> clockwise dx dy (px q - px cur) (py q - py cur) t ->
  t = normalise_angle (angle cur q - P).
Proof.
  intros N RP Sp Dx Dy (Rt & r & Rp & Ex & Ey). destruct (angle_polar cur q N) as (r' & Rp' & Ax & Ay). pose proof (angle_range cur q) as RA.
  apply angle_unique_2PI; [assumption|apply normalise_range; lra| |]; destruct (normalise_trig (angle cur q - P)) as [Hc Hs]; rewrite ?Hc, ?Hs;
    set (A := angle cur q) in *;
    assert (K : cos t = cos (A - P) /\ sin t = sin (A - P)) by
      (enough (K : cos (t + P) = cos A /\ sin (t + P) = sin A) by
         (destruct K as [K1 K2]; replace t with ((t + P) - P) by ring; rewrite !cos_minus, !sin_minus, K1, K2; easy);
       apply (same_direction (r * s) r'); [nra|assumption| | | |];
         [pose proof (sin2_cos2 (t + P)); unfold Rsqr in *; lra|pose proof (sin2_cos2 A); unfold Rsqr in *; lra| |];
         [rewrite cos_plus, <- Ax, Ex, Dx, Dy; ring|rewrite sin_plus; replace (r' * sin A) with (- (py q - py cur)) by lra; rewrite Ey, Dx, Dy; ring]);
    destruct K; assumption.
Qed.

Lemma sorted_before (l before after : list (R * pt)) c : StronglySorted (fun a b => ~ fst a + tolerance < fst b) l -> l = before ++ c :: after ->
  forall e, In e l -> fst c + tolerance < fst e -> In e before.
Proof.
  intros S -> e I L. apply in_app_or in I as [I|[<-|I]]; [assumption| |].
  - pose proof tolerance_pos. lra.
  - exfalso. revert S. clear -I L. induction before as [|b l IH]; cbn; intros S; apply StronglySorted_inv in S as [S F].
    + rewrite Forall_forall in F. now apply (F e I).
    + auto.
Qed.
Lemma map_snd_split (l : list (R * pt)) before c after : map snd l = before ++ c :: after ->
  exists b a t, l = b ++ (t, c) :: a /\ map snd b = before.
Proof.
  revert before. induction l as [|[t q] l IH]; intros before H; [now destruct before|]. destruct before as [|x before].
  - injection H as -> _. now exists [], l, t.
  - injection H as -> H. destruct (IH before H) as (b & a & u & -> & M). exists ((t, x) :: b), a, u. cbn. now rewrite M.
Qed.

Lemma built_prefix nearest sort points k first hull : built nearest sort points k first hull ->
  forall i cur next, edge hull i cur next -> exists before after h,
  length h = S i /\ (forall j, (j <= i)%nat -> nth_error h j = nth_error hull j) /\
  map snd (sort (map (fun to => (turn h cur to, to)) (nearest (available points h first) cur k))) = before ++ next :: after /\
  (forall q, In q before -> crosses h q (js h first q) = Some true).
Proof.
  induction 1 as [|hull current c before after B IH C N L S X Y]; intros i cur next [E1 E2]; [now destruct i|].
  pose proof (built_length _ _ _ _ _ _ B) as L1.
  assert (Si : (Datatypes.S i < length (hull ++ [c]))%nat) by (apply nth_error_Some; congruence).
  rewrite app_length in Si. cbn in Si. destruct (Nat.eq_dec (Datatypes.S i) (length hull)) as [E|E].
  - rewrite nth_error_app2 in E2 by lia. rewrite E, Nat.sub_diag in E2. cbn in E2. injection E2 as <-.
    rewrite nth_error_app1 in E1 by lia. replace (length hull - 1)%nat with i in C by lia. rewrite C in E1. injection E1 as <-.
    exists before, after, hull. repeat split; try assumption; [lia|]. intros j J. rewrite nth_error_app1 by lia. reflexivity.
  - rewrite nth_error_app1 in E1, E2 by lia. destruct (IH i cur next (conj E1 E2)) as (b & a & h & H1 & H2 & H3 & H4).
    exists b, a, h. repeat split; try assumption. intros j J. rewrite nth_error_app1 by lia. now apply H2.
Qed.
(** Each vertex after the first one is one of the neighbours found around the vertex before,
    among the points which are not vertices yet, and the first point from the fourth vertex:
    a neighbour found which turns more clockwise is refused because its edge touches, up to
    the tolerance, an edge before. *)
Theorem C51_next_vertex :
  forall nearest sort coords tried hull i cur next,
  (forall i, takes_from_the_index (nearest i)) -> (forall i, sorts (sort i)) -> (4 <= length coords)%nat ->
  compute_concave_hull nearest sort (identify 0 coords) 8 = (tried, Accepted hull) -> edge hull i cur next ->
  exists index, let candidates := nearest (length tried - 1)%nat index cur (last tried 0%nat) in
  (forall q, In q index <->
     (nth_error coords (pid q) = Some (px q, py q) /\ forall j h, (j <= i)%nat -> nth_error hull j = Some h -> pid h <> pid q) \/
     ((3 <= i)%nat /\ pid q = length coords /\ exists first, nth_error hull 0 = Some first /\ px q = px first /\ py q = py first)) /\
  In next candidates /\
  forall dx dy q t t', backwards hull i dx dy -> (dx <> 0 \/ dy <> 0) -> In q candidates ->
    (px q <> px cur \/ py q <> py cur) -> (px next <> px cur \/ py next <> py cur) ->
    clockwise dx dy (px next - px cur) (py next - py cur) t -> clockwise dx dy (px q - px cur) (py q - py cur) t' ->
    t + tolerance < t' -> exists j b1 b2, (S j < i)%nat /\ edge hull j b1 b2 /\ almost_touch cur q b1 b2.
Proof.
  intros nearest sort coords tried hull i cur next N Srt L H E.
  assert (Sp : forall i, permutes (sort i)) by (intros z; apply (Srt z)).
  destruct (accepted_built nearest sort coords tried hull N Sp L H) as (it & first & It & F & _ & B & _).
  destruct (built_prefix _ _ _ _ _ _ B i cur next E) as (before & after & h & Lh & Ph & So & Cr).
  replace (length tried - 1)%nat with it by lia.
  pose proof (built_head _ _ _ _ _ _ B) as H0.
  exists (available (identify 0 coords) h first). cbn zeta. split; [|split].
  - intros q. unfold available. rewrite in_app_iff, remove_hull_in. rewrite Lh. split.
    + intros [[I J]|I].
      * left. apply identify_ids in I as [_ I]. rewrite Nat.sub_0_r in I. split; [assumption|]. intros j v Jj V Q. apply J.
        rewrite <- (Ph j Jj) in V. apply nth_error_In in V. rewrite <- Q. now apply in_map.
      * right. destruct (Datatypes.S i <? 4)%nat eqn:G; [easy|]. apply Nat.ltb_ge in G. destruct I as [<-|[]].
        split; [lia|]. unfold again. cbn. rewrite identify_length. split; [easy|]. now exists first.
    + intros [[I J]|(G & P & v & V & X & Y)].
      * left. split; [|].
        { apply (identify_nth _ 0) in I. cbn in I. now destruct q. }
        intros Q. apply in_map_iff in Q as (v & Q & V). apply In_nth_error in V as [j V].
        assert (Jl : (j < length h)%nat) by (apply nth_error_Some; congruence). apply (J j v); [lia| |assumption]. rewrite <- Ph by lia. exact V.
      * right. destruct (Datatypes.S i <? 4)%nat eqn:G'; [apply Nat.ltb_lt in G'; lia|]. left. rewrite H0 in V. injection V as <-.
        unfold again. rewrite identify_length. destruct q as [qx qy qi]. cbn in *. now subst.
  - assert (I : In next (before ++ next :: after)) by (apply in_or_app; right; now left). rewrite <- So in I.
    apply in_map_iff in I as ((a & q) & <- & I). apply (Permutation_in _ (Permutation_sym (Sp it _))) in I.
    apply in_map_iff in I as (q' & E' & I). now injection E' as _ <-.
  - intros dx dy q t t' Bw Nz I Nq Nn Ct Ct' Lt.
    destruct E as [E1 E2].
    assert (PD : exists s, 0 < s /\ dx = s * cos (previous_direction h) /\ dy = - (s * sin (previous_direction h)) /\ 0 <= previous_direction h < 2 * PI).
    { unfold previous_direction. rewrite Lh. unfold backwards in Bw. destruct i as [|j].
      - destruct Bw as [-> ->]. exists 1. rewrite cos_0, sin_0. pose proof PI_RGT_0. lra.
      - destruct Bw as (b & c & B1 & B2 & -> & ->). cbv iota. rewrite (Ph (Datatypes.S j)), (Ph j) by lia. rewrite B1, B2.
        destruct (angle_polar c b) as (s & S1 & S2 & S3); [lra|]. exists s. pose proof (angle_range c b). auto. }
    destruct PD as (s & Sp0 & Dx & Dy & Rg).
    assert (T : t = turn h cur next) by (eapply clockwise_turn; eassumption).
    assert (T' : t' = turn h cur q) by (eapply clockwise_turn; eassumption).
    destruct (map_snd_split _ _ _ _ So) as (b & a & u & Sl & Mb).
    assert (Iu : In (u, next) (map (fun to => (turn h cur to, to)) (nearest it (available (identify 0 coords) h first) cur (last tried 0%nat)))).
    { apply (Permutation_in _ (Permutation_sym (Sp it _))). rewrite Sl. apply in_or_app. right. now left. }
    apply in_map_iff in Iu as (n' & En & _). injection En as Eu ->.
    assert (Ib : In (turn h cur q, q) b).
    { eapply sorted_before; [apply (proj2 (Srt it))|exact Sl| |cbn; rewrite <- Eu, <- T, <- T'; exact Lt].
      apply (Permutation_in _ (Sp it _)). apply in_map_iff. now exists q. }
    assert (Iq : In q before) by (rewrite <- Mb; apply in_map_iff; now exists (turn h cur q, q)).
    apply Cr in Iq. apply crosses_true in Iq as (j & last & b1 & b2 & J & J1 & J2 & J3 & J4).
    apply js_range in J. rewrite Lh in *.
    exists (Datatypes.S i - j - 1)%nat, b1, b2. split; [lia|].
    replace (Datatypes.S i - 1)%nat with i in J1 by lia. rewrite Ph in J1, J2, J3 by lia.
    rewrite E1 in J1. injection J1 as <-. split; [|now apply intersects_almost].
    split; [assumption|]. replace (Datatypes.S (Datatypes.S i - j - 1)) with (Datatypes.S i - j)%nat by lia. assumption.
Qed.

(** Three points are accepted as they are, fewer give nothing. *)
Theorem C51_few_points :
  forall nearest sort,
  (forall a b c, boundary nearest sort [a; b; c] = ([3%nat], Boundary [a; b; c])) /\
  (forall points, (length points < 3)%nat -> boundary nearest sort points = ([], Boundary [])).
Proof.
  intros nearest sort. split.
  - intros [ax ay] [bx by_] [cx cy]. reflexivity.
  - intros points L. unfold boundary. now replace (length points <? 3)%nat with true by (symmetry; now apply Nat.ltb_lt).
Qed.

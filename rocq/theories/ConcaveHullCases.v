(** C51: concrete sets of points, for every exact search and every correct sort. *)
From Coq Require Import Lra Lia Permutation Sorted Psatz Machin.
From Verif Require Import ConcaveHullModel ConcaveHullSpec ConcaveHullProofs ConcaveHullProps.
Local Open Scope R_scope.

(** ** Oracles which are exact *)

Section Insertion.
Context {A : Type} (key : A -> R).
Fixpoint insert (x : A) (l : list A) : list A :=
  match l with
  | [] => [x]
  | y :: l' => if Rle_dec (key x) (key y) then x :: l else y :: insert x l'
  end.
Definition isort (l : list A) : list A := fold_right insert [] l.
Lemma insert_perm x l : Permutation (x :: l) (insert x l).
Proof.
  induction l as [|y l IH]; [reflexivity|]. cbn. destruct (Rle_dec (key x) (key y)); [reflexivity|].
  rewrite perm_swap. now rewrite IH.
Qed.
Lemma isort_perm l : Permutation l (isort l).
Proof. induction l as [|x l IH]; [reflexivity|]. cbn. now rewrite <- insert_perm, <- IH. Qed.
Lemma insert_sorted x l : StronglySorted (fun a b => key a <= key b) l -> StronglySorted (fun a b => key a <= key b) (insert x l).
Proof.
  induction 1 as [|y l S IH F]; cbn; [repeat constructor|]. destruct (Rle_dec (key x) (key y)) as [H|H].
  - constructor; [now constructor|]. constructor; [assumption|]. eapply Forall_impl; [|exact F]. cbn. intros a. lra.
  - constructor; [assumption|]. rewrite Forall_forall in *. intros a I. apply (Permutation_in _ (Permutation_sym (insert_perm x l))) in I as [<-|I]; [lra|auto].
Qed.
Lemma isort_sorted l : StronglySorted (fun a b => key a <= key b) (isort l).
Proof. induction l; [constructor|]. now apply insert_sorted. Qed.
End Insertion.
Definition exact_nearest (index : list pt) (from : pt) (k : nat) : list pt := firstn k (isort (fun p => distance2 p from) index).
Definition exact_sort (l : list (R * pt)) : list (R * pt) := isort (fun p => - fst p) l.
Lemma sorted_split {A} (R : A -> A -> Prop) l l' : StronglySorted R (l ++ l') -> forall a b, In a l -> In b l' -> R a b.
Proof.
  induction l as [|x l IH]; intros S a b I J; [easy|]. cbn in S. apply StronglySorted_inv in S as [S F]. destruct I as [<-|I]; [|now apply IH].
  rewrite Forall_forall in F. apply F. apply in_or_app. now right.
Qed.
(** the hypotheses on the search and on the sort can be met *)
Theorem exact_oracles : exact_search exact_nearest /\ takes_from_the_index exact_nearest /\ sorts exact_sort.
Proof.
  assert (E : exact_search exact_nearest).
  { intros index from k. unfold exact_nearest. set (l := isort (fun p => distance2 p from) index).
    exists (skipn k l). rewrite firstn_skipn. split; [apply isort_perm|]. split.
    - rewrite firstn_length. f_equal. symmetry. apply Permutation_length, isort_perm.
    - intros a b I J. pose proof (isort_sorted (fun p => distance2 p from) index) as S. fold l in S. rewrite <- (firstn_skipn k l) in S.
      exact (sorted_split _ _ _ S a b I J). }
  split; [assumption|]. split.
  - intros index from k. destruct (E index from k) as (o & P & _). eauto.
  - split; [intros l; apply isort_perm|]. intros l. pose proof (isort_sorted (fun p : R * pt => - fst p) l) as S.
    fold (exact_sort l) in S. pose proof tolerance_pos as T. induction S as [|x l' S IH F]; [constructor|]. constructor; [assumption|].
    eapply Forall_impl; [|exact F]. cbn. intros a. lra.
Qed.

(** ** One step *)

Lemma nearest_set nearest index from k set : exact_search nearest -> NoDup index -> NoDup set -> length set = k -> incl set index ->
  (forall q r, In q set -> In r index -> ~ In r set -> distance2 q from < distance2 r from) ->
  forall q, In q (nearest index from k) <-> In q set.
Proof.
  intros E N Ns L I C. destruct (E index from k) as (others & P & Len & D).
  pose proof (NoDup_incl_length Ns I) as Li. rewrite L in Li. rewrite Nat.min_l in Len by lia.
  assert (Nn : NoDup (nearest index from k)).
  { apply (Permutation_NoDup P) in N. clear -N. induction (nearest index from k) as [|x l IH]; [constructor|]. cbn in N. apply NoDup_cons_iff in N as [N M].
    constructor; [|auto]. intros J. apply N. apply in_or_app. now left. }
  assert (dec : forall a b : pt, {a = b} + {a <> b}).
  { intros [a b c] [a' b' c']. destruct (Req_EM_T a a'); [|right; congruence]. destruct (Req_EM_T b b'); [|right; congruence].
    destruct (Nat.eq_dec c c'); [left|right]; congruence. }
  assert (S1 : incl (nearest index from k) set).
  { intros r J. destruct (in_dec dec r set) as [|O]; [assumption|]. exfalso.
    assert (X : exists q, In q set /\ ~ In q (nearest index from k)).
    { destruct (Forall_Exists_dec (fun q => In q (nearest index from k)) (fun q => in_dec dec q _) set) as [F|F].
      - exfalso. rewrite Forall_forall in F. assert (Z : (length (r :: set) <= length (nearest index from k))%nat).
        { apply NoDup_incl_length; [now constructor|]. intros z [<-|Z]; auto. }
        cbn in Z. lia.
      - apply Exists_exists in F as (q & F1 & F2). eauto. }
    destruct X as (q & X1 & X2).
    assert (Q : In q others).
    { apply I in X1. apply (Permutation_in _ P) in X1. apply in_app_or in X1 as [X1|X1]; [contradiction|assumption]. }
    specialize (D r q J Q). assert (Ir : In r index) by (apply (Permutation_in _ (Permutation_sym P)); apply in_or_app; now left).
    specialize (C q r X1 Ir O). lra. }
  intros q. split; [apply S1|]. apply (NoDup_length_incl Nn); [lia|assumption].
Qed.
Lemma best_first sort l a q : sorts sort -> In (a, q) l -> (forall b r, In (b, r) l -> (b, r) <> (a, q) -> b + tolerance < a) ->
  exists rest, sort l = (a, q) :: rest.
Proof.
  intros [P S] I B. specialize (P l). specialize (S l). destruct (sort l) as [|[b r] t]; [apply Permutation_sym, Permutation_nil in P; now subst|].
  assert (J : In (b, r) l) by (apply (Permutation_in _ (Permutation_sym P)); now left).
  assert (Q : (b, r) = (a, q) \/ (b, r) <> (a, q)).
  { destruct (Req_EM_T b a) as [->|]; [|right; congruence]. destruct r as [x y i], q as [x' y' i'].
    destruct (Req_EM_T x x') as [->|]; [|right; congruence]. destruct (Req_EM_T y y') as [->|]; [|right; congruence].
    destruct (Nat.eq_dec i i') as [->|]; [now left|right; congruence]. }
  destruct Q as [->|Q]; [now exists t|]. exfalso. specialize (B b r J Q). apply (Permutation_in _ P) in I as [I|I]; [congruence|].
  apply StronglySorted_inv in S as [_ F]. rewrite Forall_forall in F. now apply (F _ I).
Qed.
Lemma walk_step nearest sort fuel points k hull first first' current previous index index' set q :
  exact_search nearest -> sorts sort ->
  (negb (points_equal current first) || (length hull =? 1)%nat) && negb (length hull =? length points)%nat = true ->
  (if (length hull =? 4)%nat then (mkPt (px first) (py first) (length points), index ++ [mkPt (px first) (py first) (length points)]) else (first, index)) = (first', index') ->
  NoDup index' -> NoDup set -> length set = k -> incl set index' ->
  (forall q r, In q set -> In r index' -> ~ In r set -> distance2 q current < distance2 r current) ->
  In q set -> (forall r, In r set -> r = q \/ normalise_angle (angle current r - previous) + tolerance < normalise_angle (angle current q - previous)) ->
  crosses hull q (js hull first' q) = Some false -> nth_error hull (length hull - 1) = Some current -> (1 <= length hull)%nat ->
  walk nearest sort (S fuel) points k hull first current previous index
  = walk nearest sort fuel points k (hull ++ [q]) first' q (angle q current) (remove_point index' (pid q)).
Proof.
  intros E S G I N Ns L Inc C Q B X Cu L1. cbn [walk]. rewrite G. cbn zeta. rewrite I.
  pose proof (nearest_set nearest index' current k set E N Ns L Inc C) as M. unfold sort_by_angle.
  destruct (best_first sort (map (fun to => (normalise_angle (angle current to - previous), to)) (nearest index' current k))
              (normalise_angle (angle current q - previous)) q S) as [rest ->].
  - apply in_map_iff. exists q. split; [easy|now apply M].
  - intros b r J D. apply in_map_iff in J as (r' & J & K). injection J as <- ->. apply M in K. destruct (B r K) as [->|]; [congruence|assumption].
  - cbn [map snd choose]. rewrite X. rewrite nth_error_app2 by lia. rewrite Nat.sub_diag. cbn [nth_error].
    rewrite nth_error_app1 by lia. now rewrite Cu.
Qed.

(** ** A rectangle, two points inside and one point outside *)

Definition set_with (ox : R) : list (R * R) := [(4, 0); (4, 3); (0, 3); (0, 0); (2, 1); (2, 2); (ox, 1)].
Definition rectangle : list pt := [mkPt 4 0 0; mkPt 4 3 1; mkPt 0 3 2; mkPt 0 0 3; mkPt 4 0 7].

Lemma tolerance_small : tolerance < / 8.
Proof. unfold tolerance. apply Rinv_lt_contravar; [|]; [|]; lra. Qed.
Definition L := atan (/ 2).
Lemma L_bounds : PI / 8 < L < PI / 4.
Proof.
  unfold L. pose proof Machin_2_3 as M. assert (atan (/ 3) < atan (/ 2)) by (apply atan_increasing; lra).
  assert (0 < atan (/ 3)) by (rewrite <- atan_0; apply atan_increasing; lra). lra.
Qed.
Lemma PI_2_4 : 2 < PI <= 4.
Proof. split; [pose proof PI2_1; lra|apply PI_4]. Qed.

Ltac decide_atan2 := unfold atan2;
  repeat match goal with
  | |- context [Rlt_dec ?a ?b] => let H := fresh in destruct (Rlt_dec a b) as [H|H]; try (exfalso; lra)
  | |- context [Rle_dec ?a ?b] => let H := fresh in destruct (Rle_dec a b) as [H|H]; try (exfalso; lra)
  end.
Ltac decide_normal := unfold normalise_angle, rlt;
  match goal with |- context [Rlt_dec ?a ?b] => let H := fresh in destruct (Rlt_dec a b) as [H|H]; try (exfalso; lra) end.
Lemma atan_diag y x : y / x = 1 -> atan (y / x) = PI / 4.
Proof. intros ->. apply atan_1. Qed.
Lemma atan_anti y x : y / x = -1 -> atan (y / x) = - (PI / 4).
Proof. intros ->. replace (-1) with (- (1)) by ring. now rewrite atan_opp, atan_1. Qed.
Lemma atan_half y x : y / x = / 2 -> atan (y / x) = L.
Proof. now intros ->. Qed.
Lemma atan_half_neg y x : y / x = - / 2 -> atan (y / x) = - L.
Proof. intros ->. now rewrite atan_opp. Qed.
Lemma atan_none y x : y / x = 0 -> atan (y / x) = 0.
Proof. intros ->. apply atan_0. Qed.
Ltac values := pose proof L_bounds as LB; pose proof PI_2_4 as PB; unfold angle; cbn [px py]; decide_atan2;
  rewrite ?(atan_diag _ _) by lra; rewrite ?(atan_anti _ _) by lra; rewrite ?(atan_half _ _) by lra; rewrite ?(atan_half_neg _ _) by lra; rewrite ?(atan_none _ _) by lra;
  decide_normal; lra.
(* from the first corner *)
Lemma a01 : angle (mkPt 4 0 0) (mkPt 4 3 1) = 3 * (PI / 2). Proof. values. Qed.
Lemma a0c : angle (mkPt 4 0 0) (mkPt 2 1 4) = PI + L. Proof. values. Qed.
Lemma a0d : angle (mkPt 4 0 0) (mkPt 2 2 5) = 5 * (PI / 4). Proof. values. Qed.
(* from the second one *)
Lemma a10 : angle (mkPt 4 3 1) (mkPt 4 0 0) = PI / 2. Proof. values. Qed.
Lemma a12 : angle (mkPt 4 3 1) (mkPt 0 3 2) = PI. Proof. values. Qed.
Lemma a1c : angle (mkPt 4 3 1) (mkPt 2 1 4) = 3 * (PI / 4). Proof. values. Qed.
Lemma a1d : angle (mkPt 4 3 1) (mkPt 2 2 5) = PI - L. Proof. values. Qed.
(* from the third one *)
Lemma a21 : angle (mkPt 0 3 2) (mkPt 4 3 1) = 0. Proof. values. Qed.
Lemma a23 : angle (mkPt 0 3 2) (mkPt 0 0 3) = PI / 2. Proof. values. Qed.
Lemma a2c : angle (mkPt 0 3 2) (mkPt 2 1 4) = PI / 4. Proof. values. Qed.
Lemma a2d : angle (mkPt 0 3 2) (mkPt 2 2 5) = L. Proof. values. Qed.
(* from the last one *)
Lemma a32 : angle (mkPt 0 0 3) (mkPt 0 3 2) = 3 * (PI / 2). Proof. values. Qed.
Lemma a30 : angle (mkPt 0 0 3) (mkPt 4 0 7) = 0. Proof. values. Qed.
Lemma a3c : angle (mkPt 0 0 3) (mkPt 2 1 4) = 2 * PI - L. Proof. values. Qed.
Lemma a3d : angle (mkPt 0 0 3) (mkPt 2 2 5) = 2 * PI - PI / 4. Proof. values. Qed.

Lemma equal_refl a : equal a a = true.
Proof. unfold equal. apply rle_spec. rewrite Rminus_eq_0, Rabs_R0. pose proof tolerance_pos. lra. Qed.
Lemma equal_far a b : 1 <= a - b \/ 1 <= b - a -> equal a b = false.
Proof. intros H. unfold equal. apply rle_false. pose proof tolerance_small. unfold Rabs. destruct (Rcase_abs (a - b)); lra. Qed.
Ltac far := apply equal_far; cbn [px py]; lra.
Lemma find_first ox : find_min_y (mkPt 4 0 0) [mkPt 4 3 1; mkPt 0 3 2; mkPt 0 0 3; mkPt 2 1 4; mkPt 2 2 5; mkPt ox 1 6] = mkPt 4 0 0.
Proof.
  pose proof tolerance_small as T. pose proof tolerance_pos as T'.
  assert (D : forall x y i, 1 <= y -> lower (mkPt x y i) (mkPt 4 0 0) = false).
  { intros x y i Y. unfold lower. cbn [py px]. rewrite (equal_far y 0) by lra. unfold less_than, rlt. destruct (Rlt_dec y (0 - tolerance)); [lra|easy]. }
  assert (Z : lower (mkPt 0 0 3) (mkPt 4 0 0) = false).
  { unfold lower. cbn [py px]. rewrite equal_refl. unfold greater_than, rlt. destruct (Rlt_dec (4 + tolerance) 0); [lra|easy]. }
  unfold find_min_y. cbn [fold_left]. rewrite !D, !Z, !D by lra. reflexivity.
Qed.
Lemma not_eq_x a b i : a <> b -> forall y y' , mkPt a y i <> mkPt b y' i.
Proof. intros H y y' E. now injection E. Qed.

Ltac nodup := repeat constructor; cbn [In]; intros H; repeat (destruct H as [H|H]); try discriminate H; try exact H.
Ltac members := let x := fresh in let H := fresh in intros x H; cbn [In] in *; repeat (destruct H as [H|H]); subst; auto 10; contradiction.
Lemma parallel_no_intersection x1 y1 i1 x2 y2 i2 x3 y3 i3 x4 y4 i4 : (y2 - y1) * (x3 - x4) - (y4 - y3) * (x1 - x2) = 0 ->
  intersects (mkPt x1 y1 i1) (mkPt x2 y2 i2) (mkPt x3 y3 i3) (mkPt x4 y4 i4) = false.
Proof.
  intros H. unfold intersects. cbn [px py]. replace (zero _) with true; [easy|]. symmetry. unfold zero. apply rle_spec. rewrite H, Rabs_R0.
  pose proof tolerance_pos. lra.
Qed.
(* no point out of the set of the neighbours is as close *)
Ltac closest F := intros q r Q R NR; cbn [In] in Q, R, NR; unfold distance2;
  repeat (destruct R as [R|R]); try contradiction; subst r; try (exfalso; apply NR; now auto 10); clear NR;
  repeat (destruct Q as [Q|Q]); try contradiction; subst q; cbn [px py];
  first [lra | eapply Rlt_trans; [|apply F; lra]; lra].
Ltac turned := let r := fresh in let R := fresh in intros r R; cbn [In] in R; repeat (destruct R as [R|R]); try contradiction; subst r; try (now left); right;
  rewrite ?a01, ?a0c, ?a0d, ?a10, ?a12, ?a1c, ?a1d, ?a21, ?a23, ?a2c, ?a2d, ?a32, ?a30, ?a3c, ?a3d;
  unfold normalise_angle, rlt; repeat match goal with |- context [Rlt_dec ?a ?b] => let H := fresh in destruct (Rlt_dec a b) as [H|H] end; try (exfalso; lra); lra.

Section Run.
Variable ox : R.
Hypothesis far_away : 100 <= ox \/ ox <= -100.
Let points := [mkPt 4 0 0; mkPt 4 3 1; mkPt 0 3 2; mkPt 0 0 3; mkPt 2 1 4; mkPt 2 2 5; mkPt ox 1 6].
Lemma far_from x y : 0 <= x <= 4 -> 9000 < (ox - x) * (ox - x) + (1 - y) * (1 - y).
Proof.
  intros H. pose proof (Rle_0_sqr (1 - y)) as Y. unfold Rsqr in Y. enough (96 * 96 <= (ox - x) * (ox - x)) by lra. destruct far_away.
  - apply Rmult_le_compat; lra.
  - replace ((ox - x) * (ox - x)) with ((x - ox) * (x - ox)) by ring. apply Rmult_le_compat; lra.
Qed.
Variable nearest : list pt -> pt -> nat -> list pt.
Variable sort : list (R * pt) -> list (R * pt).
Hypothesis E : exact_search nearest.
Hypothesis S : sorts sort.
Lemma step0 : walk nearest sort 7 points 3 [mkPt 4 0 0] (mkPt 4 0 0) (mkPt 4 0 0) 0 [mkPt 4 3 1; mkPt 0 3 2; mkPt 0 0 3; mkPt 2 1 4; mkPt 2 2 5; mkPt ox 1 6]
  = walk nearest sort 6 points 3 [mkPt 4 0 0; mkPt 4 3 1] (mkPt 4 0 0) (mkPt 4 3 1) (angle (mkPt 4 3 1) (mkPt 4 0 0)) [mkPt 0 3 2; mkPt 0 0 3; mkPt 2 1 4; mkPt 2 2 5; mkPt ox 1 6].
Proof.
  pose proof tolerance_small as T. pose proof tolerance_pos as T'. pose proof L_bounds as LB. pose proof PI_2_4 as PB.
  refine (walk_step nearest sort 6 points 3 [mkPt 4 0 0] _ (mkPt 4 0 0) (mkPt 4 0 0) 0 _ [mkPt 4 3 1; mkPt 0 3 2; mkPt 0 0 3; mkPt 2 1 4; mkPt 2 2 5; mkPt ox 1 6]
    [mkPt 4 3 1; mkPt 2 1 4; mkPt 2 2 5] (mkPt 4 3 1) E S _ _ _ _ _ _ _ _ _ _ _ _).
  - cbn [length Nat.eqb]. now rewrite orb_true_r.
  - reflexivity.
  - nodup.
  - nodup.
  - reflexivity.
  - members.
  - closest far_from.
  - now left.
  - turned.
  - cbn. now destruct (points_equal _ _).
  - reflexivity.
  - cbn. lia.
Qed.
Lemma step1 : walk nearest sort 6 points 3 [mkPt 4 0 0; mkPt 4 3 1] (mkPt 4 0 0) (mkPt 4 3 1) (angle (mkPt 4 3 1) (mkPt 4 0 0)) [mkPt 0 3 2; mkPt 0 0 3; mkPt 2 1 4; mkPt 2 2 5; mkPt ox 1 6]
  = walk nearest sort 5 points 3 [mkPt 4 0 0; mkPt 4 3 1; mkPt 0 3 2] (mkPt 4 0 0) (mkPt 0 3 2) (angle (mkPt 0 3 2) (mkPt 4 3 1)) [mkPt 0 0 3; mkPt 2 1 4; mkPt 2 2 5; mkPt ox 1 6].
Proof.
  pose proof tolerance_small as T. pose proof tolerance_pos as T'. pose proof L_bounds as LB. pose proof PI_2_4 as PB.
  refine (walk_step nearest sort 5 points 3 [mkPt 4 0 0; mkPt 4 3 1] _ (mkPt 4 0 0) (mkPt 4 3 1) _ _ [mkPt 0 3 2; mkPt 0 0 3; mkPt 2 1 4; mkPt 2 2 5; mkPt ox 1 6]
    [mkPt 0 3 2; mkPt 2 1 4; mkPt 2 2 5] (mkPt 0 3 2) E S _ _ _ _ _ _ _ _ _ _ _ _).
  - unfold points_equal. cbn [px py]. rewrite (equal_far 3 0) by lra. now rewrite andb_false_r.
  - reflexivity.
  - nodup.
  - nodup.
  - reflexivity.
  - members.
  - closest far_from.
  - now left.
  - turned.
  - cbn. now destruct (points_equal _ _).
  - reflexivity.
  - cbn. lia.
Qed.
Lemma step2 : walk nearest sort 5 points 3 [mkPt 4 0 0; mkPt 4 3 1; mkPt 0 3 2] (mkPt 4 0 0) (mkPt 0 3 2) (angle (mkPt 0 3 2) (mkPt 4 3 1)) [mkPt 0 0 3; mkPt 2 1 4; mkPt 2 2 5; mkPt ox 1 6]
  = walk nearest sort 4 points 3 [mkPt 4 0 0; mkPt 4 3 1; mkPt 0 3 2; mkPt 0 0 3] (mkPt 4 0 0) (mkPt 0 0 3) (angle (mkPt 0 0 3) (mkPt 0 3 2)) [mkPt 2 1 4; mkPt 2 2 5; mkPt ox 1 6].
Proof.
  pose proof tolerance_small as T. pose proof tolerance_pos as T'. pose proof L_bounds as LB. pose proof PI_2_4 as PB.
  refine (walk_step nearest sort 4 points 3 [mkPt 4 0 0; mkPt 4 3 1; mkPt 0 3 2] _ (mkPt 4 0 0) (mkPt 0 3 2) _ _ [mkPt 0 0 3; mkPt 2 1 4; mkPt 2 2 5; mkPt ox 1 6]
    [mkPt 0 0 3; mkPt 2 1 4; mkPt 2 2 5] (mkPt 0 0 3) E S _ _ _ _ _ _ _ _ _ _ _ _).
  - unfold points_equal. cbn [px py]. rewrite (equal_far 3 0) by lra. now rewrite andb_false_r.
  - reflexivity.
  - nodup.
  - nodup.
  - reflexivity.
  - members.
  - closest far_from.
  - now left.
  - turned.
  - unfold js, points_equal. cbn [px py length]. rewrite (equal_far 0 4) by lra. cbn [andb Nat.sub seq crosses nth_error length].
    rewrite parallel_no_intersection; [reflexivity|ring].
  - reflexivity.
  - cbn. lia.
Qed.
Lemma step3 : walk nearest sort 4 points 3 [mkPt 4 0 0; mkPt 4 3 1; mkPt 0 3 2; mkPt 0 0 3] (mkPt 4 0 0) (mkPt 0 0 3) (angle (mkPt 0 0 3) (mkPt 0 3 2)) [mkPt 2 1 4; mkPt 2 2 5; mkPt ox 1 6]
  = walk nearest sort 3 points 3 rectangle (mkPt 4 0 7) (mkPt 4 0 7) (angle (mkPt 4 0 7) (mkPt 0 0 3)) [mkPt 2 1 4; mkPt 2 2 5; mkPt ox 1 6].
Proof.
  pose proof tolerance_small as T. pose proof tolerance_pos as T'. pose proof L_bounds as LB. pose proof PI_2_4 as PB.
  refine (walk_step nearest sort 3 points 3 [mkPt 4 0 0; mkPt 4 3 1; mkPt 0 3 2; mkPt 0 0 3] _ (mkPt 4 0 7) (mkPt 0 0 3) _ _ [mkPt 2 1 4; mkPt 2 2 5; mkPt ox 1 6; mkPt 4 0 7]
    [mkPt 4 0 7; mkPt 2 1 4; mkPt 2 2 5] (mkPt 4 0 7) E S _ _ _ _ _ _ _ _ _ _ _ _).
  - unfold points_equal. cbn [px py]. now rewrite (equal_far 0 4) by lra.
  - reflexivity.
  - nodup.
  - nodup.
  - reflexivity.
  - members.
  - closest far_from.
  - now left.
  - turned.
  - unfold js, points_equal. cbn [px py length]. rewrite !equal_refl. cbn [andb Nat.sub seq crosses nth_error length].
    rewrite parallel_no_intersection; [reflexivity|ring].
  - reflexivity.
  - cbn. lia.
Qed.
Lemma run : concave_hull nearest sort (identify 0 (set_with ox)) 3
  = if multiple_point_in_polygon [mkPt 2 1 4; mkPt 2 2 5; mkPt ox 1 6] rectangle then Accepted rectangle else Rejected.
Proof.
  cbn [identify set_with]. unfold concave_hull. rewrite find_first.
  change (remove_point _ _) with [mkPt 4 3 1; mkPt 0 3 2; mkPt 0 0 3; mkPt 2 1 4; mkPt 2 2 5; mkPt ox 1 6]. fold points. change (length points) with 7%nat.
  rewrite step0, step1, step2, step3. cbn [walk]. unfold points_equal at 1. rewrite !equal_refl. reflexivity.
Qed.
End Run.

Lemma horizontal p x1 x2 y i j : edge_on_the_right p (mkPt x1 y i) (mkPt x2 y j) = false.
Proof.
  unfold edge_on_the_right. cbn [px py]. apply andb_false_iff. left. apply andb_false_iff. right. apply negb_false_iff, rle_spec.
  rewrite Rminus_eq_0, Rabs_R0. pose proof tolerance_pos. lra.
Qed.
Lemma upwards x y n a i j : 1 <= y <= 2 -> 1 <= a - x \/ 1 <= x - a -> edge_on_the_right (mkPt x y n) (mkPt a 0 i) (mkPt a 3 j) = rlt x a.
Proof.
  intros Y X. pose proof tolerance_small. pose proof tolerance_pos. unfold edge_on_the_right. cbn [px py].
  replace (less_than_or_equal 0 y) with true by (symmetry; apply rle_spec; lra). replace (less_than y 3) with true by (symmetry; apply rlt_spec; lra).
  replace (zero (3 - 0)) with false by (symmetry; apply rle_false; rewrite Rabs_right; lra). cbn [andb orb negb].
  replace (a + (a - a) * (y - 0) / (3 - 0)) with a by field. unfold less_than, rlt. destruct (Rlt_dec x a), (Rlt_dec x (a - tolerance)); lra || reflexivity.
Qed.
Lemma downwards x y n a i j : 1 <= y <= 2 -> 1 <= a - x \/ 1 <= x - a -> edge_on_the_right (mkPt x y n) (mkPt a 3 i) (mkPt a 0 j) = rlt x a.
Proof.
  intros Y X. pose proof tolerance_small. pose proof tolerance_pos. unfold edge_on_the_right. cbn [px py].
  replace (less_than_or_equal 0 y) with true by (symmetry; apply rle_spec; lra). replace (less_than y 3) with true by (symmetry; apply rlt_spec; lra).
  replace (zero (0 - 3)) with false by (symmetry; apply rle_false; rewrite Rabs_left; lra). rewrite orb_true_r. cbn [andb orb negb].
  replace (a + (a - a) * (y - 3) / (0 - 3)) with a by field. unfold less_than, rlt. destruct (Rlt_dec x a), (Rlt_dec x (a - tolerance)); lra || reflexivity.
Qed.
Lemma in_rectangle x y n : 1 <= y <= 2 -> (1 <= 4 - x \/ 1 <= x - 4) -> (1 <= 0 - x \/ 1 <= x - 0) ->
  point_in_polygon (mkPt x y n) rectangle = if rlt x 0 then false else true.
Proof.
  intros Y A B. unfold point_in_polygon, rectangle. cbn [length Nat.leb edges_on_the_right].
  rewrite upwards, downwards, !horizontal by assumption. unfold rlt. destruct (Rlt_dec x 0), (Rlt_dec x 4); try lra; reflexivity.
Qed.

(** The hull does not enclose every point: here a point to the right of all the vertices is
    left out of an accepted hull, for every exact search and every correct sort. *)
Theorem C51_encloses_refuted :
  forall nearest sort, (forall i, exact_search (nearest i)) -> (forall i, sorts (sort i)) ->
  boundary nearest sort (set_with 100) = ([3%nat], Boundary [(4, 0); (4, 3); (0, 3); (0, 0); (4, 0)]).
Proof.
  intros nearest sort E S. unfold boundary, compute_concave_hull, possible_neighbours. cbn [length set_with Nat.ltb Nat.leb nth firstn retry].
  fold (set_with 100). rewrite run by (auto; lra). unfold multiple_point_in_polygon. cbn [existsb]. rewrite !in_rectangle by lra.
  unfold rlt. destruct (Rlt_dec 2 0); [lra|]. destruct (Rlt_dec 100 0); [lra|]. reflexivity.
Qed.
(** When the first attempt fails, the second one is made with the same number of neighbours. *)
Theorem C51_numbers_grow_refuted :
  forall nearest sort, (forall i, exact_search (nearest i)) -> (forall i, sorts (sort i)) ->
  exists rest, fst (boundary nearest sort (set_with (-100))) = 3%nat :: 3%nat :: rest.
Proof.
  intros nearest sort E S. unfold boundary, compute_concave_hull, possible_neighbours.
  change (length (set_with (-100)) <? 3)%nat with false. cbv iota. cbn [nth firstn retry].
  assert (R : forall i, concave_hull (nearest i) (sort i) (identify 0 (set_with (-100))) 3 = Rejected).
  { intros i. rewrite run by (auto; lra). unfold multiple_point_in_polygon. cbn [existsb]. rewrite !in_rectangle by lra.
    unfold rlt. destruct (Rlt_dec 2 0); [lra|]. destruct (Rlt_dec (-100) 0); [|lra]. reflexivity. }
  rewrite !R. cbn [length identify set_with Nat.ltb Nat.leb].
  destruct (concave_hull (nearest 2%nat) (sort 2%nat) _ 5); cbn [fst]; try (now exists []); try (eexists; reflexivity).
  cbn [Nat.leb]. destruct (concave_hull (nearest 3%nat) (sort 3%nat) _ 7); cbn [fst]; try (eexists; reflexivity).
Qed.

(** the hull of the first case meets the hypotheses of the theorems on accepted hulls *)
Example accepted_case : compute_concave_hull (fun _ => exact_nearest) (fun _ => exact_sort) (identify 0 (set_with 100)) 8 = ([3%nat], Accepted rectangle).
Proof.
  destruct exact_oracles as (E & _ & S).
  pose proof (C51_encloses_refuted (fun _ => exact_nearest) (fun _ => exact_sort) (fun _ => E) (fun _ => S)) as B.
  unfold boundary, compute_concave_hull, possible_neighbours in *. cbn [nth firstn retry] in *.
  rewrite run by (auto; lra). unfold multiple_point_in_polygon. cbn [existsb]. rewrite !in_rectangle by lra.
  unfold rlt. destruct (Rlt_dec 2 0); [lra|]. destruct (Rlt_dec 100 0); [lra|]. reflexivity.
Qed.
Example accepted_vertices : (2 <= length rectangle <= 7)%nat /\ NoDup (map pid rectangle).
Proof.
  destruct exact_oracles as (_ & E & S & _).
  destruct (C51_vertices (fun _ => exact_nearest) (fun _ => exact_sort) (set_with 100) [3%nat] rectangle (fun _ => E) (fun _ => S) ltac:(cbn; lia) accepted_case) as (A & B & _).
  auto.
Qed.
Example accepted_inside : clear_of 2 1 rectangle /\ ~ In 4%nat (map pid rectangle) /\ nth_error (set_with 100) 4 = Some (2, 1) /\ crossings 2 1 rectangle 1.
Proof.
  pose proof tolerance_small as T.
  assert (C : clear_of 2 1 rectangle).
  { split.
    - intros v I. cbn in I. repeat (destruct I as [<-|I]); try contradiction; cbn [py]; unfold Rabs; destruct (Rcase_abs _); lra.
    - intros i a b t [A B] H Y. destruct i as [|[|[|[|i]]]]; cbn in A, B; try (injection A as <-; injection B as <-); cbn [px py] in *;
        [unfold Rabs; destruct (Rcase_abs _); lra|exfalso; lra|unfold Rabs; destruct (Rcase_abs _); lra|exfalso; lra|now destruct i]. }
  split; [assumption|]. split; [cbn; lia|]. split; [reflexivity|].
  pose proof (edges_on_the_right_spec (mkPt 2 1 4) rectangle C) as X. cbn [px py] in X. unfold rectangle at 2 in X. cbn [edges_on_the_right] in X.
  rewrite upwards, downwards, !horizontal in X by lra. unfold rlt in X. destruct (Rlt_dec 2 4), (Rlt_dec 2 0); try lra. exact X.
Qed.

Print Assumptions C51_ends.
Print Assumptions C51_numbers_tried.
Print Assumptions C51_vertices.
Print Assumptions C51_no_crossing.
Print Assumptions C51_points_left_out.
Print Assumptions C51_next_vertex.
Print Assumptions C51_few_points.
Print Assumptions C51_encloses_refuted.
Print Assumptions C51_numbers_grow_refuted.

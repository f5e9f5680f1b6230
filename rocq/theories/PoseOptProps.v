(** Properties of the pose optimisation (C19, C20, C21, C22, C23), for every
    match set, inlier test, optimiser, shuffle and schedule. *)
From Verif Require Import PoseOptModel PoseOptProofs RansacProofs RansacSeq.
Local Open Scope nat_scope.

(** ** Specification *)
Section Spec.
Context {F : Type}.
Variable kind : F -> fkind.
Definition is_plane (f : F) : bool := match kind f with Plane => true | _ => false end.
Definition planes (l : list F) : nat := length (filter is_plane l).
Definition points (l : list F) : nat := length (filter (fun f => negb (is_plane f)) l).
(** enough matches for an optimisation: points count for a fifth, planes for a
    third, in exact arithmetic: [points / 5 + planes / 3 >= 1] *)
Definition enough (l : list F) : Prop := 15 <= 3 * points l + 5 * planes l.

Lemma enough_weight l : fweight kind l = 3 * points l + 5 * planes l.
Proof.
  unfold fweight, points, planes, is_plane. induction l as [|f l IH]; [reflexivity|].
  unfold weights in *. cbn [map filter fold_right]. rewrite IH. destruct (kind f); cbn [weight negb length]; lia.
Qed.
Lemma enough_fweight l : enough l <-> 15 <= fweight kind l.
Proof. unfold enough. now rewrite enough_weight. Qed.
End Spec.

(** ** C19 — classification of the matches for a pose *)
Theorem C19_classification :
  forall (F P : Type) (kind : F -> fkind) (inlier : P -> F -> option bool) (p : P) (l : list F),
  (forall f, In f l -> inlier p f <> None) ->
  exists ins outs s, classify kind inlier p l = Some ((ins, outs), s) /\
  Permutation l (ins ++ outs) /\
  ins = filter (fun f => match inlier p f with Some b => b | None => false end) l /\
  outs = filter (fun f => match inlier p f with Some b => negb b | None => false end) l /\
  (forall f, In f ins <-> In f l /\ inlier p f = Some true) /\
  (forall f, In f outs <-> In f l /\ inlier p f = Some false) /\
  s = set_score kind ins /\ (dle done s = true <-> enough kind ins).
Proof.
  intros F P kind inlier p l NT. do 3 eexists. split; [now apply classify_spec|].
  assert (E2 : filter (fun f => negb (holds inlier p f)) l = filter (fun f => match inlier p f with Some b => negb b | None => false end) l).
  { apply filter_ext_in. intros f I. specialize (NT f I). unfold holds. destruct (inlier p f) as [b|]; [reflexivity|congruence]. }
  split; [apply filter_partition|]. split; [reflexivity|]. split; [exact E2|]. split; [|split; [|split; [reflexivity|]]].
  - intros f. rewrite filter_In. unfold holds. destruct (inlier p f) as [[|]|]; intuition congruence.
  - intros f. rewrite E2, filter_In. destruct (inlier p f) as [[|]|]; cbn; intuition congruence.
  - rewrite enough_fweight. apply enough_iff.
Qed.
Print Assumptions C19_classification.

(** The classification ends the program exactly when a test throws. *)
Theorem C19_throwing_test_ends_the_program :
  forall (F P : Type) (kind : F -> fkind) (inlier : P -> F -> option bool) (p : P) (l : list F),
  classify kind inlier p l = None <-> exists f, In f l /\ inlier p f = None.
Proof. intros. apply classify_throws. Qed.
Print Assumptions C19_throwing_test_ends_the_program.

(** ** C22 — random subsets *)
Theorem C22_random_subset :
  forall (F : Type) (kind : F -> fkind) (matched shuffled : list F), Permutation matched shuffled -> enough kind matched ->
  exists n, random_subset kind shuffled = Some (rev (firstn n shuffled)) /\ 0 < n <= length shuffled /\
  enough kind (firstn n shuffled) /\ (forall m, m < n -> ~ enough kind (firstn m shuffled)) /\
  (NoDup matched -> NoDup (rev (firstn n shuffled))) /\ (forall f, In f (rev (firstn n shuffled)) -> In f matched).
Proof.
  intros F kind l sh P E. rewrite enough_fweight, (fweight_perm kind l sh P) in E.
  destruct (random_subset_spec kind sh E) as (n & R & B & W & M). exists n. split; [exact R|]. split; [exact B|].
  split; [now rewrite enough_fweight|]. split; [|split].
  - intros m Hm X. rewrite enough_fweight in X. specialize (M m Hm). lia.
  - intros N. apply (Permutation_NoDup P) in N. apply NoDup_rev. rewrite <- (firstn_skipn n sh) in N.
    revert N. generalize (firstn n sh) (skipn n sh). clear. induction l as [|a l IH]; intros l' N; [constructor|].
    inversion N as [|x y Hx Hy]; subst. constructor; [|eauto]. intros I. apply Hx. apply in_or_app. now left.
  - intros f I. apply in_rev in I. apply Permutation_sym in P. apply (Permutation_in f P).
    rewrite <- (firstn_skipn n sh). apply in_or_app. now left.
Qed.
Print Assumptions C22_random_subset.

(** Drawing throws exactly when the whole set is not enough. *)
Theorem C22_throws_iff_not_enough :
  forall (F : Type) (kind : F -> fkind) (shuffled : list F), random_subset kind shuffled = None <-> ~ enough kind shuffled.
Proof.
  intros F kind sh. rewrite enough_fweight. split.
  - intros N E. destruct (random_subset_spec kind sh E) as (n & R & _). congruence.
  - intros N. apply random_subset_none. lia.
Qed.
Print Assumptions C22_throws_iff_not_enough.

(** The comparison with 1 of the sum of the binary64 scores is exact, in
    whatever order the matches come. *)
Theorem C22_score_exact :
  forall (F : Type) (kind : F -> fkind) (l : list F),
  (dle done (set_score kind l) = true <-> enough kind l) /\ (dlt (set_score kind l) done = true <-> ~ enough kind l).
Proof. intros F kind l. rewrite enough_fweight, enough_iff, short_iff. split; lia. Qed.
Print Assumptions C22_score_exact.

(** A draw of a number of matches: it fails exactly when more are asked than there are; otherwise it
    gives that number of matches, each taken from a place of its own, for every shuffle. *)
Theorem C22_fixed_size :
  forall (F : Type) (matched shuffled : list F) (n : nat), Permutation matched shuffled ->
  (random_subset_n shuffled n = None <-> length matched < n) /\
  (forall s, random_subset_n shuffled n = Some s -> length s = n /\ exists left, Permutation matched (s ++ left)).
Proof.
  intros F l sh n P. unfold random_subset_n. assert (L := Permutation_length P). split.
  - destruct (Nat.ltb_spec (length sh) n) as [G|G]; split; intros H; try lia; [reflexivity|discriminate].
  - intros s. destruct (Nat.ltb_spec (length sh) n) as [|G]; [discriminate|]. intros [= <-]. split.
    + rewrite rev_length, firstn_length. lia.
    + exists (skipn n sh). rewrite P. rewrite <- (firstn_skipn n sh) at 1. apply Permutation_app_tail, Permutation_rev.
Qed.
Print Assumptions C22_fixed_size.
(** Every choice is the result of a shuffle. *)
Theorem C22_fixed_size_reached :
  forall (F : Type) (matched s left : list F), Permutation matched (s ++ left) ->
  exists shuffled, Permutation matched shuffled /\ random_subset_n shuffled (length s) = Some s.
Proof.
  intros F l s left P. exists (rev s ++ left). split.
  - rewrite P. apply Permutation_app_tail, Permutation_rev.
  - unfold random_subset_n. assert (E : length s = length (rev s)) by now rewrite rev_length.
    rewrite app_length, rev_length. destruct (Nat.ltb_spec (length s + length left) (length s)); [lia|].
    rewrite E at 1. rewrite firstn_app, firstn_all, Nat.sub_diag. cbn [firstn]. now rewrite app_nil_r, rev_involutive.
Qed.
Print Assumptions C22_fixed_size_reached.
Example C22_fixed_size_example : random_subset_n [7; 5; 7; 9] 2 = Some [5; 7] /\ random_subset_n [7; 5] 3 = None.
Proof. split; reflexivity. Qed.

(** The number of residuals of the optimised function: two for each point, three for each plane. *)
Theorem C23_residuals :
  forall (F : Type) (kind : F -> fkind) (l : list F),
  parts kind l = fold_right (fun f n => match kind f with Plane => 3 | Point | Point2d => 2 end + n) 0 l.
Proof.
  intros F kind l. unfold parts.
  assert (E : forall m, fold_left (fun n f => n + kind_parts (kind f)) l m =
    m + fold_right (fun f n => match kind f with Plane => 3 | Point | Point2d => 2 end + n) 0 l).
  { induction l as [|f l IH]; intros m; cbn; [lia|]. rewrite IH. unfold kind_parts. destruct (kind f); lia. }
  rewrite E. reflexivity.
Qed.
Print Assumptions C23_residuals.

(** ** C23 — the optimiser is only started with at least 6 residuals: two
    optimisers that agree on such sets cannot be told apart. *)
Theorem C23_never_under_determined :
  forall (F P : Type) (kind : F -> fkind) (finite : P -> bool) (lm lm' : P -> list F -> option P),
  (forall p l, 6 <= parts kind l -> lm p l = lm' p l) ->
  forall p l, global_pose kind finite lm p l = global_pose kind finite lm' p l.
Proof.
  intros F P kind finite lm lm' H p l. unfold global_pose. destruct (negb (finite p)); [reflexivity|].
  destruct (_ && _); [reflexivity|]. destruct (dlt _ _) eqn:S; [reflexivity|].
  apply H. apply short_false in S. apply parts_weight in S. lia.
Qed.
Print Assumptions C23_never_under_determined.

(** A set that is enough is always given to the optimiser. *)
Theorem C23_enough_is_optimised :
  forall (F P : Type) (kind : F -> fkind) (finite : P -> bool) (lm : P -> list F -> option P) p l,
  finite p = true -> global_pose kind finite lm p l = if dle done (set_score kind l) then lm p l else None.
Proof.
  intros F P kind finite lm p l Fi. unfold global_pose. rewrite Fi. cbn [negb].
  destruct (C22_score_exact F kind l) as [A B].
  destruct (dlt (set_score kind l) done) eqn:S.
  - assert (~ enough kind l) by now apply B. destruct (dle done (set_score kind l)) eqn:D; [|now destruct (_ && _)].
    exfalso. now apply H, A.
  - assert (E := S). apply short_false in E. assert (Q := E). apply parts_weight in Q.
    apply enough_iff in E. rewrite E. unfold coefficient_columns.
    destruct (Nat.ltb_spec 0 1), (Nat.leb_spec (parts kind l) 1); cbn; lia || reflexivity.
Qed.
Print Assumptions C23_enough_is_optimised.

(** ** C20 — the parallel search *)
Section C20.
Context {F P : Type}.
Variable kind : F -> fkind.
Variable inlier : P -> F -> option bool.
Variable finite : P -> bool.
Variable lm : P -> list F -> option P.
Variable current : P.
Variable matched : list F.
Variable shuffled : nat -> list F.
Variable stop iterations : nat.

(** what an accepted candidate is *)
Lemma evaluate_spec i c :
  (forall i, i < iterations -> Permutation matched (shuffled i)) -> i < iterations ->
  evaluate kind inlier finite lm current matched shuffled i = Some (Some c) ->
  Permutation matched (c_in c ++ c_out c) /\
  (forall f, In f (c_in c) <-> In f matched /\ inlier (c_pose c) f = Some true) /\
  (forall f, In f (c_out c) <-> In f matched /\ inlier (c_pose c) f = Some false) /\
  enough kind (c_in c) /\
  exists subset, (forall f, In f subset -> In f matched) /\ enough kind subset /\ lm current subset = Some (c_pose c).
Proof.
  intros Sh Hi H. unfold evaluate in H. destruct (random_subset kind (shuffled i)) as [sub|] eqn:R; [|discriminate].
  destruct (global_pose kind finite lm current sub) as [p|] eqn:G; [|discriminate].
  destruct (classify kind inlier p matched) as [[[ins outs] sc]|] eqn:C; [|discriminate].
  assert (NT : forall f, In f matched -> inlier p f <> None).
  { intros f I E. assert (X : classify kind inlier p matched = None) by (apply classify_throws; eauto). congruence. }
  destruct (C19_classification F P kind inlier p matched NT) as (ins' & outs' & s' & C' & Pm & _ & _ & I1 & I2 & Sc & _).
  rewrite C in C'. injection C' as <- <- <-.
  destruct (dlt sc done) eqn:S; [discriminate|]. injection H as <-. cbn [c_in c_out c_pose].
  split; [exact Pm|]. split; [exact I1|]. split; [exact I2|].
  split; [rewrite enough_fweight; apply short_false; now rewrite <- Sc|].
  assert (En : enough kind (shuffled i)).
  { rewrite enough_fweight. destruct (Nat.le_gt_cases 15 (fweight kind (shuffled i))) as [X|X]; auto.
    rewrite random_subset_none in R by exact X. discriminate. }
  assert (Em : enough kind matched) by (rewrite enough_fweight, (fweight_perm kind _ _ (Sh i Hi)); now rewrite enough_fweight in En).
  destruct (C22_random_subset F kind matched (shuffled i) (Sh i Hi) Em) as (n & R' & _ & E' & _ & _ & In').
  rewrite R in R'. injection R' as ->. exists (rev (firstn n (shuffled i))). split; [exact In'|].
  split.
  - rewrite enough_fweight in *. now rewrite fweight_perm_rev.
  - unfold global_pose in G. destruct (negb (finite current)); [discriminate|]. destruct (_ && _); [discriminate|]. now destruct (dlt _ _).
Qed.
Lemma evaluate_returns i :
  (forall p f, In f matched -> inlier p f <> None) ->
  (forall i, i < iterations -> Permutation matched (shuffled i)) -> enough kind matched -> i < iterations ->
  evaluate kind inlier finite lm current matched shuffled i <> None.
Proof.
  intros NT Sh En Hi. unfold evaluate.
  destruct (C22_random_subset F kind matched (shuffled i) (Sh i Hi) En) as (n & -> & _).
  destruct (global_pose _ _ _ _ _) as [p|]; [|discriminate].
  destruct (C19_classification F P kind inlier p matched (NT p)) as (ins' & outs' & s' & -> & _). discriminate.
Qed.
End C20.

(** Whatever the schedule of the iterations: when the search succeeds, inliers
    and outliers are a partition of the matches, they are the classification
    for one single candidate pose, which the optimiser computed from a subset
    of the matches; the inliers are enough, and the final pose is what the
    optimiser computes from that candidate pose and these inliers. When it
    fails, the sets are empty and the pose is the one that was given. *)
Theorem C20_self_consistent :
  forall (F P : Type) (kind : F -> fkind) inlier finite lm (current : P) (matched : list F) shuffled stop iterations,
  (forall i, i < iterations -> Permutation matched (shuffled i)) ->
  forall schedule, (forall i, In i schedule -> i < iterations) ->
  forall pose0 r, ransac kind inlier finite lm current matched shuffled stop iterations pose0 schedule = REnded r ->
  (rr_ok r = true /\ Permutation matched (rr_in r ++ rr_out r) /\ enough kind (rr_in r) /\
   exists p, (forall f, In f (rr_in r) <-> In f matched /\ inlier p f = Some true) /\
             (forall f, In f (rr_out r) <-> In f matched /\ inlier p f = Some false) /\
             (exists subset, (forall f, In f subset -> In f matched) /\ enough kind subset /\ lm current subset = Some p) /\
             lm p (rr_in r) = Some (rr_pose r)) \/
  r = mkRes false pose0 [] [].
Proof.
  intros F P kind inlier finite lm current matched shuffled stop iterations Sh schedule B pose0 r H.
  unfold ransac in H. destruct (dlt (set_score kind matched) done); [injection H as <-; now right|].
  cbv zeta in H. set (s := r_run kind inlier finite lm current matched shuffled stop schedule (r_init current)) in *.
  destruct (r_dead s); [discriminate|]. destruct (all_done iterations s) eqn:D; cbn [negb] in H; [|discriminate].
  destruct (dlt (set_score kind (r_in s)) done) eqn:S; [injection H as <-; now right|].
  assert (C := done_consistent kind inlier finite lm current matched shuffled stop iterations schedule B D). fold s in C.
  destruct (global_pose kind finite lm (r_pose s) (r_in s)) as [p|] eqn:G; injection H as <-; [left|now right].
  cbn [rr_ok rr_in rr_out rr_pose]. split; [reflexivity|].
  destruct C as [(_ & _ & E & _)|(i & c & Hi & E & _ & Ep & Ei & Eo)].
  - rewrite E in S. apply short_false in S. cbn in S. lia.
  - destruct (evaluate_spec kind inlier finite lm current matched shuffled iterations i c Sh Hi E) as (A1 & A2 & A3 & A4 & A5).
    rewrite Ei, Eo, Ep in *. split; [exact A1|]. split; [exact A4|]. exists (c_pose c). split; [exact A2|]. split; [exact A3|].
    split; [exact A5|]. unfold global_pose in G. destruct (negb _); [discriminate|]. destruct (_ && _); [discriminate|]. now rewrite S in G.
Qed.
Print Assumptions C20_self_consistent.

(** The program is not ended, and a schedule that runs each iteration often
    enough ends: [12 * iterations] rounds, each of which gives every iteration a
    step at least, in any order. *)
Theorem C20_ends :
  forall (F P : Type) (kind : F -> fkind) inlier finite lm (current : P) (matched : list F) shuffled stop iterations,
  (forall p f, In f matched -> inlier p f <> None) ->
  (forall i, i < iterations -> Permutation matched (shuffled i)) ->
  forall pose0,
  (forall schedule, (forall i, In i schedule -> i < iterations) ->
   ransac kind inlier finite lm current matched shuffled stop iterations pose0 schedule <> RTerminated) /\
  (forall rounds : list (list nat), 12 * iterations <= length rounds ->
   (forall r, In r rounds -> (forall i, In i r -> i < iterations) /\ (forall i, i < iterations -> In i r)) ->
   exists r, ransac kind inlier finite lm current matched shuffled stop iterations pose0 (concat rounds) = REnded r).
Proof.
  intros F P kind inlier finite lm current matched shuffled stop iterations NT Sh pose0.
  assert (Dead : dlt (set_score kind matched) done = false -> forall schedule, (forall i, In i schedule -> i < iterations) ->
    r_dead (r_run kind inlier finite lm current matched shuffled stop schedule (r_init current)) = false).
  { intros S schedule B. eapply dead_run; [exact B| |reflexivity].
    intros i Hi. eapply evaluate_returns; eauto. rewrite enough_fweight. now apply short_false. }
  split.
  - intros schedule B. unfold ransac. destruct (dlt (set_score kind matched) done) eqn:S; [discriminate|].
    cbv zeta. rewrite (Dead eq_refl schedule B).
    repeat match goal with |- (if ?b then _ else _) <> _ => destruct b; [discriminate|] end.
    match goal with |- context [match ?x with Some _ => _ | None => _ end] => destruct x end; discriminate.
  - intros rounds Len R. unfold ransac. destruct (dlt (set_score kind matched) done) eqn:S; [eauto|].
    cbv zeta.
    assert (B : forall i, In i (concat rounds) -> i < iterations).
    { intros i I. apply in_concat in I. destruct I as (r & Ir & Hi). now apply (proj1 (R r Ir)). }
    rewrite (Dead eq_refl _ B).
    assert (X := rounds_end kind inlier finite lm current matched shuffled stop iterations rounds (r_init current) R (inv_init _ _ _ _ _ _ _ iterations)).
    destruct X as [X|X].
    + eapply Nat.le_trans; [apply (total_le inlier finite lm current shuffled)|exact Len].
    + rewrite (Dead eq_refl _ B) in X. discriminate.
    + rewrite X. cbn [negb].
      repeat match goal with |- exists r, (if ?b then _ else _) = _ => destruct b; [eauto|] end.
      destruct (global_pose _ _ _ _ _); eauto.
Qed.
Print Assumptions C20_ends.

(** *** Concrete searches used below: the pose is a number, the optimiser gives the
    identifier of the last match drawn, or stays where it is when it refines. *)
Definition ex_lm (p : nat) (l : list nat) : option nat :=
  if Nat.leb 1000 p then hd_error l else Some p.
Definition ex_finite (p : nat) : bool := true.
(** moves the element of rank 5 to [i] *)
Definition points_only (f : nat) : fkind := Point.

(** 12 points; pose 4 has the inliers 0 to 9, pose 5 the inliers 0 to 5 *)
Definition ex_points : list nat := seq 0 12.
Definition ex_inlier (p f : nat) : option bool :=
  Some (if Nat.eqb p 4 then Nat.ltb f 10 else if Nat.eqb p 5 then Nat.ltb f 6 else false).
Definition ex_shuffled (i : nat) : list nat := if Nat.eqb i 0 then ex_points else [0;1;2;3;5;4] ++ seq 6 6.
Lemma ex_shuffled_perm i : Permutation ex_points (ex_shuffled i).
Proof.
  unfold ex_shuffled. destruct (Nat.eqb i 0); [reflexivity|]. change ex_points with ([0;1;2;3;4;5] ++ seq 6 6).
  apply Permutation_app_tail. repeat constructor.
Qed.
(** one iteration after the other *)
Definition ex_run (schedule : list nat) : rend nat nat :=
  ransac points_only ex_inlier ex_finite ex_lm 1000 ex_points ex_shuffled 100 2 7 schedule.
Example C20_example : ex_run (repeat 0 13 ++ repeat 1 13) = REnded (mkRes true 4 (seq 0 10) [10; 11]).
Proof. vm_compute. reflexivity. Qed.
Example C19_example : option_map fst (classify points_only ex_inlier 5 ex_points) = Some (seq 0 6, seq 6 6).
Proof. vm_compute. reflexivity. Qed.
Lemma from_match {A} (e : option (option A)) (Q : A -> Prop) :
  match e with Some (Some c) => Q c | _ => False end -> exists c, e = Some (Some c) /\ Q c.
Proof. destruct e as [[c|]|]; try tauto. intros H. exists c. auto. Qed.
Example C22_example : random_subset points_only (ex_shuffled 1) = Some [5;3;2;1;0] /\ enough points_only (ex_shuffled 1).
Proof. split; [vm_compute; reflexivity|]. unfold enough. cbn. lia. Qed.
Example C23_example : global_pose points_only ex_finite ex_lm 1000 (seq 0 5) = Some 0 /\ global_pose points_only ex_finite ex_lm 1000 (seq 0 4) = None.
Proof. split; vm_compute; reflexivity. Qed.

(** "The inliers reported are the inliers of the pose reported": they are not
    classified again after the last optimisation. Here the refinement moves the
    pose from 4 to 5. *)
Theorem C20_inliers_of_the_final_pose_refuted :
  exists (lm : nat -> list nat -> option nat) schedule r,
  (forall i, In i schedule -> i < 2) /\
  ransac points_only ex_inlier ex_finite lm 1000 ex_points ex_shuffled 100 2 7 schedule = REnded r /\ rr_ok r = true /\
  exists f, In f (rr_in r) /\ ex_inlier (rr_pose r) f = Some false.
Proof.
  exists (fun p l => if Nat.leb 1000 p then hd_error l else Some (S p)), (repeat 0 13 ++ repeat 1 13). eexists.
  split; [|split; [vm_compute; reflexivity|split; [reflexivity|exists 6; split; [cbn; tauto|reflexivity]]]].
  intros i I. apply in_app_or in I. destruct I as [I|I]; apply repeat_spec in I; lia.
Qed.
Print Assumptions C20_inliers_of_the_final_pose_refuted.

(** "A failed optimisation leaves the sets empty" is true of the search, not of
    the whole optimisation: a rejected variance leaves the sets of the search,
    and an invalid match leaves what the caller had. *)
Theorem C20_failure_leaves_sets_empty_refuted :
  exists schedule r,
  optimized_pose points_only ex_inlier ex_finite ex_lm 1000 ex_points ex_shuffled 100 2 (fun _ => true) (fun _ _ => false) 7 [] [] schedule = REnded r /\
  rr_ok r = false /\ rr_in r <> [] /\ rr_pose r <> 7.
Proof. exists (repeat 0 13 ++ repeat 1 13). eexists. split; [vm_compute; reflexivity|]. repeat split; discriminate. Qed.
Print Assumptions C20_failure_leaves_sets_empty_refuted.

(** A success of the whole optimisation is a success of the search whose
    variance was accepted. *)
Theorem C20_optimized_pose :
  forall (F P : Type) (kind : F -> fkind) inlier finite lm (current : P) (matched : list F) shuffled stop iterations valid variance pose0 in0 out0 schedule r,
  optimized_pose kind inlier finite lm current matched shuffled stop iterations valid variance pose0 in0 out0 schedule = REnded r ->
  rr_ok r = true ->
  (forall f, In f matched -> valid f = true) /\ variance (rr_pose r) (rr_in r) = true /\
  ransac kind inlier finite lm current matched shuffled stop iterations pose0 schedule = REnded r.
Proof.
  intros F P kind inlier finite lm current matched shuffled stop iterations valid variance pose0 in0 out0 schedule r H Ok.
  unfold optimized_pose in H. destruct (forallb valid matched) eqn:V; cbn [negb] in H; [|injection H as <-; discriminate].
  destruct (ransac _ _ _ _ _ _ _ _ _ _ _) as [r'| |] eqn:R; try discriminate.
  split; [now apply forallb_forall|].
  destruct (rr_ok r') eqn:O; injection H as <-; [|congruence]. destruct r' as [ok po i o]. cbn in *. subst ok. now rewrite Ok.
Qed.
Print Assumptions C20_optimized_pose.

(** ** C21 — the best candidate *)

(** When the iterations run one after the other and all the matches are of one
    kind, no candidate examined had more inliers than the result. An iteration
    is examined when the search was not stopped before it. *)
Theorem C21_sequential_one_kind :
  forall (F P : Type) (kind : F -> fkind) inlier finite lm (current : P) (matched : list F) shuffled stop iterations (k : fkind),
  (forall f, In f matched -> kind f = k) -> (Z.of_nat (length matched) < 2 ^ 47)%Z ->
  (forall p f, In f matched -> inlier p f <> None) -> (forall i, i < iterations -> Permutation matched (shuffled i)) ->
  forall pose0 r, ransac kind inlier finite lm current matched shuffled stop iterations pose0 (one_by_one iterations) = REnded r ->
  rr_ok r = true ->
  forall i c, i < iterations ->
  r_quit (r_run kind inlier finite lm current matched shuffled stop (one_by_one i) (r_init current)) = false ->
  evaluate kind inlier finite lm current matched shuffled i = Some (Some c) ->
  length (c_in c) <= length (rr_in r).
Proof.
  intros F P kind inlier finite lm current matched shuffled stop iterations k U Few NT Sh pose0 r H Ok i c Hi Q E.
  unfold ransac in H. destruct (dlt (set_score kind matched) done) eqn:S0; [injection H as <-; discriminate|].
  cbv zeta in H. 
  assert (Ev : forall i, i < iterations -> evaluate kind inlier finite lm current matched shuffled i <> None).
  { intros j Hj. eapply evaluate_returns; eauto. rewrite enough_fweight. now apply short_false. }
  pose proof (keeps_best kind inlier finite lm current matched shuffled stop k U Few iterations Ev) as K. cbv zeta in K.
  set (s := r_run kind inlier finite lm current matched shuffled stop (one_by_one iterations) (r_init current)) in *.
  destruct (r_dead s); [discriminate|]. destruct (negb _); [discriminate|]. destruct (dlt (set_score kind (r_in s)) done); [injection H as <-; discriminate|].
  destruct (global_pose _ _ _ _ _) as [p|]; injection H as <-; [|discriminate]. cbn [rr_in].
  destruct K as [(_ & _ & K)|(_ & _ & _ & K)]; [exfalso; exact (K i c Hi Q E)|exact (K i c Hi Q E)].
Qed.
Print Assumptions C21_sequential_one_kind.

Example C21_example :
  ex_run (one_by_one 2) = REnded (mkRes true 4 (seq 0 10) [10; 11]) /\
  r_quit (r_run points_only ex_inlier ex_finite ex_lm 1000 ex_points ex_shuffled 100 (one_by_one 1) (r_init 1000)) = false /\
  (exists c, evaluate points_only ex_inlier ex_finite ex_lm 1000 ex_points ex_shuffled 1 = Some (Some c) /\ c_in c = seq 0 6).
Proof. split; [vm_compute; reflexivity|]. split; [vm_compute; reflexivity|]. apply from_match. vm_compute. reflexivity. Qed.

(** In parallel this is false: both iterations compare with the initial score
    before any of them writes, the better one writes first. *)
Theorem C21_keeps_the_best_refuted :
  exists schedule r c, (forall i, In i schedule -> i < 2) /\ ex_run schedule = REnded r /\ rr_ok r = true /\
  evaluate points_only ex_inlier ex_finite ex_lm 1000 ex_points ex_shuffled 0 = Some (Some c) /\
  length (rr_in r) = 6 /\ length (c_in c) = 10.
Proof.
  exists ([0;0;1;1] ++ repeat 0 11 ++ repeat 1 11). eexists.
  assert (C : exists c, evaluate points_only ex_inlier ex_finite ex_lm 1000 ex_points ex_shuffled 0 = Some (Some c) /\ length (c_in c) = 10).
  { apply from_match. vm_compute. reflexivity. }
  destruct C as (c & C & L). exists c.
  split; [|split; [vm_compute; reflexivity|split; [reflexivity|split; [exact C|split; [reflexivity|exact L]]]]].
  intros i I. cbn in I. repeat (destruct I as [I|I]; [lia|]). destruct I.
Qed.
Print Assumptions C21_keeps_the_best_refuted.

(** With planes and points it is false even one iteration after the other: a
    set of more matches replaces a set of slightly greater score, twice. The
    matches 0 to 3 are planes, 4 to 9 are points; the scores are 4/3, 19/15, 6/5. *)
Definition mix_kind (f : nat) : fkind := if Nat.ltb f 4 then Plane else Point.
Definition mix : list nat := seq 0 10.
Definition mix_inlier (p f : nat) : option bool :=
  Some (if Nat.eqb p 2 then Nat.ltb f 4
        else if Nat.eqb p 3 then Nat.ltb 1 f && Nat.ltb f 7
        else if Nat.eqb p 8 then Nat.ltb 3 f else false).
Definition mix_shuffled (i : nat) : list nat :=
  match i with
  | 0 => mix
  | 1 => [0;1;3;2] ++ seq 4 6
  | _ => [4;5;6;7;8;9] ++ seq 0 4
  end.
Lemma mix_shuffled_perm i : Permutation mix (mix_shuffled i).
Proof.
  destruct i as [|[|i]]; cbn [mix_shuffled]; [reflexivity| |].
  - change mix with ([0;1;2;3] ++ seq 4 6). apply Permutation_app_tail. repeat constructor.
  - change mix with (seq 0 4 ++ [4;5;6;7;8;9]). apply Permutation_app_comm.
Qed.
Theorem C21_sequential_mixed_refuted :
  exists r c, ransac mix_kind mix_inlier ex_finite ex_lm 1000 mix mix_shuffled 100 3 7 (one_by_one 3) = REnded r /\ rr_ok r = true /\
  evaluate mix_kind mix_inlier ex_finite ex_lm 1000 mix mix_shuffled 0 = Some (Some c) /\
  dlt (set_score mix_kind (rr_in r)) (c_score c) = true /\ close_to (c_score c) (set_score mix_kind (rr_in r)) = false.
Proof.
  assert (C : exists c, evaluate mix_kind mix_inlier ex_finite ex_lm 1000 mix mix_shuffled 0 = Some (Some c) /\
    dlt (set_score mix_kind (seq 4 6)) (c_score c) && negb (close_to (c_score c) (set_score mix_kind (seq 4 6))) = true).
  { apply from_match. vm_compute. reflexivity. }
  destruct C as (c & C & L). apply andb_true_iff in L. destruct L as [L1 L2]. apply negb_true_iff in L2.
  exists (mkRes true 8 (seq 4 6) (seq 0 4)), c. split; [vm_compute; reflexivity|]. split; [reflexivity|]. split; [exact C|]. split; [exact L1|exact L2].
Qed.
Print Assumptions C21_sequential_mixed_refuted.

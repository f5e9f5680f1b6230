(** The duration statistics (C104). *)
From Verif Require Import StatsSpec.
From Coq Require Import List ZArith Reals Lia Lra Bool.
Import ListNotations.
Local Open Scope R_scope.

Lemma time_app s a b : time_in s (a ++ b) = time_in s a + time_in s b.
Proof. unfold time_in. induction a as [|e a IH]; cbn [app fold_right]; [lra|]. rewrite IH. lra. Qed.
Lemma time_one s e : time_in s [e] = snd e s.
Proof. unfold time_in. cbn. lra. Qed.
Lemma run_app h e : run (h ++ [e]) = track (run h) (fst e) (snd e).
Proof. unfold run. now rewrite fold_left_app. Qed.
Lemma frames_app i a b : frames_of i (a ++ b) = frames_of i a ++ frames_of i b.
Proof. apply filter_app. Qed.
Lemma recorded h : forall i,
  frames (recorders (run h) i) = (Z.of_nat (length (frames_of i h)) mod 2 ^ 32)%Z /\
  (forall s, is_shared s = false -> s <> Lines -> own (recorders (run h) i) s = time_in s (frames_of i h)) /\
  own (recorders (run h) i) Lines = 0 /\
  (forall s, is_shared s = true -> shared (run h) s = time_in s h).
Proof.
  induction h as [|[j d] h IH] using rev_ind; intros i.
  - cbn. auto.
  - rewrite run_app, frames_app. cbn [fst snd]. destruct (IH i) as (F & O & L & S). unfold track. cbn [recorders shared].
    cbn [frames_of filter fst]. rewrite (Nat.eqb_sym j i). destruct (Nat.eqb i j) eqn:E.
    + apply Nat.eqb_eq in E. subst j. cbn [frames own]. split; [|split; [|split]].
      * rewrite F, app_length, Nat2Z.inj_add. cbn [length]. now rewrite Zplus_mod_idemp_l.
      * intros s A B. unfold add. assert (is_measured s = true) as -> by (destruct s; easy). rewrite A. cbn [negb andb].
        rewrite O by assumption. rewrite time_app, time_one. reflexivity.
      * unfold add. cbn. exact L.
      * intros s A. unfold add. rewrite A, S by assumption. rewrite time_app, time_one. reflexivity.
    + rewrite app_nil_r. split; [exact F|]. split; [exact O|]. split; [exact L|].
      intros s A. unfold add. rewrite A, S by assumption. rewrite time_app, time_one. reflexivity.
Qed.
Lemma show_value h i d : let n := length (frames_of i h) in (Z.of_nat n < 2 ^ 32)%Z ->
  show_statistics (run h) i d =
  if (0 <? n)%nat then
    map (fun s => let m := (match s with Lines => 0 | Ransac | Variance => time_in s h | _ => time_in s (frames_of i h) end) / INR n in (s, m, percent m d)) stages
  else [].
Proof.
  intros n B. unfold show_statistics. destruct (recorded h i) as (F & O & L & S). rewrite F, Z.mod_small by lia. fold n.
  destruct (0 <? n)%nat eqn:N.
  - apply Nat.ltb_lt in N. destruct (Z.ltb_spec 0 (Z.of_nat n)) as [_|X]; [|lia]. apply map_ext. intros s. rewrite <- INR_IZR_INZ.
    destruct s; cbn [is_shared]; rewrite ?L; rewrite ?S by reflexivity; try (rewrite O by (reflexivity || discriminate)); reflexivity.
  - apply Nat.ltb_ge in N. destruct (Z.ltb_spec 0 (Z.of_nat n)) as [X|_]; [lia|reflexivity].
Qed.
(** Nothing is reported before the first frame, and nothing is divided by 0. *)
Theorem C104_no_frame : forall h i mean_frame, frames_of i h = [] -> show_statistics (run h) i mean_frame = [].
Proof. intros h i d E. rewrite show_value by (rewrite E; cbn; lia). now rewrite E. Qed.
Print Assumptions C104_no_frame.
(** The report of an object gives for each stage the mean of its duration on the frames given to
    this object and its percentage of the mean duration of a frame, with two exceptions: the
    lines are always reported as 0, and the pose optimizations and pose variances are those of
    the frames of all the objects. *)
Theorem C104_report : forall h i mean_frame, let own := frames_of i h in
  own <> [] -> (Z.of_nat (length own) < 2 ^ 32)%Z ->
  reports mean_frame (fun s => match s with
                               | Lines => 0
                               | Ransac | Variance => time_in s h / INR (length own)
                               | _ => time_in s own / INR (length own)
                               end) (show_statistics (run h) i mean_frame).
Proof.
  intros h i d ow N B. unfold reports. rewrite show_value by exact B. fold ow. destruct ow as [|e ow'] eqn:E; [easy|].
  rewrite <- E in *. assert ((0 <? length ow)%nat = true) as -> by (apply Nat.ltb_lt; rewrite E; cbn; lia).
  apply map_ext. intros s. unfold percent. assert (P : 0 < INR (length ow)) by (apply lt_0_INR; rewrite E; cbn; lia).
  destruct s; cbn; try reflexivity. unfold Rdiv. rewrite Rmult_0_l. reflexivity.
Qed.
Print Assumptions C104_report.
(** With one object, the means are those of its frames. *)
Theorem C104_one_object : forall h i mean_frame, Forall (fun e => fst e = i) h -> h <> [] -> (Z.of_nat (length h) < 2 ^ 32)%Z ->
  reports mean_frame (fun s => match s with Lines => 0 | _ => time_in s h / INR (length h) end) (show_statistics (run h) i mean_frame).
Proof.
  intros h i d F N B. assert (E : frames_of i h = h).
  { clear - F. induction F as [|e h A F IH]; [reflexivity|]. cbn. rewrite A, Nat.eqb_refl. f_equal. exact IH. }
  pose proof (C104_report h i d) as R. cbv zeta in R. rewrite E in R. specialize (R N B). unfold reports in *. rewrite R. apply map_ext. now intros [].
Qed.
Print Assumptions C104_one_object.

Lemma time_stages h : fold_right (fun s t => time_in s h + t) 0 stages = fold_right (fun e t => time_of_frame (snd e) + t) 0 h.
Proof.
  induction h as [|e h IH].
  - cbn. lra.
  - cbn [fold_right]. rewrite <- IH. clear IH. unfold time_of_frame. cbn [stages fold_right time_in]. fold (time_in Cloud h) (time_in Primitives h) (time_in Lines h) (time_in Points h) (time_in MapUpdate h) (time_in MapAdd h) (time_in FindMatches h) (time_in Ransac h) (time_in Variance h). lra.
Qed.
Lemma time_nonneg s h : Forall (fun e => 0 <= snd e s) h -> 0 <= time_in s h.
Proof. induction 1; cbn; [lra|]. fold (time_in s l). lra. Qed.
(** With one object, and the mean duration of its frames, which contain their stages, the
    percentages are not negative and their sum is 100 at most. *)
Theorem C104_percents : forall h i (lasts : nat * (stage -> R) -> R),
  Forall (fun e => fst e = i) h -> h <> [] -> (Z.of_nat (length h) < 2 ^ 32)%Z ->
  Forall (fun e => (forall s, 0 <= snd e s) /\ time_of_frame (snd e) <= lasts e) h ->
  let mean_frame := fold_right (fun e t => lasts e + t) 0 h / INR (length h) in
  let report := show_statistics (run h) i mean_frame in
  Forall (fun e => 0 <= snd e) report /\ all_percents report <= 100.
Proof.
  intros h i lasts F N B T mf report. unfold report. rewrite (C104_one_object h i mf F N B). clear report.
  assert (P : 0 < INR (length h)) by (apply lt_0_INR; destruct h; [easy|cbn; lia]).
  assert (TN : forall s, 0 <= time_in s h).
  { intros s. apply time_nonneg. eapply Forall_impl; [|exact T]. intros e [A _]. apply A. }
  assert (LE : fold_right (fun s t => time_in s h + t) 0 stages <= fold_right (fun e t => lasts e + t) 0 h).
  { rewrite time_stages. clear - T. induction T as [|e h [_ A] T IH]; cbn [fold_right]; lra. }
  assert (MF : mf * INR (length h) = fold_right (fun e t => lasts e + t) 0 h) by (unfold mf; field; lra).
  clearbody mf. destruct (Rle_dec mf 0) as [Z|Z].
  - split; [|cbn; lra]. apply Forall_forall. intros [[s a] b] I. apply in_map_iff in I as (s' & [= <- <- <-] & _). cbn. lra.
  - assert (Q : 0 < mf) by lra. set (k := / INR (length h) / mf * 100).
    assert (K : 0 < k). { unfold k. assert (0 < / INR (length h) / mf) by (apply Rdiv_lt_0_compat; [apply Rinv_0_lt_compat; lra|lra]). lra. }
    assert (V : forall s, time_in s h / INR (length h) / mf * 100 = time_in s h * k) by (intros s; unfold k; field; lra).
    split.
    + apply Forall_forall. intros [[s a] b] I. apply in_map_iff in I as (s' & [= <- <- <-] & _). cbn [snd].
      destruct s'; rewrite ?V; try (specialize (TN s); nra);
        match goal with |- 0 <= time_in ?x h * k => pose proof (TN x); nra | |- _ => unfold Rdiv; lra end.
    + cbn [stages map all_percents fold_right snd]. rewrite !V. cbn [stages fold_right] in LE.
      assert (k * (mf * INR (length h)) = 100) by (unfold k; field; lra). rewrite MF in H. pose proof (TN Lines). unfold Rdiv. nra.
Qed.
Print Assumptions C104_percents.

Definition lasting (s : stage) (t : R) : stage -> R := fun s' => match s, s' with
  | Cloud, Cloud | Primitives, Primitives | Lines, Lines | Points, Points | MapUpdate, MapUpdate | MapAdd, MapAdd
  | FindMatches, FindMatches | Ransac, Ransac | Variance, Variance => t | _, _ => 0 end.
(** The time spent to detect lines is not reported. *)
Theorem C104_lines_refuted : exists h i mean_frame,
  Forall (fun e => fst e = i) h /\ time_in Lines h / INR (length (frames_of i h)) = mean_frame /\ mean_frame = 1 /\
  In (Lines, 0, 0) (show_statistics (run h) i mean_frame).
Proof.
  exists [(0%nat, lasting Lines 1)], 0%nat, 1. split; [repeat constructor|]. split; [cbn; lra|]. split; [reflexivity|].
  rewrite (C104_one_object _ _ _) by (try (repeat constructor); try discriminate; cbn; lia).
  cbn [map stages]. right. right. left. destruct (Rle_dec 1 0); [lra|]. f_equal. lra.
Qed.
Print Assumptions C104_lines_refuted.
(** An object can report that it spends twice its time to optimize poses: the other objects are
    counted. *)
Theorem C104_shared_refuted : exists h, time_in Ransac (frames_of 0 h) / INR (length (frames_of 0 h)) = 1 /\
  In (Ransac, 2, 200) (show_statistics (run h) 0 1).
Proof.
  exists [(0%nat, lasting Ransac 1); (1%nat, lasting Ransac 1)]. split; [cbn; lra|].
  rewrite C104_report; [|discriminate|cbn; lia]. cbn [map stages]. do 7 right. left.
  assert (E : time_in Ransac [(0%nat, lasting Ransac 1); (1%nat, lasting Ransac 1)] = 2) by (cbn; lra). rewrite E.
  cbn [frames_of filter fst Nat.eqb length INR]. destruct (Rle_dec 1 0); [lra|]. f_equal; [f_equal; lra|lra].
Qed.
Print Assumptions C104_shared_refuted.
(** Two frames of half a second of treatment each, a fifth of which in the primitives. *)
Example C104_example : In (Primitives, 1 / 10, 20)
  (show_statistics (run [(0%nat, lasting Primitives (1 / 10)); (0%nat, lasting Primitives (1 / 10))]) 0 (1 / 2)).
Proof.
  rewrite (C104_one_object _ _ _) by (try (repeat constructor); try discriminate; cbn; lia). cbn [map stages]. right. left.
  destruct (Rle_dec (1 / 2) 0); [lra|]. assert (E : time_in Primitives [(0%nat, lasting Primitives (1 / 10)); (0%nat, lasting Primitives (1 / 10))] = 1 / 5) by (cbn; lra).
  rewrite E. cbn [length INR]. f_equal; [f_equal; lra|lra].
Qed.

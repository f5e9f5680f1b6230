(** Properties of the keypoint detection (C17, C18, C54, C55, C56). *)
From Verif Require Import KeypointModel KeypointProofs DetectionModel DetectionProofs.
From Coq Require Import ZifyBool Lqa Qabs FinFun.
Local Open Scope Z_scope.

(** ** Specification *)

(** a pixel position inside of an image *)
Definition in_image (cols rows : Z) (p : pt) : Prop :=
  (0 <= fst p /\ fst p < inject_Z cols /\ 0 <= snd p /\ snd p < inject_Z rows)%Q.
(** distance of at most 30 pixels *)
Definition within_30 (a b : pt) : Prop :=
  ((fst a - fst b) * (fst a - fst b) + (snd a - snd b) * (snd a - snd b) <= 900)%Q.

(** Points given to the backward pass: the images of the previous points that
    were found by the forward pass inside of the new image. *)
Definition found_forward (cols rows : Z) (last : list (N * pt)) (forward : list (pt * bool))
  : list ((N * pt) * (pt * bool)) :=
  filter (fun c => snd (snd c) && in_border 0 cols rows (fst (snd c))) (combine last forward).

(** increasing positions in a list *)
Inductive subsequence {A} : list A -> list A -> Prop :=
| sub_nil : forall l, subsequence [] l
| sub_keep : forall a l l', subsequence l l' -> subsequence (a :: l) (a :: l')
| sub_skip : forall a l l', subsequence l l' -> subsequence l (a :: l').

(** the oracle answers for each of the points it is given *)
Definition answers_all (f : list pt -> list (pt * bool)) : Prop := forall l, length (f l) = length l.

(** ** C17 *)
Lemma cands_points (last : list (N * pt)) (forward : list (pt * bool)) kept (cs : list cand) :
  Forall2 (fun (k : nat * pt) (c : cand) =>
      snd k = fst (snd c) /\ nth_error last (fst k) = Some (fst c) /\ nth_error forward (fst k) = Some (snd c)) kept cs ->
  map snd kept = map (fun c : cand => fst (snd c)) cs.
Proof. induction 1 as [|k c l l' (A & _) F IH]; cbn; congruence. Qed.

Section Flow.
Variables (cols rows : Z) (fwd bwd : list pt -> list (pt * bool)).
Hypothesis Hf : answers_all fwd.
Hypothesis Hb : answers_all bwd.

Lemma flow_exact last :
  let forward := fwd (map snd last) in
  let cs := found_forward cols rows last forward in
  optical_flow cols rows fwd bwd last =
  Ret (map (fun cb : cand * (pt * bool) => (fst (fst (fst cb)), fst (snd (fst cb))))
        (filter (fun cb : cand * (pt * bool) =>
                   snd (snd cb) && Qle_bool (sq_norm (snd (fst (fst cb))) (fst (snd cb))) 900)
           (combine cs (bwd (map (fun c : cand => fst (snd c)) cs))))).
Proof.
  cbn zeta. unfold optical_flow, found_forward. destruct last as [|x last0]; [reflexivity|].
  set (last := x :: last0). clearbody last. clear x last0.
  pose proof (Hf (map snd last)) as L1. rewrite map_length in L1.
  pose proof (flow_forward_cands cols rows last (fwd (map snd last)) 0 [] [] eq_refl eq_refl last (fwd (map snd last))
                eq_refl eq_refl (eq_sym L1)) as F.
  set (cs := filter _ (combine last (fwd (map snd last)))) in *.
  assert (Es : map snd (flow_forward cols rows 0 (fwd (map snd last))) = map (fun c : cand => fst (snd c)) cs).
  { exact (cands_points _ _ _ _ F). }
  rewrite <- Es.
  destruct (flow_forward cols rows 0 (fwd (map snd last))) as [|k kept] eqn:Ek.
  - destruct cs; [reflexivity|discriminate].
  - rewrite <- Ek in *. apply flow_backward_cands; [exact F|]. now rewrite Hb, map_length.
Qed.
End Flow.

Lemma subsequence_in {A} (l l' : list A) a : subsequence l l' -> In a l -> In a l'.
Proof. induction 1; cbn; intuition. Qed.
Lemma subsequence_nodup {A} (l l' : list A) : subsequence l l' -> NoDup l' -> NoDup l.
Proof.
  induction 1 as [l|a l l' S IH|a l l' S IH]; intros N.
  - constructor.
  - apply NoDup_cons_iff in N. destruct N as [N M]. constructor; auto. intros I. apply N. eapply subsequence_in; eauto.
  - apply NoDup_cons_iff in N. tauto.
Qed.
Lemma subsequence_filter {A} (P : A -> bool) l : subsequence (filter P l) l.
Proof. induction l as [|a l IH]; cbn; [constructor|]. destruct (P a); now constructor. Qed.
Lemma subsequence_trans {A} (a b c : list A) : subsequence a b -> subsequence b c -> subsequence a c.
Proof.
  intros H K. revert a H. induction K; intros x H.
  - inversion H; constructor.
  - inversion H; subst; [constructor|apply sub_keep; auto|apply sub_skip; auto].
  - apply sub_skip. auto.
Qed.
Lemma subsequence_map {A B} (f : A -> B) l l' : subsequence l l' -> subsequence (map f l) (map f l').
Proof. induction 1; cbn; now constructor. Qed.
Lemma subsequence_combine {A B} (l : list A) (m : list B) : subsequence (map fst (combine l m)) l.
Proof. revert m. induction l as [|a l IH]; intros [|b m]; cbn; try constructor. apply IH. Qed.

(** The optical flow answers, for every list of previous keypoints and every
    answer of the tracker. The identifiers kept are a subsequence of the previous
    ones. A kept keypoint is the forward image of the previous keypoint of the
    same identifier; it is in the image, and tracking it backward gives a point
    within 30 pixels of the previous keypoint. *)
Theorem C17_flow_sound :
  forall cols rows fwd bwd last, answers_all fwd -> answers_all bwd ->
  exists kept, optical_flow cols rows fwd bwd last = Ret kept /\
  subsequence (map fst kept) (map fst last) /\
  forall id p, In (id, p) kept -> exists q b j,
    In ((id, q), (p, true)) (combine last (fwd (map snd last))) /\ in_image cols rows p /\
    let forward_points := map (fun c => fst (snd c)) (found_forward cols rows last (fwd (map snd last))) in
    nth_error forward_points j = Some p /\ nth_error (bwd forward_points) j = Some (b, true) /\ within_30 q b.
Proof.
  intros cols rows fwd bwd last Hf Hb. eexists. split; [exact (flow_exact cols rows fwd bwd Hf Hb last)|].
  set (cs := found_forward cols rows last (fwd (map snd last))).
  set (bs := bwd (map (fun c : cand => fst (snd c)) cs)).
  split.
  - rewrite map_map. eapply subsequence_trans; [apply subsequence_map with (f := fun cb : cand * (pt * bool) => fst (fst (fst cb))); apply subsequence_filter|].
    rewrite <- (map_map fst (fun c : cand => fst (fst c))).
    eapply subsequence_trans; [apply subsequence_map; apply subsequence_combine|].
    unfold cs, found_forward. eapply subsequence_trans; [apply subsequence_map; apply subsequence_filter|].
    rewrite <- (map_map (fun c : cand => fst c) fst). apply subsequence_map. apply subsequence_combine.
  - intros id p H. apply in_map_iff in H. destruct H as ([[[id' q] [p' ok]] [b okb]] & E & I).
    cbn in E. injection E as -> ->. apply filter_In in I. destruct I as [I C]. cbn in C.
    apply andb_true_iff in C. destruct C as [-> C]. apply Qle_bool_iff in C.
    apply In_nth_error in I. destruct I as (j & J).
    assert (Jc : nth_error cs j = Some ((id, q), (p, ok)) /\ nth_error bs j = Some (b, true)).
    { clear - J. clearbody cs bs. revert cs bs J. induction j as [|j IH]; intros [|c cs] [|d bs] J; cbn in *; try discriminate; auto.
      now injection J as -> ->. }
    destruct Jc as [Jc Jb]. assert (Ic := nth_error_In _ _ Jc).
    unfold cs, found_forward in Ic. apply filter_In in Ic. destruct Ic as [Ic Q]. cbn in Q.
    apply andb_true_iff in Q. destruct Q as [-> Q]. apply in_border_iff in Q.
    exists q, b, j. split; [exact Ic|]. split.
    + unfold in_image. destruct Q as (Q1 & Q2 & Q3 & Q4). unfold Zminus in Q3, Q4.
      rewrite inject_Z_plus in Q3, Q4. change (inject_Z (- 0)) with 0%Q in Q3, Q4. change (inject_Z 0) with 0%Q in Q1, Q2.
      repeat split; try lra.
    + cbn zeta. fold cs. split; [now rewrite nth_error_map, Jc|]. split; [exact Jb|]. exact C.
Qed.
Print Assumptions C17_flow_sound.

(** No keypoint with these properties is dropped. *)
Theorem C17_flow_complete :
  forall cols rows fwd bwd last kept, answers_all fwd -> answers_all bwd ->
  optical_flow cols rows fwd bwd last = Ret kept ->
  let found := found_forward cols rows last (fwd (map snd last)) in
  forall j id q p b,
  nth_error found j = Some ((id, q), (p, true)) ->
  nth_error (bwd (map (fun c => fst (snd c)) found)) j = Some (b, true) -> within_30 q b ->
  In (id, p) kept.
Proof.
  intros cols rows fwd bwd last kept Hf Hb E found j id q p b J B W.
  rewrite (flow_exact cols rows fwd bwd Hf Hb last) in E. injection E as <-. fold found.
  apply in_map_iff. exists (((id, q), (p, true)), (b, true)). split; [reflexivity|].
  apply filter_In. split.
  - apply nth_error_In with (n := j). set (bs := bwd _) in *. clearbody bs found.
    clear - J B. revert found bs J B. induction j as [|j IH]; intros [|c cs] [|d bs] J B; cbn in *; try discriminate; auto.
    congruence.
  - cbn. apply Qle_bool_iff. exact W.
Qed.
Print Assumptions C17_flow_complete.

(** Distinct identifiers stay distinct. *)
Theorem C17_identifiers_stay_distinct :
  forall cols rows fwd bwd last kept, answers_all fwd -> answers_all bwd ->
  optical_flow cols rows fwd bwd last = Ret kept -> NoDup (map fst last) -> NoDup (map fst kept).
Proof.
  intros cols rows fwd bwd last kept Hf Hb E N.
  destruct (C17_flow_sound cols rows fwd bwd last Hf Hb) as (kept' & E' & S & _).
  rewrite E in E'. injection E' as <-. eapply subsequence_nodup; eauto.
Qed.
Print Assumptions C17_identifiers_stay_distinct.

Definition ex_fwd (l : list pt) : list (pt * bool) := map (fun p => ((fst p + 5, snd p)%Q, true)) l.
Definition ex_bwd (l : list pt) : list (pt * bool) :=
  map (fun p => ((fst p - 5, if Qle_bool 200 (fst p) then snd p + 40 else snd p)%Q, true)) l.
Example C17_example :
  answers_all ex_fwd /\ answers_all ex_bwd /\
  option_map (map fst) (match optical_flow 640 480 ex_fwd ex_bwd [(7%N, (10, 10)%Q); (8%N, (638, 10)%Q); (9%N, (300, 10)%Q); (11%N, (20, 30)%Q)]
                        with Ret k => Some k | _ => None end) = Some [7%N; 11%N].
Proof.
  repeat split; try (intros l; apply map_length).
Qed.

(** ** C18 *)

(** schedules of the nine workers that let all of them finish *)
Definition complete (schedule : list nat) : Prop :=
  (forall i, In i schedule -> (i < 9)%nat) /\ forall i, (i < 9)%nat -> (2 <= count_occ Nat.eq_dec schedule i)%nat.

Section Detect.
Variables (width height : Z) (tracked : list pt) (o : nat -> window_oracle).
Definition result_of (i : nat) : list cvkp :=
  window_result (window width height i) (window_counter width height tracked i) (o i).

Lemma detect_finished schedule : complete schedule ->
  detect_with width height tracked o schedule = Some (remove_duplicated (d_out (d_run result_of schedule))) /\
  Permutation (d_out (d_run result_of schedule)) (concat (map result_of (seq 0 9))).
Proof.
  intros [B C].
  assert (F : forall i, (i < 9)%nat -> d_phase (d_run result_of schedule) i = Finished).
  { intros i Hi. unfold d_run. apply d_fold_twice. left. auto. }
  split; [|now apply d_run_finished].
  unfold detect_with. fold result_of.
  assert (A : forallb (fun i => match d_phase (d_run result_of schedule) i with Finished => true | _ => false end) (seq 0 window_count) = true).
  { apply forallb_forall. intros i I. apply in_seq in I. unfold window_count in I. now rewrite F by lia. }
  unfold result_of in *. now rewrite A.
Qed.

Lemma detect_some schedule l : (forall i, In i schedule -> (i < 9)%nat) ->
  detect_with width height tracked o schedule = Some l ->
  l = remove_duplicated (d_out (d_run result_of schedule)) /\
  Permutation (d_out (d_run result_of schedule)) (concat (map result_of (seq 0 9))).
Proof.
  intros B H. unfold detect_with in H. fold result_of in H.
  destruct (forallb _ _) eqn:A; [|discriminate]. injection H as <-. split; [reflexivity|].
  apply d_run_finished; auto. intros i Hi. rewrite forallb_forall in A.
  specialize (A i). assert (I : In i (seq 0 window_count)) by (apply in_seq; unfold window_count; lia).
  specialize (A I). unfold result_of in *.
  destruct (d_phase _ i); congruence || discriminate.
Qed.
End Detect.

(** Whatever the order in which the workers run, and however their steps are
    interleaved, the same keypoints are detected. *)
Theorem C18_schedule_independent :
  forall width height tracked o s1 s2 l1 l2,
  (forall i, In i s1 \/ In i s2 -> (i < 9)%nat) ->
  detect_with width height tracked o s1 = Some l1 -> detect_with width height tracked o s2 = Some l2 ->
  Permutation l1 l2.
Proof.
  intros width height tracked o s1 s2 l1 l2 B H1 H2.
  apply detect_some in H1; [|auto]. apply detect_some in H2; [|auto].
  destruct H1 as [-> P1], H2 as [-> P2]. apply remove_duplicated_perm.
  eapply Permutation_trans; [exact P1|]. now apply Permutation_sym.
Qed.
Print Assumptions C18_schedule_independent.

(** Every schedule in which every worker gets its two steps ends. *)
Theorem C18_every_complete_schedule_ends :
  forall width height tracked o schedule, complete schedule ->
  detect_with width height tracked o schedule <> None.
Proof.
  intros width height tracked o schedule C. destruct (detect_finished width height tracked o schedule C) as [E _]. now rewrite E.
Qed.
Print Assumptions C18_every_complete_schedule_ends.

(** number of tracked points in a window *)
Definition tracked_in (width height : Z) (i : nat) (tracked : list pt) : nat :=
  length (filter (contains (window width height i)) tracked).

(** the detectors of a window find pixels of this window *)
Definition detector_contract (width height : Z) (i : nat) (o : window_oracle) : Prop :=
  forall k, In k (wo_detect o ++ wo_advanced o) ->
    0 <= k_x k < re_w (window width height i) /\ 0 <= k_y k < re_h (window width height i).
(** ... with different scores *)
Definition different_scores (o : window_oracle) : Prop :=
  NoDup (map k_resp (wo_detect o)) /\ NoDup (map k_resp (wo_advanced o)).

(** a pixel of window [i] *)
Definition in_window (width height : Z) (i : nat) (k : cvkp) : Prop :=
  Z.of_nat (i mod 3) * (width / 3) <= k_x k < (Z.of_nat (i mod 3) + 1) * (width / 3) /\
  Z.of_nat (i / 3) * (height / 3) <= k_y k < (Z.of_nat (i / 3) + 1) * (height / 3).

Lemma window_result_in width height i already o k :
  detector_contract width height i o ->
  In k (window_result (window width height i) already o) -> in_window width height i k.
Proof.
  intros C. unfold window_result. destruct (N.ltb already max_by_cell); [|intros []].
  intros I. apply in_map_iff in I. destruct I as (k0 & <- & I). apply retain_best_incl in I.
  assert (I' : In k0 (wo_detect o ++ wo_advanced o)) by (apply in_or_app; destruct (Nat.ltb _ _); auto).
  apply C in I'. unfold in_window, shift, window in *. cbn [re_x re_y re_w re_h k_x k_y] in *.
  change (Z.of_nat window_cols) with 3 in *. change (Z.of_nat window_rows) with 3 in *. change window_cols with 3%nat. lia.
Qed.

Lemma in_window_unique width height i j k k' :
  in_window width height i k -> in_window width height j k' ->
  (i < 9)%nat -> (j < 9)%nat -> k_x k = k_x k' -> k_y k = k_y k' -> i = j.
Proof.
  unfold in_window. intros [A B] [C D] Hi Hj E F.
  pose proof (Nat.div_mod i 3 ltac:(lia)). pose proof (Nat.div_mod j 3 ltac:(lia)).
  set (a := (i mod 3)%nat) in *. set (b := (i / 3)%nat) in *. set (c := (j mod 3)%nat) in *. set (d := (j / 3)%nat) in *.
  set (x := width / 3) in *. set (y := height / 3) in *.
  assert (Z.of_nat a = Z.of_nat c) by nia. assert (Z.of_nat b = Z.of_nat d) by nia. lia.
Qed.

(** Every detected keypoint is inside of one of the nine windows, and no two
    are at the same position. *)
Theorem C18_inside_windows :
  forall width height tracked o schedule l,
  (forall i, In i schedule -> (i < 9)%nat) ->
  (forall i, (i < 9)%nat -> detector_contract width height i (o i)) ->
  detect_with width height tracked o schedule = Some l ->
  (forall k, In k l -> exists i, (i < 9)%nat /\ in_window width height i k) /\
  (forall k k', In k l -> In k' l -> k_x k = k_x k' -> k_y k = k_y k' -> k = k') /\ NoDup l.
Proof.
  intros width height tracked o schedule l B C H. apply detect_some in H; [|auto]. destruct H as [-> P].
  split; [|split; [|apply remove_duplicated_nodup]].
  - intros k I. apply remove_duplicated_spec in I. destruct I as [I _].
    apply (Permutation_in _ P) in I. apply in_concat in I. destruct I as (r & Ir & Ik).
    apply in_map_iff in Ir. destruct Ir as (i & <- & Ii). apply in_seq in Ii.
    exists i. split; [lia|]. eapply window_result_in; [apply C; lia|exact Ik].
  - intros k k' I I' X Y. apply remove_duplicated_spec in I. apply remove_duplicated_spec in I'.
    destruct I as [I Q], I' as [I' Q']. apply cvkp_eq; auto.
    specialize (Q k' I' (proj2 (same_pos_spec k k') (conj X Y))).
    specialize (Q' k I (proj2 (same_pos_spec k' k) (conj (eq_sym X) (eq_sym Y)))). lia.
Qed.
Print Assumptions C18_inside_windows.

Lemma count_in_concat (P : nat -> cvkp -> bool) (f : nat -> list cvkp) i n a :
  (forall j k, (a <= j < a + n)%nat -> j <> i -> In k (f j) -> P i k = false) ->
  (length (filter (P i) (concat (map f (seq a n)))) <= if (Nat.leb a i && Nat.ltb i (a + n))%bool then length (f i) else 0)%nat.
Proof.
  revert a. induction n as [|n IH]; intros a H; cbn [seq map concat filter].
  - cbn. destruct (_ && _)%bool; lia.
  - rewrite filter_app, app_length.
    assert (H' : forall j k, (S a <= j < S a + n)%nat -> j <> i -> In k (f j) -> P i k = false) by (intros; apply (H j k); auto; lia).
    specialize (IH (S a) H').
    destruct (Nat.eq_dec a i) as [->|Na].
    + assert (X : (length (filter (P i) (f i)) <= length (f i))%nat).
      { clear. induction (f i) as [|x l IH]; cbn; auto. destruct (P i x); cbn; lia. }
      replace (Nat.leb (S i) i) with false in IH by (symmetry; apply Nat.leb_gt; lia). cbn [andb] in IH.
      rewrite Nat.leb_refl. replace (Nat.ltb i (i + S n)) with true by (symmetry; apply Nat.ltb_lt; lia). cbn [andb]. lia.
    + assert (X : filter (P i) (f a) = []).
      { assert (Ha : forall k, In k (f a) -> P i k = false) by (intros k Ik; apply (H a k); auto; lia).
        clear - Ha. induction (f a) as [|x l IH]; cbn; auto. rewrite Ha by now left. apply IH. intros; apply Ha. now right. }
      rewrite X. cbn [length]. replace (Nat.leb a i && Nat.ltb i (a + S n))%bool with (Nat.leb (S a) i && Nat.ltb i (S a + n))%bool by
        (apply eq_true_iff_eq; rewrite !andb_true_iff, !Nat.leb_le, !Nat.ltb_lt; lia). exact IH.
Qed.

Definition in_window_b (width height : Z) (i : nat) (k : cvkp) : bool :=
  (Z.of_nat (i mod 3) * (width / 3) <=? k_x k) && (k_x k <? (Z.of_nat (i mod 3) + 1) * (width / 3)) &&
  (Z.of_nat (i / 3) * (height / 3) <=? k_y k) && (k_y k <? (Z.of_nat (i / 3) + 1) * (height / 3)).
Lemma in_window_b_iff width height i k : in_window_b width height i k = true <-> in_window width height i k.
Proof. unfold in_window_b, in_window. rewrite !andb_true_iff, !Z.leb_le, !Z.ltb_lt. tauto. Qed.

Lemma window_result_cap width height i tracked o :
  0 <= width -> 0 <= height -> (i < 9)%nat -> (tracked_in width height i tracked < 2 ^ 16)%nat ->
  different_scores o ->
  (length (window_result (window width height i) (window_counter width height tracked i) o) <= 11 - tracked_in width height i tracked)%nat.
Proof.
  intros W H Hi T [D1 D2]. rewrite (window_counter_spec width height tracked i W H Hi).
  fold (tracked_in width height i tracked). set (t := tracked_in width height i tracked) in *.
  assert (T' : (N.of_nat t < 2 ^ 16)%N).
  { replace (2 ^ 16)%N with (N.of_nat (2 ^ 16)%nat) by (rewrite Nat2N.inj_pow; reflexivity). lia. }
  rewrite N.mod_small by exact T'.
  unfold window_result. change max_by_cell with 11%N. destruct (N.ltb_spec (N.of_nat t) 11); [|cbn; lia].
  rewrite map_length.
  assert (E : N.to_nat (11 - N.of_nat t) = (11 - t)%nat) by lia. rewrite E.
  apply retain_best_cap. destruct (Nat.ltb _ _); auto.
Qed.

(** When the scores of a window are different, tracked and detected points of the
    window are at most eleven together (or the tracked ones alone exceed it). *)
Theorem C18_window_quota :
  forall width height tracked o schedule l i,
  0 <= width -> 0 <= height -> (i < 9)%nat ->
  (forall j, In j schedule -> (j < 9)%nat) ->
  (forall j, (j < 9)%nat -> detector_contract width height j (o j)) ->
  different_scores (o i) -> (tracked_in width height i tracked < 2 ^ 16)%nat ->
  detect_with width height tracked o schedule = Some l ->
  (length (filter (in_window_b width height i) l) <= 11 - tracked_in width height i tracked)%nat.
Proof.
  intros width height tracked o schedule l i W Hh Hi B C D T H.
  apply detect_some in H; [|auto]. destruct H as [-> P].
  transitivity (length (filter (in_window_b width height i) (concat (map (result_of width height tracked o) (seq 0 9))))).
  - apply NoDup_incl_length.
    + apply NoDup_filter. apply remove_duplicated_nodup.
    + intros k I. apply filter_In in I. destruct I as [I J]. apply filter_In. split; auto.
      apply remove_duplicated_spec in I. destruct I as [I _]. exact (Permutation_in _ P I).
  - eapply Nat.le_trans; [apply (count_in_concat (in_window_b width height) (result_of width height tracked o) i 9 0)|].
    + intros j k Hj Nj Ik. apply not_true_is_false. intros X. apply in_window_b_iff in X.
      apply Nj. apply (in_window_unique width height j i k k); auto; try lia.
      eapply window_result_in; [apply C; lia|exact Ik].
    + destruct (_ && _)%bool; [|lia]. now apply window_result_cap.
Qed.
Print Assumptions C18_window_quota.

(** Equal scores at the limit are all kept: the quota is exceeded. *)
Definition ex_flat : window_oracle :=
  mkWO (map (fun n => mkCvkp (10 * Z.of_nat n) 5 30) (seq 0 15)) [].
Definition ex_empty : window_oracle := mkWO [] [].
Definition ex_schedule : list nat := seq 0 9 ++ rev (seq 0 9).
Theorem C18_window_quota_refuted :
  exists o l, (forall i, (i < 9)%nat -> detector_contract 640 480 i (o i)) /\
  detect_with 640 480 [] o ex_schedule = Some l /\ (11 < length (filter (in_window_b 640 480 0) l))%nat.
Proof.
  exists (fun i => if Nat.eqb i 0 then ex_flat else ex_empty). eexists. split; [|split; [vm_compute; reflexivity|vm_compute; lia]].
  intros i Hi k. destruct (Nat.eqb_spec i 0) as [->|]; [|intros []].
  unfold ex_flat. cbn [wo_detect wo_advanced]. rewrite app_nil_r. intros I. apply in_map_iff in I. destruct I as (n & <- & I).
  apply in_seq in I. cbn [k_x k_y]. change (re_w (window 640 480 0)) with 213. change (re_h (window 640 480 0)) with 160. lia.
Qed.
Print Assumptions C18_window_quota_refuted.

(** What is kept of a window anyway: no kept point has as many better ones as the
    quota, and every dropped point has at least that many better ones. *)
Theorem C18_best_points_kept :
  forall n l, (n < length l)%nat ->
  (forall k, In k (retain_best n l) -> In k l /\ (length (filter (fun k' => (k_resp k <? k_resp k')%Z) l) < n)%nat) /\
  (forall k, In k l -> ~ In k (retain_best n l) -> (n <= length (filter (fun k' => (k_resp k <? k_resp k')%Z) l))%nat).
Proof.
  intros n l L. unfold retain_best. destruct (Nat.leb_spec (length l) n); [lia|]. split.
  - intros k I. apply filter_In in I. destruct I as [I J]. apply Nat.ltb_lt in J. auto.
  - intros k I J. destruct (Nat.le_gt_cases n (rank k l)) as [X|X]; auto. exfalso. apply J.
    apply filter_In. split; auto. now apply Nat.ltb_lt.
Qed.
Print Assumptions C18_best_points_kept.

Definition ex_spread : window_oracle :=
  mkWO (map (fun n => mkCvkp (10 * Z.of_nat n) 5 (30 + Z.of_nat n)) (seq 0 15)) [].
Example C18_example :
  complete ex_schedule /\ complete (rev ex_schedule) /\ different_scores ex_spread /\
  (exists l, detect_with 640 480 [(5, 5)%Q; (300, 10)%Q] (fun _ => ex_spread) ex_schedule = Some l /\ length l = 97%nat) /\
  detect_with 640 480 [(5, 5)%Q] (fun _ => ex_spread) [0; 1; 0]%nat = None.
Proof.
  repeat split.
  - intros i I. unfold ex_schedule in I. cbn in I. lia.
  - intros i Hi. do 9 (destruct i as [|i]; [vm_compute; lia|]). lia.
  - intros i I. unfold ex_schedule in I. cbn in I. lia.
  - intros i Hi. do 9 (destruct i as [|i]; [vm_compute; lia|]). lia.
  - unfold ex_spread. cbn [wo_detect]. rewrite map_map. cbn [k_resp].
    apply FinFun.Injective_map_NoDup; [intros x y; lia|apply seq_NoDup].
  - constructor.
  - eexists. split; vm_compute; reflexivity.
Qed.

(** ** C54 — depth of a keypoint *)

(** The depth image is never read outside of its bounds, for every image size
    and every position; positions in the border give zero. *)
Theorem C54_depth_read_in_bounds :
  forall cols rows depth p, exists d, get_depth cols rows depth p = Ret d /\
  (d = 0%Q \/ exists r c, 0 <= r < rows /\ 0 <= c < cols /\ d = depth r c /\
     (Qabs (fst p - inject_Z c) <= 1 # 2)%Q /\ (Qabs (snd p - inject_Z r) <= 1 # 2)%Q).
Proof.
  intros cols rows depth p. unfold get_depth. destruct (in_border border_size cols rows p) eqn:E; [|eauto].
  apply in_border_iff in E. unfold border_size in E. destruct E as (A & B & C & D).
  change (inject_Z 1) with 1%Q in *.
  pose proof (std_round_range _ _ A C) as Rx. pose proof (std_round_range _ _ B D) as Ry.
  assert (G : forall q, (1 <= q)%Q -> (Qabs (q - inject_Z (std_round q)) <= 1 # 2)%Q).
  { intros q Hq. unfold std_round. assert (X : Qle_bool 0 q = true) by (apply Qle_bool_iff; lra). rewrite X.
    pose proof (Qfloor_le (q + (1 # 2))) as F1. pose proof (Qlt_floor (q + (1 # 2))) as F2.
    rewrite inject_Z_plus in F2. change (inject_Z 1) with 1%Q in F2. apply Qabs_case; intros; lra. }
  assert (T : ((0 <=? std_round (snd p)) && (std_round (snd p) <? rows) && (0 <=? std_round (fst p)) && (std_round (fst p) <? cols)) = true) by lia.
  rewrite T. eexists. split; [reflexivity|]. right. exists (std_round (snd p)), (std_round (fst p)). repeat split; try tauto; auto.
Qed.
Print Assumptions C54_depth_read_in_bounds.

Example C54_example : get_depth 640 480 (fun r c => inject_Z (1000 * r + c)) (638, 478)%Q = Ret 478638%Q /\
  get_depth 640 480 (fun r c => inject_Z (1000 * r + c)) (639, 10)%Q = Ret 0%Q.
Proof. split; vm_compute; reflexivity. Qed.

(** ** C56 — coverage of the image by the detection windows *)

(** A pixel can be detected exactly when it is not in the last columns (or
    rows) left over by the division by three; in particular every pixel when both
    sizes are multiples of three. *)
Theorem C56_windows_cover :
  forall width height x y r, 0 <= width -> 0 <= height -> 0 <= x -> 0 <= y ->
  ((exists i, (i < 9)%nat /\ in_window width height i (mkCvkp x y r)) <->
   x < width - width mod 3 /\ y < height - height mod 3).
Proof.
  intros width height x y r W H X Y. unfold in_window. cbn [k_x k_y].
  pose proof (Z.div_mod width 3 ltac:(lia)) as Dw. pose proof (Z.div_mod height 3 ltac:(lia)) as Dh.
  set (a := width / 3) in *. set (b := height / 3) in *. split.
  - intros (i & Hi & A & B).
    assert (Z.of_nat (i mod 3) <= 2) by (pose proof (Nat.mod_upper_bound i 3 ltac:(lia)); lia).
    assert (Z.of_nat (i / 3) <= 2) by (pose proof (Nat.div_lt_upper_bound i 3 3 ltac:(lia) ltac:(lia)); lia).
    nia.
  - intros [A B].
    assert (0 < a) by lia. assert (0 < b) by lia.
    pose proof (Z.div_mod x a ltac:(lia)) as Dx. pose proof (Z.mod_pos_bound x a ltac:(lia)).
    pose proof (Z.div_mod y b ltac:(lia)) as Dy. pose proof (Z.mod_pos_bound y b ltac:(lia)).
    assert (0 <= x / a) by (apply Z.div_pos; lia). assert (0 <= y / b) by (apply Z.div_pos; lia).
    assert (x / a < 3) by (apply Z.div_lt_upper_bound; lia). assert (y / b < 3) by (apply Z.div_lt_upper_bound; lia).
    exists (Z.to_nat (x / a) + Z.to_nat (y / b) * 3)%nat.
    rewrite Nat.mod_add, Nat.div_add by lia. rewrite Nat.mod_small, Nat.div_small by lia. cbn [Nat.add].
    rewrite !Z2Nat.id by lia. split; [lia|]. nia.
Qed.
Print Assumptions C56_windows_cover.

(** Every point the detector of a window finds is reported (or another one at
    its position with at least its score), unless as many points as the window
    still needs have a better score. *)
Theorem C18_best_points_reported :
  forall width height tracked o schedule l i k,
  0 <= width -> 0 <= height -> (i < 9)%nat ->
  (forall j, In j schedule -> (j < 9)%nat) ->
  (tracked_in width height i tracked < 11)%nat ->
  detect_with width height tracked o schedule = Some l ->
  let wanted := (11 - tracked_in width height i tracked)%nat in
  let found := if Nat.ltb (length (wo_detect (o i))) wanted then wo_advanced (o i) else wo_detect (o i) in
  In k found -> (length (filter (fun k' => (k_resp k <? k_resp k')%Z) found) < wanted)%nat ->
  exists k', In k' l /\ k_x k' = k_x k + Z.of_nat (i mod 3) * (width / 3) /\
    k_y k' = k_y k + Z.of_nat (i / 3) * (height / 3) /\ k_resp k <= k_resp k'.
Proof.
  intros width height tracked o schedule l i k W Hh Hi B T H wanted found Ik Hr.
  apply detect_some in H; [|auto]. destruct H as [-> P].
  set (k0 := shift (window width height i) k).
  assert (I0 : In k0 (d_out (d_run (result_of width height tracked o) schedule))).
  { apply (Permutation_in _ (Permutation_sym P)). apply in_concat. exists (result_of width height tracked o i). split.
    - apply in_map. apply in_seq. lia.
    - unfold result_of. rewrite (window_counter_spec width height tracked i W Hh Hi).
      fold (tracked_in width height i tracked). set (t := tracked_in width height i tracked) in *.
      rewrite N.mod_small by (transitivity 11%N; [lia|reflexivity]).
      unfold window_result. change max_by_cell with 11%N. destruct (N.ltb_spec (N.of_nat t) 11); [|lia].
      replace (N.to_nat (11 - N.of_nat t)) with wanted by (unfold wanted; lia). fold found.
      apply in_map. unfold retain_best. destruct (Nat.leb_spec (length found) wanted); [exact Ik|].
      apply filter_In. split; [exact Ik|]. now apply Nat.ltb_lt. }
  set (out := d_out _) in *. clearbody out.
  assert (M : forall l, In k0 l -> exists k', In k' l /\ same_pos k0 k' = true /\ k_resp k0 <= k_resp k' /\
               forall k2, In k2 l -> same_pos k0 k2 = true -> k_resp k2 <= k_resp k').
  { clear. intros l I.
    assert (M : exists k', In k' (k0 :: l) /\ same_pos k0 k' = true /\ k_resp k0 <= k_resp k' /\
                 forall k2, In k2 l -> same_pos k0 k2 = true -> k_resp k2 <= k_resp k').
    { clear I. assert (S0 : same_pos k0 k0 = true) by (apply same_pos_spec; auto).
      induction l as [|a l (k' & A & C & D & E)].
      - exists k0. repeat split; auto; [now left|lia|intros k2 []].
      - destruct (same_pos k0 a) eqn:S1.
        + destruct (Z.le_gt_cases (k_resp a) (k_resp k')) as [L|L].
          * exists k'. repeat split; auto. { destruct A as [->|A]; [now left|right; now right]. }
            intros k2 [<-|I2] S2; auto.
          * exists a. repeat split; auto; [right; now left|lia|]. intros k2 [<-|I2] S2; [lia|]. specialize (E k2 I2 S2). lia.
        + exists k'. repeat split; auto. { destruct A as [->|A]; [now left|right; now right]. }
          intros k2 [<-|I2] S2; [congruence|auto]. }
    destruct M as (k' & [<-|A] & C); [exists k0|exists k']; auto. }
  destruct (M out I0) as (k' & A & C & D & E). apply same_pos_spec in C.
  exists k'. split; [|split; [|split]].
  - apply remove_duplicated_spec. split; [exact A|]. intros k2 I2 S2. apply E; auto.
    apply same_pos_spec in S2. apply same_pos_spec. lia.
  - unfold k0, shift, window in C. cbn [k_x k_y re_x re_y] in C. change (Z.of_nat window_cols) with 3 in C. change window_cols with 3%nat in C. lia.
  - unfold k0, shift, window in C. cbn [k_x k_y re_x re_y] in C. change (Z.of_nat window_rows) with 3 in C. change window_cols with 3%nat in C. lia.
  - exact D.
Qed.
Print Assumptions C18_best_points_reported.

(** ** C55 — keypoints of a frame *)

(** one frame of a session: what OpenCV answers, the keypoints of the previous
    frame, the redetection request *)
Record frame_input := mkFrame { fi_oracle : frame_oracle; fi_last : list (N * pt); fi_force : bool }.

Definition good_frame (f : frame_input) : Prop :=
  answers_all (fo_fwd (fi_oracle f)) /\ answers_all (fo_bwd (fi_oracle f)) /\ complete (fo_schedule (fi_oracle f)).

(** results of all the frames of a session *)
Fixpoint session (cols rows : Z) (fs : list frame_input) (e : extractor) : outcome (list handler) :=
  match fs with
  | [] => Ret []
  | f :: fs' =>
    let* r := compute_keypoints cols rows (fi_oracle f) (fi_last f) (fi_force f) e in
    let* hs := session cols rows fs' (fst r) in Ret (snd r :: hs)
  end.

(** the tracked keypoints of frame [f]: none for the first frame of the session *)
Definition tracked_of (cols rows : Z) (first : bool) (f : frame_input) : list (N * pt) :=
  if first then []
  else match optical_flow cols rows (fo_fwd (fi_oracle f)) (fo_bwd (fi_oracle f)) (fi_last f) with
       | Ret l => l | _ => [] end.

(** keypoints of the result at the given positions *)
Definition positions (h : handler) : list pt := map (fun k => (kp_x k, kp_y k)) (kh_keypoints h).

(** What is known of the result [h] of a frame. *)
Definition frame_result (cols rows : Z) (first : bool) (f : frame_input) (h : handler) : Prop :=
  let tracked := tracked_of cols rows first f in
  exists detected,
    positions h = detected ++ map snd tracked /\
    (detected <> [] -> fi_force f = true \/ (length tracked < 100)%nat) /\
    (NoDup (map fst (fi_last f)) -> forall id p, id <> 0%N -> In (id, p) tracked ->
       exists i, kh_tracking h id = Some i /\ nth_error (positions h) i = Some p) /\
    (forall id i, kh_tracking h id = Some i -> exists p, In (id, p) tracked /\ nth_error (positions h) i = Some p).

Lemma mapM_depth cols rows depth l :
  exists ks, mapM (with_depth cols rows depth) l = Ret ks /\ map (fun k => (kp_x k, kp_y k)) ks = l.
Proof.
  induction l as [|[x y] l (ks & E & F)]; cbn [mapM]; [exists []; auto|].
  unfold with_depth at 1. destruct (C54_depth_read_in_bounds cols rows depth (x, y)) as (d & -> & _). cbn [bind].
  rewrite E. cbn [bind]. eexists. split; [reflexivity|]. cbn. now rewrite F.
Qed.
Lemma mapM_depth_ids cols rows depth (l : list (N * pt)) :
  exists ks, mapM (fun ip => let* k := with_depth cols rows depth (snd ip) in Ret (fst ip, k)) l = Ret ks /\
  map fst ks = map fst l /\ map (fun k => (kp_x k, kp_y k)) (map snd ks) = map snd l.
Proof.
  induction l as [|[id [x y]] l (ks & E & F & G)]; cbn [mapM]; [exists []; auto|].
  unfold with_depth at 1. cbn [snd fst]. destruct (C54_depth_read_in_bounds cols rows depth (x, y)) as (d & -> & _). cbn [bind].
  rewrite E. cbn [bind]. eexists. split; [reflexivity|]. cbn. now rewrite F, G.
Qed.

Lemma compute_keypoints_ok cols rows f e :
  0 < rows <= cols -> cols <= 1000000 -> good_frame f ->
  (forall h, ex_handler e = Some h -> fits h /\ landscape h) ->
  exists e' h, compute_keypoints cols rows (fi_oracle f) (fi_last f) (fi_force f) e = Ret (e', h) /\
  ex_previous e' = true /\ (forall h', ex_handler e' = Some h' -> fits h' /\ landscape h') /\
  frame_result cols rows (negb (ex_previous e)) f h.
Proof.
  intros Hr Hc (Gf & Gb & Gs) He. unfold compute_keypoints.
  destruct (C17_flow_sound cols rows _ _ (fi_last f) Gf Gb) as (tr & Etr & Ssub & _).
  set (tracked := tracked_of cols rows (negb (ex_previous e)) f).
  assert (Et : (if ex_previous e then optical_flow cols rows (fo_fwd (fi_oracle f)) (fo_bwd (fi_oracle f)) (fi_last f) else Ret []) = Ret tracked).
  { unfold tracked, tracked_of. destruct (ex_previous e); cbn [negb]; [now rewrite Etr|reflexivity]. }
  assert (Sub : subsequence (map fst tracked) (map fst (fi_last f))).
  { unfold tracked, tracked_of. destruct (ex_previous e); cbn [negb]; [now rewrite Etr|constructor]. }
  rewrite Et. cbn [bind].
  assert (Ed : exists detected, (if fi_force f || Nat.ltb (length tracked) max_points_per_frame
     then match detect_with cols rows (map snd tracked) (fo_windows (fi_oracle f)) (fo_schedule (fi_oracle f)) with
         | None => Diverge
         | Some [] => Ret []
         | Some (k :: ks) => Ret (fo_describe (fi_oracle f) (fo_refine (fi_oracle f) (map (fun k => (k_x k, k_y k)) (k :: ks))))
         end else Ret []) = Ret detected /\ (detected <> [] -> fi_force f = true \/ (length tracked < 100)%nat)).
  { destruct (fi_force f || Nat.ltb (length tracked) max_points_per_frame) eqn:G.
    - pose proof (C18_every_complete_schedule_ends cols rows (map snd tracked) (fo_windows (fi_oracle f)) _ Gs) as D.
      destruct (detect_with _ _ _ _ _) as [[|k ks]|]; [| |congruence]; eexists; (split; [reflexivity|]); [intros X; now elim X|].
      intros _. apply orb_true_iff in G. destruct G as [G|G]; auto. right. apply Nat.ltb_lt in G. exact G.
    - exists []. split; [reflexivity|intros X; now elim X]. }
  destruct Ed as (detected & -> & Gate). cbn [bind].
  set (h0 := match ex_handler e with Some h => h | None => kh_new cols rows end).
  assert (F0 : fits h0 /\ landscape h0).
  { unfold h0. destruct (ex_handler e) as [h|] eqn:E; [auto|]. split; [apply kh_new_fits; lia|left; cbn; unfold cell_count; apply Z.div_le_mono; [reflexivity|lia]]. }
  destruct (mapM_depth cols rows (fo_depth (fi_oracle f)) detected) as (ks & -> & Pk). cbn [bind].
  destruct (mapM_depth_ids cols rows (fo_depth (fi_oracle f)) tracked) as (ts & -> & Pi & Pt). cbn [bind].
  destruct (kh_set_built h0 ks ts (proj1 F0) (proj2 F0)) as (h & -> & B & _). cbn [bind].
  eexists _, h. split; [reflexivity|]. split; [reflexivity|]. split.
  { cbn. intros h' E. injection E as <-. split; [apply (b_fits _ _ _ B)|apply (b_land _ _ _ B)]. }
  exists detected. fold tracked.
  assert (Pos : positions h = detected ++ map snd tracked).
  { unfold positions. rewrite (b_kps _ _ _ B), map_app, Pk, Pt. reflexivity. }
  assert (Nth : forall j id kp, nth_error ts j = Some (id, kp) -> nth_error tracked j = Some (id, (kp_x kp, kp_y kp))).
  { intros j id kp E. assert (E1 := map_nth_error fst _ _ E). assert (E2 := map_nth_error snd _ _ E).
    assert (E3 := map_nth_error (fun k => (kp_x k, kp_y k)) _ _ E2). rewrite Pi in E1. rewrite Pt in E3. cbn in E1, E3.
    rewrite nth_error_map in E1, E3. destruct (nth_error tracked j) as [[a b]|]; [|discriminate]. cbn in E1, E3. injection E1 as ->. injection E3 as ->. reflexivity. }
  split; [exact Pos|]. split; [exact Gate|]. split.
  - intros ND id p N0 I. apply In_nth_error in I. destruct I as (j & J).
    destruct (nth_error ts j) as [[id' kp]|] eqn:E.
    + assert (E' := Nth _ _ _ E). rewrite J in E'. injection E' as <- ->.
      exists (length ks + j)%nat. split.
      * eapply tracking_complete; eauto. rewrite Pi. eapply subsequence_nodup; eauto.
      * rewrite Pos, <- Pk, nth_error_app2, map_length by (rewrite map_length; lia).
        replace (length ks + j - length ks)%nat with j by lia. now rewrite nth_error_map, J.
    + apply nth_error_None in E. assert (L : length ts = length tracked) by (rewrite <- (map_length fst ts), Pi; apply map_length).
      assert (j < length tracked)%nat by (apply nth_error_Some; congruence). lia.
  - intros id i T. destruct (tracking_sound _ _ _ _ _ B T) as (_ & j & kp & X & -> & Z).
    exists (kp_x kp, kp_y kp). split; [eapply nth_error_In; eauto|]. unfold positions. now rewrite nth_error_map, Z.
Qed.

(** In a session of landscape images of one size, the keypoints of every frame
    are computed, whatever the frames contain. The result of a frame holds the
    newly detected points and then the tracked ones; points are only detected
    when it was requested or less than one hundred are tracked; each tracked
    identifier is found again, at the tracked position, and no other is. *)
Theorem C55_every_frame_served :
  forall cols rows fs, 0 < rows <= cols -> cols <= 1000000 -> Forall good_frame fs ->
  exists hs, session cols rows fs ex_init = Ret hs /\ length hs = length fs /\
  forall n f h, nth_error fs n = Some f -> nth_error hs n = Some h -> frame_result cols rows (Nat.eqb n 0) f h.
Proof.
  intros cols rows fs Hr Hc G.
  assert (X : forall e, (forall h, ex_handler e = Some h -> fits h /\ landscape h) ->
    exists hs, session cols rows fs e = Ret hs /\ length hs = length fs /\
    forall n f h, nth_error fs n = Some f -> nth_error hs n = Some h ->
      frame_result cols rows (Nat.eqb n 0 && negb (ex_previous e)) f h).
  { induction G as [|f fs Gf G IH]; intros e He; cbn [session].
    - exists []. repeat split. intros [|n] f h; discriminate.
    - destruct (compute_keypoints_ok cols rows f e Hr Hc Gf He) as (e' & h & -> & P & He' & R). cbn [bind fst snd].
      destruct (IH e' He') as (hs & -> & L & N). cbn [bind]. exists (h :: hs). split; [reflexivity|]. split; [cbn; lia|].
      intros [|n] f' h' A B; cbn [nth_error Nat.eqb andb] in *.
      + injection A as <-. injection B as <-. exact R.
      + specialize (N n f' h' A B). rewrite P, andb_false_r in N. exact N. }
  destruct (X ex_init) as (hs & E & L & N); [cbn; discriminate|].
  exists hs. split; [exact E|]. split; [exact L|]. intros n f h A B. specialize (N n f h A B).
  cbn [ex_init ex_previous negb] in N. now rewrite andb_true_r in N.
Qed.
Print Assumptions C55_every_frame_served.

(** The container keeps the size of the first image of the program. After a first
    image in portrait format, an image in landscape format fails. *)
Definition ex_points : frame_oracle :=
  mkFO ex_fwd ex_bwd (fun i => if Nat.eqb i 8 then mkWO [mkCvkp 50 50 10] [mkCvkp 50 50 10] else ex_empty) ex_schedule
    (map (fun p => (inject_Z (fst p), inject_Z (snd p)))) (fun l => l) (fun _ _ => 1000%Q).
Theorem C55_container_follows_image_refuted :
  exists e h, compute_keypoints 48 480 (mkFO ex_fwd ex_bwd (fun _ => ex_empty) ex_schedule (fun _ => []) (fun l => l) (fun _ _ => 0%Q)) [] false ex_init = Ret (e, h) /\
  compute_keypoints 640 480 ex_points [] false e = UB /\
  exists e' h', compute_keypoints 640 480 ex_points [] false ex_init = Ret (e', h').
Proof. eexists _, _. split; [vm_compute; reflexivity|]. split; [vm_compute; reflexivity|]. eexists _, _. vm_compute. reflexivity. Qed.
Print Assumptions C55_container_follows_image_refuted.

Example C55_example :
  good_frame (mkFrame ex_points [(4%N, (20, 20)%Q)] false) /\
  exists hs, session 640 480 [mkFrame ex_points [] false; mkFrame ex_points [(4%N, (20, 20)%Q)] true] ex_init = Ret hs /\
  map (fun h => length (positions h)) hs = [1; 2]%nat.
Proof.
  split.
  - split; [intros l; apply map_length|]. split; [intros l; apply map_length|]. apply C18_example.
  - eexists. split; vm_compute; reflexivity.
Qed.

(** No pixel is in two windows. *)
Theorem C56_windows_disjoint :
  forall width height i j k, (i < 9)%nat -> (j < 9)%nat ->
  in_window width height i k -> in_window width height j k -> i = j.
Proof. intros width height i j k Hi Hj A B. exact (in_window_unique width height i j k k A B Hi Hj eq_refl eq_refl). Qed.
Print Assumptions C56_windows_disjoint.

Example C56_example : in_window 640 480 8 (mkCvkp 638 479 1) /\ ~ exists i, (i < 9)%nat /\ in_window 640 480 i (mkCvkp 639 479 1).
Proof.
  split; [vm_compute; intuition discriminate|]. rewrite C56_windows_cover by lia. cbn. lia.
Qed.

(** The features of a frame do not depend on how the tasks that detect them take turns (C119). *)
From Coq Require Import List Arith NArith Bool Lia.
From Verif Require Import FrameTaskModel FrameTaskSpec.
Import ListNotations.

Lemma place_eqb_spec a b : reflect (a = b) (place_eqb a b).
Proof. destruct a, b; constructor; congruence. Qed.
Lemma place_dec (a b : place) : {a = b} + {a <> b}.
Proof. destruct (place_eqb_spec a b); [now left|now right]. Qed.

Section General.
Context {value : Type}.
Notation memory := (memory value).
Notation prog := (prog value).

Lemma keeps_followed {A B} (x : prog A) (f : A -> prog B) r w :
  keeps_to r w x -> (forall a, keeps_to r w (f a)) -> keeps_to r w (followed_by x f).
Proof.
  intros K F. induction x as [a| |p next IH|p v next IH]; cbn in *; auto.
  - split; [apply K|]. intros v. apply IH, K.
  - split; [apply K|]. apply IH, K.
Qed.
Lemma keeps_weaken {A} (x : prog A) r w r' w' :
  (forall p, In p r -> In p r') -> (forall p, In p w -> In p w') -> keeps_to r w x -> keeps_to r' w' x.
Proof.
  intros R W. induction x as [a| |p next IH|p v next IH]; cbn; auto.
  - intros [D K]. split; [destruct D; auto|]. auto.
  - intros [D K]. auto.
Qed.

(** A program leaves what it does not write, and depends only on what it may access. *)
Lemma alone_frame {A} (x : prog A) r w : keeps_to r w x -> forall m q, ~ In q w -> snd (alone x m) q = m q.
Proof.
  induction x as [a| |p next IH|p v next IH]; cbn; intros K m q N; auto.
  - apply IH; [apply K|exact N].
  - rewrite IH; [|apply K|exact N]. destruct (place_eqb_spec q p); [subst; now destruct K|reflexivity].
Qed.
Lemma alone_agrees {A} (x : prog A) r w : keeps_to r w x -> forall m m', (forall q, In q r \/ In q w -> m q = m' q) ->
  fst (alone x m) = fst (alone x m') /\ forall q, In q w -> snd (alone x m) q = snd (alone x m') q.
Proof.
  induction x as [a| |p next IH|p v next IH]; cbn; intros K m m' E; auto.
  - rewrite (E p) by apply K. apply IH; [apply K|exact E].
  - apply IH; [apply K|]. intros q I. destruct (place_eqb q p); auto.
Qed.

Fixpoint length_of {A} (x : prog A) (m : memory) : nat :=
  match x with
  | Ends _ | Throws => 0
  | Reads p next => S (length_of (next (m p)) m)
  | Writes p v next => S (length_of next (store m p v))
  end.

(** One step, seen from the program: [own] is the memory as the program would have it alone. *)
Lemma advance_alone {A} (x : prog A) r w sh own : keeps_to r w x -> (forall q, In q r \/ In q w -> sh q = own q) ->
  exists own', fst (advance x sh) = fst (advance x own) /\ keeps_to r w (fst (advance x sh)) /\
    alone (fst (advance x sh)) own' = alone x own /\ length_of (fst (advance x sh)) own' = length_of x own - 1 /\
    (forall q, In q w -> snd (advance x sh) q = own' q) /\
    (forall q, ~ In q w -> snd (advance x sh) q = sh q /\ own' q = own q).
Proof.
  intros K E. exists (snd (advance x own)). destruct x as [a| |p next|p v next]; cbn in *.
  - repeat split; auto.
  - repeat split; auto.
  - rewrite (E p) by apply K. split; [reflexivity|]. split; [apply K|]. split; [reflexivity|]. split; [lia|]. auto.
  - split; [reflexivity|]. split; [apply K|]. split; [reflexivity|]. split; [unfold store; lia|]. unfold store. split.
    + intros q I. destruct (place_eqb q p); auto.
    + intros q N. destruct (place_eqb_spec q p); [subst; now destruct K|split; reflexivity].
Qed.
End General.

(** ** One frame: for every detector that keeps to its places *)
Section Frame.
Context {value tracked keypoints lines planes : Type}.
Variables (as_bool : value -> bool) (as_count : value -> N) (incremented : value -> value).
Variable get_tracked_features : prog value tracked.
Variable compute_keypoints : tracked -> bool -> prog value keypoints.
Variable find_primitives : prog value planes.
Variable no_lines : lines.
Hypothesis tracking_places : keeps_to tracking_reads [] get_tracked_features.
Hypothesis point_places : forall t force, keeps_to point_reads point_writes (compute_keypoints t force).
Hypothesis plane_places : keeps_to plane_reads plane_writes find_primitives.

Local Notation point_task := (point_task as_bool as_count get_tracked_features compute_keypoints).
Local Notation detect_features := (detect_features as_bool as_count incremented get_tracked_features compute_keypoints find_primitives no_lines).
Local Notation interleaved := (interleaved as_bool as_count get_tracked_features compute_keypoints find_primitives no_lines).

Let task_reads := TrackingLost :: KeypointCount :: tracking_reads ++ point_reads.
Lemma point_task_places : keeps_to task_reads point_writes point_task.
Proof.
  assert (D : forall b, keeps_to task_reads point_writes (followed_by get_tracked_features (fun t => compute_keypoints t b))).
  { intros b. apply keeps_followed.
    - apply (keeps_weaken _ tracking_reads []); [|intros p []|exact tracking_places].
      intros p I. unfold task_reads. right. right. apply in_or_app. now left.
    - intros t. apply (keeps_weaken _ point_reads point_writes); [|auto|apply point_places].
      intros p I. unfold task_reads. right. right. apply in_or_app. now right. }
  cbn. split; [left; now left|]. intros v. destruct (as_bool v); [apply D|]. cbn. split; [left; right; now left|]. intros n. apply D.
Qed.

Lemma apart_points q : In q task_reads \/ In q point_writes -> ~ In q plane_writes.
Proof. unfold task_reads; cbn. intros H [<-|[]]. intuition discriminate. Qed.
Lemma apart_planes q : In q plane_reads \/ In q plane_writes -> ~ In q point_writes.
Proof. cbn. intros H [<-|[<-|[]]]; intuition discriminate. Qed.

Definition turns_of (t : turn) (l : list turn) : nat :=
  length (filter (fun u => match t, u with PointTurn, PointTurn | LineTurn, LineTurn | PlaneTurn, PlaneTurn => true | _, _ => false end) l).

Lemma interleaved_shape m turns : exists mk mp, let s := interleaved m turns in
  keeps_to task_reads point_writes (points_left s) /\ keeps_to plane_reads plane_writes (planes_left s) /\
  lines_left s = Ends no_lines /\
  alone (points_left s) mk = alone point_task m /\ alone (planes_left s) mp = alone find_primitives m /\
  length_of (points_left s) mk = length_of point_task m - turns_of PointTurn turns /\
  length_of (planes_left s) mp = length_of find_primitives m - turns_of PlaneTurn turns /\
  (forall q, In q point_writes -> shared s q = mk q) /\ (forall q, In q plane_writes -> shared s q = mp q) /\
  (forall q, ~ In q point_writes -> mk q = m q) /\ (forall q, ~ In q plane_writes -> mp q = m q) /\
  (forall q, ~ In q point_writes -> ~ In q plane_writes -> shared s q = m q).
Proof.
  induction turns as [|t turns IH] using rev_ind.
  - exists m, m. split; [exact point_task_places|]. split; [exact plane_places|]. split; [reflexivity|].
    split; [reflexivity|]. split; [reflexivity|]. split; [symmetry; apply Nat.sub_0_r|]. split; [symmetry; apply Nat.sub_0_r|]. auto.
  - destruct IH as (mk & mp & IH). unfold FrameTaskModel.interleaved in *. rewrite fold_left_app. cbn [fold_left].
    set (s := fold_left _ turns _) in *. cbv zeta in IH.
    destruct IH as (Kk & Kp & L & Ak & Ap & Nk & Np & Sk & Sp & Fk & Fp & F).
    assert (Vk : forall q, In q task_reads \/ In q point_writes -> shared s q = mk q).
    { intros q I. destruct (in_dec place_dec q point_writes) as [J|J]; [now apply Sk|].
      rewrite Fk by exact J. apply F; [exact J|]. now apply apart_points. }
    assert (Vp : forall q, In q plane_reads \/ In q plane_writes -> shared s q = mp q).
    { intros q I. destruct (in_dec place_dec q plane_writes) as [J|J]; [now apply Sp|].
      rewrite Fp by exact J. apply F; [|exact J]. now apply apart_planes. }
    unfold turns_of in *. rewrite !filter_app, !app_length. destruct t; cbn [filter length FrameTaskModel.step].
    + destruct (advance_alone _ _ _ _ _ Kk Vk) as (mk' & _ & K' & A' & N' & W & U).
      destruct (advance (points_left s) (shared s)) as [x sh]. cbn [fst snd] in *. exists mk', mp. cbn [points_left planes_left lines_left shared].
      repeat split; auto.
      * now rewrite A'.
      * rewrite N', Nk. lia.
      * rewrite Np. lia.
      * intros q I. rewrite (proj1 (U q (apart_planes q (or_intror I)))). now apply Sp.
      * intros q I. rewrite (proj2 (U q I)). now apply Fk.
      * intros q I J. rewrite (proj1 (U q I)). now apply F.
    + rewrite L. cbn [advance points_left planes_left lines_left shared]. exists mk, mp. repeat split; auto; lia.
    + destruct (advance_alone _ _ _ _ _ Kp Vp) as (mp' & _ & K' & A' & N' & W & U).
      destruct (advance (planes_left s) (shared s)) as [x sh]. cbn [fst snd] in *. exists mk, mp'. cbn [points_left planes_left lines_left shared].
      repeat split; auto.
      * now rewrite A'.
      * rewrite Nk. lia.
      * rewrite N', Np. lia.
      * intros q I. rewrite (proj1 (U q (apart_points q (or_intror I)))). now apply Sk.
      * intros q I. rewrite (proj2 (U q I)). now apply Fp.
      * intros q I J. rewrite (proj1 (U q J)). now apply F.
Qed.

(** Whatever the turns, the call gives what each task finds alone, and each detector ends as its
    task leaves it alone; nothing else changes, except the number of the container. When one of the
    tasks throws the program ends. *)
Theorem C119_schedule : forall m turns d, detect_features m turns = Some d ->
  match fst (alone point_task m), fst (alone find_primitives m) with
  | Some k, Some p => exists m', d = Detected k no_lines p (incremented (m ContainerIds)) m' /\
      (forall q, In q point_writes -> m' q = snd (alone point_task m) q) /\
      (forall q, In q plane_writes -> m' q = snd (alone find_primitives m) q) /\
      m' ContainerIds = incremented (m ContainerIds) /\
      (forall q, ~ In q point_writes -> ~ In q plane_writes -> q <> ContainerIds -> m' q = m q)
  | _, _ => d = Terminated
  end.
Proof.
  intros m turns d. unfold FrameTaskModel.detect_features. destruct (interleaved_shape m turns) as (mk & mp & H). cbv zeta in *.
  destruct H as (Kk & Kp & L & Ak & Ap & _ & _ & Sk & Sp & _ & _ & F).
  set (s := interleaved m turns) in *. rewrite L. cbn [outcome_of].
  destruct (points_left s) as [k| | |]; cbn [outcome_of]; try discriminate;
  destruct (planes_left s) as [p| | |]; cbn [outcome_of]; try discriminate; cbn [alone] in Ak, Ap; rewrite <- Ak, <- Ap; cbn [fst snd]; intros [= <-]; auto.
  assert (C : shared s ContainerIds = m ContainerIds) by (apply F; cbn; intuition discriminate).
  rewrite C. eexists. split; [reflexivity|]. unfold store. repeat split.
  - intros q I. destruct (place_eqb_spec q ContainerIds); [subst; cbn in I; intuition discriminate|]. now apply Sk.
  - intros q I. destruct (place_eqb_spec q ContainerIds); [subst; cbn in I; intuition discriminate|]. now apply Sp.
  - intros q I J N. destruct (place_eqb_spec q ContainerIds); [contradiction|]. now apply F.
Qed.
Print Assumptions C119_schedule.

(** The same as the detection of the points and then of the planes, or the other way round. *)
Theorem C119_one_after_the_other : forall m turns k l p id m', detect_features m turns = Some (Detected k l p id m') ->
  let first := alone point_task m in let second := alone find_primitives (snd first) in
  let first' := alone find_primitives m in let second' := alone point_task (snd first') in
  fst first = Some k /\ fst second = Some p /\ fst first' = Some p /\ fst second' = Some k /\
  forall q, q <> ContainerIds -> m' q = snd second q /\ m' q = snd second' q.
Proof.
  intros m turns k l p id m' H. apply C119_schedule in H. cbv zeta.
  destruct (alone_agrees find_primitives _ _ plane_places (snd (alone point_task m)) m) as [E1 E2].
  { intros q I. apply (alone_frame _ _ _ point_task_places). now apply apart_planes. }
  destruct (alone_agrees point_task _ _ point_task_places (snd (alone find_primitives m)) m) as [E3 E4].
  { intros q I. apply (alone_frame _ _ _ plane_places). now apply apart_points. }
  rewrite E1, E3.
  destruct (fst (alone point_task m)) as [k'|] eqn:A; [|discriminate H].
  destruct (fst (alone find_primitives m)) as [p'|] eqn:B; [|discriminate H].
  destruct H as (m'' & [= -> -> -> -> ->] & W & V & _ & U). repeat split; auto.
  - destruct (in_dec place_dec q plane_writes) as [J|J]; [rewrite E2 by exact J; now apply V|].
    rewrite (alone_frame _ _ _ plane_places) by exact J.
    destruct (in_dec place_dec q point_writes) as [I|I]; [now apply W|].
    rewrite (alone_frame _ _ _ point_task_places) by exact I. auto.
  - destruct (in_dec place_dec q point_writes) as [J|J]; [rewrite E4 by exact J; now apply W|].
    rewrite (alone_frame _ _ _ point_task_places) by exact J.
    destruct (in_dec place_dec q plane_writes) as [I|I]; [now apply V|].
    rewrite (alone_frame _ _ _ plane_places) by exact I. auto.
Qed.
Print Assumptions C119_one_after_the_other.

(** A call ends as soon as each task has had enough turns, however the turns are mixed. *)
Theorem C119_ends : forall m, exists n, forall turns, n <= turns_of PointTurn turns -> n <= turns_of PlaneTurn turns ->
  detect_features m turns <> None.
Proof.
  intros m. exists (Nat.max (length_of point_task m) (length_of find_primitives m)). intros turns A B.
  unfold FrameTaskModel.detect_features. destruct (interleaved_shape m turns) as (mk & mp & H). cbv zeta in *.
  destruct H as (_ & _ & L & _ & _ & Nk & Np & _). set (s := interleaved m turns) in *. rewrite L. cbn [outcome_of].
  assert (length_of (points_left s) mk = 0 /\ length_of (planes_left s) mp = 0) as [Zk Zp] by (split; [rewrite Nk|rewrite Np]; lia).
  destruct (points_left s); cbn [length_of] in Zk; try discriminate Zk;
  destruct (planes_left s); cbn [length_of] in Zp; try discriminate Zp; cbn; discriminate.
Qed.
Print Assumptions C119_ends.

(** No data race: two tasks are never about to access the same place, one of them to write it. *)
Theorem C119_no_race : forall m turns, let s := interleaved m turns in
  ~ race (next_access (points_left s)) (next_access (planes_left s)) /\
  ~ race (next_access (points_left s)) (next_access (lines_left s)) /\
  ~ race (next_access (lines_left s)) (next_access (planes_left s)).
Proof.
  intros m turns. destruct (interleaved_shape m turns) as (mk & mp & H). cbv zeta in *.
  destruct H as (Kk & Kp & L & _). set (s := interleaved m turns) in *. rewrite L. split; [|split; intros (p & x & y & A & B & _); discriminate].
  intros (p & x & y & A & B & D).
  destruct (points_left s) as [k| |pk nk|pk vk nk]; try discriminate A; destruct (planes_left s) as [c| |pp np|pp vp np]; try discriminate B;
    injection A as <- <-; injection B as -> <-; cbn in Kk, Kp.
  - destruct D; discriminate.
  - apply (apart_points pk (proj1 Kk)), Kp.
  - apply (apart_planes pk (proj1 Kp)), Kk.
  - apply (apart_planes pk (or_intror (proj1 Kp))), Kk.
Qed.
Print Assumptions C119_no_race.

(** The points are all searched again exactly when the tracking is lost or the counter is at 1. *)
Theorem C119_forced : forall m,
  fst (alone point_task m) =
  match fst (alone get_tracked_features m) with
  | None => None
  | Some t => fst (alone (compute_keypoints t (as_bool (m TrackingLost) || (as_count (m KeypointCount) =? 1)%N)) m)
  end.
Proof.
  assert (D : forall b m, fst (alone (followed_by get_tracked_features (fun t => compute_keypoints t b)) m) =
    match fst (alone get_tracked_features m) with None => None | Some t => fst (alone (compute_keypoints t b) m) end).
  { intros b m. revert tracking_places. generalize get_tracked_features. intros x. induction x as [t| |p next IH|p v next IH]; cbn; intros K; auto.
    - apply IH, K.
    - destruct K as [[] _]. }
  intros m. cbn. destruct (as_bool (m TrackingLost)); cbn [orb]; [apply D|]. cbn [alone]. apply D.
Qed.
Print Assumptions C119_forced.
End Frame.

(** ** Detectors that meet the hypotheses *)
Definition some_tracking : prog nat nat := Reads Maps (fun v => Reads Pose (fun w => Ends (v + w))).
Definition some_points (t : nat) (force : bool) : prog nat (nat * nat * bool) :=
  Reads Gray (fun g => Reads PointDetector (fun last => Writes PointDetector g
    (followed_by (masked_search (fun mask => (mask + g, last, force)) t) Ends))).
Definition some_planes : prog nat nat := Reads Cloud (fun c => Writes PlaneDetector c (Reads Depth (fun d => Reads PlaneDetector (fun v => Ends (v + d))))).
Definition some_memory (p : place) : nat :=
  match p with TrackingLost => 0 | KeypointCount => 1 | Maps => 20 | Pose => 3 | Gray => 100 | Depth => 7 | Cloud => 40 | CameraParameters => 0
  | PointDetector => 90 | PointStatics => 6 | PlaneDetector => 5 | ContainerIds => 8 end.
Example C119_places : keeps_to tracking_reads [] some_tracking /\
  (forall t force, keeps_to point_reads point_writes (some_points t force)) /\ keeps_to plane_reads plane_writes some_planes.
Proof. cbn. intuition auto. Qed.
(** Two ways to take turns: the same features, numbered 9. *)
Definition some_detection := detect_features (lines := unit) (fun v => v =? 1) N.of_nat S some_tracking some_points some_planes tt some_memory.
Definition shown (d : option (detection (value := nat) (keypoints := nat * nat * bool) (lines := unit) (planes := nat))) :=
  match d with Some (Detected k _ p id m) => Some (k, p, id, map m [PointDetector; PointStatics; PlaneDetector; Maps; ContainerIds]) | _ => None end.
Example C119_example :
  let same := Some ((123, 90, true), 47, 9, [100; 23; 40; 20; 9]) in
  shown (some_detection (repeat PointTurn 9 ++ repeat PlaneTurn 4)) = same /\
  shown (some_detection (repeat PlaneTurn 4 ++ repeat PointTurn 9)) = same /\
  shown (some_detection (concat (repeat [PointTurn; PlaneTurn; LineTurn] 9))) = same /\
  some_detection (repeat PointTurn 9 ++ repeat PlaneTurn 3) = None.
Proof. repeat split; reflexivity. Qed.

(** Two objects used from two threads share the mask of the search: one of them can then search with
    the mask of the other one, a result that no order of the two calls gives. *)
Theorem C119_two_objects_refuted : exists (m : memory nat) (mask mask' : nat) (turns : list bool) found found',
  let search := fun around : nat => around in
  both (masked_search search mask) (masked_search search mask') m turns = (Some (Some found), Some (Some found')) /\
  fst (alone (masked_search search mask) m) <> Some found /\
  fst (alone (masked_search search mask) (snd (alone (masked_search search mask') m))) <> Some found.
Proof. exists some_memory, 1, 2, [true; false; true; false], 2, 2. cbn. repeat split; discriminate. Qed.
Print Assumptions C119_two_objects_refuted.

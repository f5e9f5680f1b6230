(** The random numbers drawn by several threads (C115). *)
From Coq Require Import List ZArith Lia Bool PeanoNat.
Import ListNotations.
From Verif Require Import RandomThreadSpec RandomThreadModel.

Section Props.
Context {engine work value : Type}.
Variable seeded : engine.
Variable compute : work -> engine -> value * engine.
Notation execute := (execute seeded compute).
Notation run := (run seeded compute).
Notation alone := (alone compute seeded).

(** what the thread [t] does, and its results *)
Definition works_of (t : nat) (h : list (event work)) : list work :=
  flat_map (fun ev => match ev with Does t' w => if Nat.eqb t' t then [w] else [] | Starts _ => [] end) h.
Definition results_of (t : nat) (r : list (nat * value)) : list value := map snd (filter (fun x => Nat.eqb (fst x) t) r).

Lemma results_of_app t a b : results_of t (a ++ b) = results_of t a ++ results_of t b.
Proof. unfold results_of. now rewrite filter_app, map_app. Qed.

Lemma length_results : forall h e t, length (results_of t (run e h)) = length (works_of t h).
Proof.
  induction h as [|ev h IH]; intros e t; [reflexivity|]. cbn [RandomThreadModel.run]. unfold works_of. cbn [flat_map].
  fold (works_of t h). destruct ev as [t'|t' w]; cbn [step]; [apply IH|].
  destruct (compute w (get_random_engine seeded e t')) as [v x]. rewrite results_of_app, !app_length, IH. f_equal.
  unfold results_of. cbn [filter fst]. now destruct (Nat.eqb t' t).
Qed.
Lemma run_engine : forall h e t, ~ In (Starts t) h ->
  results_of t (run e h) = RandomThreadSpec.alone compute (get_random_engine seeded e t) (works_of t h).
Proof.
  induction h as [|ev h IH]; intros e t N; [reflexivity|].
  assert (N' : ~ In (Starts t) h) by (intro I; apply N; now right).
  destruct ev as [t'|t' w]; cbn [RandomThreadModel.run step].
  - cbn [app works_of flat_map]. fold (works_of t h). rewrite IH by exact N'. f_equal.
    unfold get_random_engine, set. destruct (Nat.eqb_spec t t') as [->|_]; [|reflexivity].
    exfalso. apply N. now left.
  - destruct (compute w (get_random_engine seeded e t')) as [v x] eqn:C. rewrite results_of_app, IH by exact N'.
    unfold works_of. cbn [flat_map]. fold (works_of t h). unfold results_of at 1. cbn [filter fst].
    destruct (Nat.eqb_spec t' t) as [->|D]; cbn [map snd app].
    + cbn [RandomThreadSpec.alone]. rewrite C. cbn [fst snd]. f_equal. f_equal.
      unfold get_random_engine, set. now rewrite Nat.eqb_refl.
    + f_equal. unfold get_random_engine, set. destruct (Nat.eqb_spec t t') as [E|_]; [now subst|reflexivity].
Qed.
Lemma run_app : forall h1 e h2, exists e', run e (h1 ++ h2) = run e h1 ++ run e' h2.
Proof.
  induction h1 as [|ev h1 IH]; intros e h2; [now exists e|].
  cbn [app RandomThreadModel.run]. destruct (step seeded compute e ev) as [e1 r]. destruct (IH e1 h2) as [e' ->].
  exists e'. now rewrite app_assoc.
Qed.

(** The results of a thread, from its start, are those it has alone in the program: they depend
    neither on the other threads, nor on their schedule, nor on what was drawn before. *)
Theorem C115_thread : forall before after t, ~ In (Starts t) after ->
  exists earlier, length earlier = length (works_of t before) /\
  results_of t (execute (before ++ Starts t :: after)) = earlier ++ alone (works_of t after).
Proof.
  intros before after t N. unfold RandomThreadModel.execute.
  destruct (run_app before (fun _ => None) (Starts t :: after)) as [e' ->].
  exists (results_of t (run (fun _ => None) before)). split; [apply length_results|]. rewrite results_of_app. f_equal.
  cbn [RandomThreadModel.run step app]. rewrite run_engine by exact N. f_equal.
  unfold get_random_engine, set. now rewrite Nat.eqb_refl.
Qed.
Print Assumptions C115_thread.
(** The same for the threads that exist from the beginning. *)
Theorem C115_schedule : forall h t, ~ In (Starts t) h -> results_of t (execute h) = alone (works_of t h).
Proof. intros h t N. unfold RandomThreadModel.execute. now rewrite run_engine. Qed.
Print Assumptions C115_schedule.

(** The program of one thread (the deterministic build): its results follow from what it does. *)
Theorem C115_one_thread : forall t works, map snd (execute (map (Does t) works)) = alone works.
Proof.
  intros t works. assert (N : ~ In (Starts t) (map (Does t) works)).
  { intro I. apply in_map_iff in I as (w & E & _). discriminate E. }
  pose proof (C115_schedule _ t N) as S.
  assert (W : works_of t (map (Does t) works) = works).
  { clear. induction works as [|w l IH]; [reflexivity|]. cbn [map]. unfold works_of in *. cbn [flat_map].
    now rewrite Nat.eqb_refl, IH. }
  rewrite W in S. rewrite <- S. unfold results_of. f_equal. clear S N W. unfold RandomThreadModel.execute.
  generalize (fun _ : nat => @None engine). induction works as [|w l IH]; intro e; [reflexivity|].
  cbn [map RandomThreadModel.run step]. destruct (compute w (get_random_engine seeded e t)) as [v x].
  cbn [app filter fst]. rewrite Nat.eqb_refl. f_equal. apply IH.
Qed.
Print Assumptions C115_one_thread.

(** Two threads that do the same works obtain the same results. *)
Theorem C115_same_draws : forall h t t', ~ In (Starts t) h -> ~ In (Starts t') h ->
  works_of t h = works_of t' h -> results_of t (execute h) = results_of t' (execute h).
Proof. intros h t t' N N' E. now rewrite !C115_schedule, E. Qed.
Print Assumptions C115_same_draws.

(** ** One work shared between threads: a candidate pose, a varied pose *)
Lemma alone_repeat : forall n m w e, (n <= m)%nat -> incl (RandomThreadSpec.alone compute e (repeat w n)) (RandomThreadSpec.alone compute e (repeat w m)).
Proof.
  induction n as [|n IH]; intros m w e L; [intros x []|]. destruct m as [|m]; [lia|]. cbn [repeat RandomThreadSpec.alone].
  intros x [->|I]; [now left|right]. exact (IH m w _ (le_S_n _ _ L) x I).
Qed.
Lemma works_of_only : forall h w t, Forall (fun ev => exists t', ev = Does t' w) h -> works_of t h = repeat w (length (works_of t h)).
Proof.
  induction h as [|ev h IH]; intros w t F; [reflexivity|]. apply Forall_cons_iff in F as [[t' ->] F].
  unfold works_of. cbn [flat_map]. fold (works_of t h). destruct (Nat.eqb t' t); cbn [app length repeat]; [f_equal|]; now apply IH.
Qed.
Lemma no_start : forall h (w : work) t, Forall (fun ev => exists t', ev = Does t' w) h -> ~ In (Starts t) h.
Proof. intros h w t F I. rewrite Forall_forall in F. destruct (F _ I) as [t' E]. discriminate E. Qed.

(** Whatever the number of times the work is done in all, the results are among those that the
    busiest thread obtains alone: the other threads find nothing else. *)
Theorem C115_tries : forall h w m, Forall (fun ev => exists t, ev = Does t w) h ->
  (forall t, (length (works_of t h) <= m)%nat) ->
  incl (map snd (execute h)) (alone (repeat w m)).
Proof.
  intros h w m F B v I. apply in_map_iff in I as ([t v'] & E & I). cbn in E. subst v'.
  apply (alone_repeat (length (works_of t h)) m w seeded (B t)). rewrite <- (works_of_only h w t F).
  rewrite <- C115_schedule by exact (no_start h w t F). unfold results_of. apply in_map_iff. exists (t, v).
  split; [reflexivity|]. apply filter_In. cbn. now rewrite Nat.eqb_refl.
Qed.
Print Assumptions C115_tries.
End Props.

(** ** The followed points of the map *)
Section Follow.
Context {engine point screen : Type}.
Variables (candidate : point -> bool) (project : point -> option screen) (uint : Z -> engine -> Z * engine).
Variable seeded : engine.
Notation follow := (get_tracked_features candidate project uint).

(** the draws of an engine, in order *)
Fixpoint draw (chance : Z) (k : nat) (e : engine) : Z :=
  match k with O => fst (uint chance e) | S k => draw chance k (snd (uint chance e)) end.
Definition kept (chance : Z) (e : engine) (k : nat) : bool := (chance =? 0)%Z || negb (draw chance k e =? 0)%Z.

Lemma seen_app : forall a b : list point, seen project (a ++ b) = seen project a ++ seen project b.
Proof. induction a as [|x a IH]; intro b; [reflexivity|]. cbn [seen app]. now rewrite IH, app_assoc. Qed.
Lemma by_rank_shift : forall (l : list point) keep keep' k k', (forall i, keep (k + i)%nat = keep' (k' + i)%nat) -> by_rank keep k l = by_rank keep' k' l.
Proof.
  induction l as [|a l IH]; intros keep keep' k k' E; [reflexivity|]. cbn [by_rank].
  replace (keep k) with (keep' k') by (specialize (E O); rewrite !Nat.add_0_r in E; now symmetry). f_equal. apply IH.
  intro i. specialize (E (S i)). now rewrite !Nat.add_succ_r in E.
Qed.
Lemma follow_by_rank : forall chance map e, fst (follow chance map e) = seen project (by_rank (kept chance e) 0 (filter candidate map)).
Proof.
  intros chance map. induction map as [|p map IH]; intro e; [reflexivity|]. cbn [get_tracked_features filter].
  destruct (candidate p); [|apply IH]. cbn [by_rank]. rewrite seen_app. unfold add_to_tracked.
  destruct (Z.eqb_spec chance 0) as [->|N].
  - destruct (follow 0%Z map e) as [b e''] eqn:F. cbn [fst].
    pose proof (IH e) as H. rewrite F in H. cbn [fst] in H. rewrite H. unfold kept at 2. cbn [orb Z.eqb].
    cbn [seen]. rewrite app_nil_r. f_equal. f_equal. apply by_rank_shift. reflexivity.
  - destruct (uint chance e) as [n e'] eqn:U. destruct (follow chance map e') as [b e''] eqn:F. cbn [fst].
    pose proof (IH e') as H. rewrite F in H. cbn [fst] in H. rewrite H.
    unfold kept at 2. cbn [draw]. rewrite U. cbn [fst]. replace (chance =? 0)%Z with false by (symmetry; now apply Z.eqb_neq).
    cbn [orb]. f_equal.
    + destruct (negb (n =? 0)%Z); [cbn [seen]; now rewrite app_nil_r|reflexivity].
    + f_equal. apply by_rank_shift. intro i. unfold kept. cbn [Nat.add draw]. now rewrite U.
Qed.

Lemma task_result : forall chance before after t map,
  exists earlier later, length earlier = length (works_of t before) /\
  results_of t (execute seeded (follow chance) (before ++ keypoint_task t map ++ after)) =
    earlier ++ [seen project (by_rank (kept chance seeded) 0 (filter candidate map))] ++ later.
Proof.
  intros chance before after t map. unfold execute.
  destruct (run_app seeded (follow chance) before (fun _ => None) (keypoint_task t map ++ after)) as [e ->].
  rewrite results_of_app. exists (results_of t (run seeded (follow chance) (fun _ => None) before)).
  cbn [keypoint_task app run step]. unfold get_random_engine at 1. unfold set at 1. rewrite Nat.eqb_refl.
  destruct (follow chance map seeded) as [v x] eqn:F. exists (results_of t (run seeded (follow chance) (set (set e t None) t (Some x)) after)).
  split; [apply length_results|]. f_equal. cbn [app].
  change (((t, v) :: run seeded (follow chance) (set (set e t None) t (Some x)) after)) with ([(t, v)] ++ run seeded (follow chance) (set (set e t None) t (Some x)) after).
  rewrite results_of_app. rewrite <- follow_by_rank, F. unfold results_of at 1. cbn [filter fst]. now rewrite Nat.eqb_refl.
Qed.

(** There is one pattern for the whole program: in every frame, whatever happened before and
    whatever the other threads do, the points followed are those of the map that were matched,
    are visible and projected, and whose rank among the matched and visible ones is in the
    pattern. *)
Theorem C115_pattern : forall chance, exists pattern : nat -> bool, forall before after t map,
  exists earlier later, length earlier = length (works_of t before) /\
  results_of t (execute seeded (follow chance) (before ++ keypoint_task t map ++ after)) =
    earlier ++ [seen project (by_rank pattern 0 (filter candidate map))] ++ later.
Proof. intro chance. exists (kept chance seeded). apply task_result. Qed.
Print Assumptions C115_pattern.
End Follow.

(** ** A small generator, to see it *)
Definition toy (bound : Z) (e : Z) : Z * Z := let e' := ((5 * e + 3) mod 16)%Z in ((e' mod bound)%Z, e').
(** Threads 1 and 2 draw two dice each: the schedule does not matter, and they throw the same. *)
Example C115_example :
  execute 1%Z toy [Does 1 6; Does 2 6; Does 2 6; Does 1 6]%Z = [(1%nat, 2); (2%nat, 2); (2%nat, 5); (1%nat, 5)]%Z /\
  execute 1%Z toy [Does 1 6; Does 1 6; Does 2 6; Does 2 6]%Z = [(1%nat, 2); (1%nat, 5); (2%nat, 2); (2%nat, 5)]%Z.
Proof. split; reflexivity. Qed.

(** The work done depends on the thread that does it: three tries made by one thread are not
    the three tries made by two. *)
Theorem C115_parallel_refuted : exists (engine work value : Type) (seeded : engine) (compute : work -> engine -> value * engine) h h' w,
  map (fun ev => match ev with Does _ w => Some w | Starts _ => None end) h = map (fun ev => match ev with Does _ w => Some w | Starts _ => None end) h' /\
  length h = 3%nat /\ Forall (fun ev => exists t, ev = Does t w) h /\
  (exists v, In v (map snd (execute seeded compute h)) /\ ~ In v (map snd (execute seeded compute h'))).
Proof.
  exists Z, Z, Z, 1%Z, toy, [Does 0 6; Does 0 6; Does 0 6]%Z, [Does 0 6; Does 1 6; Does 1 6]%Z, 6%Z.
  repeat split; [repeat (apply Forall_cons; [eexists; reflexivity|]); apply Forall_nil|]. exists 4%Z. cbn. split; [tauto|intuition discriminate].
Qed.
Print Assumptions C115_parallel_refuted.

(** The tries of two threads are not different draws, even of an engine which never draws twice
    the same in one thread. *)
Theorem C115_independent_refuted : exists (engine work value : Type) (seeded : engine) (compute : work -> engine -> value * engine) w,
  (forall n, NoDup (alone compute seeded (repeat w n))) /\
  map snd (execute seeded compute [Does 0 w; Does 1 w]) = map snd (execute seeded compute [Does 0 w; Does 2 w]) /\
  ~ NoDup (map snd (execute seeded compute [Does 0 w; Does 1 w])).
Proof.
  exists nat, unit, nat, 0%nat, (fun _ e => (e, S e)), tt. repeat split.
  - intro n. assert (H : forall n e, NoDup (alone (fun (_ : unit) e => (e, S e)) e (repeat tt n)) /\
      Forall (fun x => e <= x)%nat (alone (fun (_ : unit) e => (e, S e)) e (repeat tt n))).
    { clear n. induction n as [|n IH]; intro e; cbn [repeat alone fst snd]; [split; constructor|].
      destruct (IH (S e)) as [A B]. split.
      - constructor; [|exact A]. intro I. rewrite Forall_forall in B. apply B in I. lia.
      - constructor; [lia|]. apply Forall_impl with (2 := B). intros; lia. }
    apply H.
  - cbn. intro N. inversion N as [|x l I _]. apply I. now left.
Qed.
Print Assumptions C115_independent_refuted.

(** A point that keeps its rank in the map is dropped in every frame: it is never followed,
    although it is always matched, visible and projected, and the generator drops few points. *)
Theorem C115_drop_refuted : exists (engine : Type) (seeded : engine) (uint : Z -> engine -> Z * engine) (map : list nat),
  (forall k, (k < 4)%nat -> draw uint 6%Z k seeded <> 0%Z) /\ In 4%nat map /\
  forall before after t, exists earlier later followed,
    length earlier = length (works_of t before) /\
    results_of t (execute seeded (get_tracked_features (fun _ => true) Some uint 6%Z) (before ++ keypoint_task t map ++ after)) =
      earlier ++ [followed] ++ later /\
    List.map fst followed = [0; 1; 2; 3]%nat.
Proof.
  exists Z, 1%Z, toy, [0; 1; 2; 3; 4]%nat. split; [|split; [cbn; tauto|]].
  - intros k L. destruct k as [|[|[|[|k]]]]; [discriminate..|lia].
  - intros before after t.
    destruct (task_result (fun _ => true) (@Some nat) toy 1%Z 6%Z before after t [0; 1; 2; 3; 4]%nat) as (earlier & later & L & E).
    exists earlier, later. eexists. split; [exact L|]. split; [exact E|reflexivity].
Qed.
Print Assumptions C115_drop_refuted.

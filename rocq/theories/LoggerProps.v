(** The logs of several threads (C107). *)
From Verif Require Import LoggerSpec.
From Coq Require Import String DecimalString List Ascii NArith ZArith Bool Arith Lia ZifyBool.
Import ListNotations.
Local Open Scope list_scope.

Lemma level_eqb_refl l : level_eqb l l = true.
Proof. now destruct l. Qed.
Lemma level_eqb_eq a b : level_eqb a b = true <-> a = b.
Proof. destruct a, b; cbn; split; congruence. Qed.
Lemma shuffle_left_end {A} (x : A) a b c : shuffle a b c -> shuffle (a ++ [x]) b (c ++ [x]).
Proof. induction 1; cbn; [apply Shuffle_left, Shuffle_nil|now apply Shuffle_left|now apply Shuffle_right]. Qed.
Lemma shuffle_right_end {A} (x : A) a b c : shuffle a b c -> shuffle a (b ++ [x]) (c ++ [x]).
Proof. induction 1; cbn; [apply Shuffle_right, Shuffle_nil|now apply Shuffle_left|now apply Shuffle_right]. Qed.
Lemma shuffle_only_right {A} (b c : list A) : shuffle [] b c -> c = b.
Proof. intros H. remember [] as a eqn:E. induction H; [reflexivity|discriminate|]. f_equal. auto. Qed.
Lemma shuffle_only_left {A} (a c : list A) : shuffle a [] c -> c = a.
Proof. intros H. remember [] as b eqn:E. induction H; [reflexivity| |discriminate]. f_equal. auto. Qed.
Lemma set_thread_same f t x : set_thread f t x t = x.
Proof. unfold set_thread. now rewrite Nat.eqb_refl. Qed.
Lemma set_thread_other f t x k : k <> t -> set_thread f t x k = f k.
Proof. intros N. unfold set_thread. apply Nat.eqb_neq in N. now rewrite N. Qed.
Lemma set_holder_same f l h : set_holder f l h l = h.
Proof. unfold set_holder. now rewrite level_eqb_refl. Qed.
Lemma set_holder_other f l h k : k <> l -> set_holder f l h k = f k.
Proof. intros N. unfold set_holder. destruct (level_eqb k l) eqn:E; [apply level_eqb_eq in E; congruence|reflexivity]. Qed.
Lemma whole_snoc order t c : whole (order ++ [(t, c)]) = whole order ++ text c.
Proof. unfold whole. rewrite map_app, concat_app. cbn. now rewrite app_nil_r. Qed.
Lemma of_thread_snoc t order u c : of_thread t (order ++ [(u, c)]) = of_thread t order ++ (if Nat.eqb u t then [c] else []).
Proof. unfold of_thread. rewrite filter_app, map_app. cbn. now destruct (Nat.eqb u t). Qed.

Section machine.
  Variable setting : Z.
  Variable program : nat -> list call.
  (** what is left to write of the message of the level *)
  Definition left_of (s : state) (l : level) : list ascii :=
    match holder s l with
    | Some t => match writing (threads s t) with Some (_, rest) => rest | None => [] end
    | None => []
    end.
  Record invariant (order : level -> list (nat * call)) (written : level -> list ascii) (s : state) : Prop := {
    i_out : out s = written Info;
    i_err : shuffle (written Warning) (written Error) (err s);
    i_written : forall l, written l ++ left_of s l = whole (order l);
    i_holder : forall l t, holder s l = Some t -> exists rest, writing (threads s t) = Some (l, rest);
    i_writing : forall t l rest, writing (threads s t) = Some (l, rest) -> holder s l = Some t;
    i_order : forall l t, of_thread t (order l) ++ expected setting l (todo (threads s t)) = expected setting l (program t) }.
  Definition good (s : state) : Prop := exists order written, invariant order written s.

  Lemma good_init : good (init program).
  Proof. exists (fun _ => []), (fun _ => []). split; cbn; try discriminate; try reflexivity. constructor. Qed.
  (** a step that writes one character *)
  Lemma good_write s t l c rest : good s -> writing (threads s t) = Some (l, c :: rest) -> good (step setting s t).
  Proof.
    intros (order & written & [O E W H R P]) X.
    set (written' := fun k => if level_eqb k l then written k ++ [c] else written k).
    assert (Hl : holder s l = Some t) by eauto.
    assert (S : step setting s t = mkState (holder s) (set_thread (threads s) t (mkThread (Some (l, rest)) (todo (threads s t))))
                  (match l with Info => out s ++ [c] | _ => out s end) (match l with Info => err s | _ => err s ++ [c] end)).
    { unfold step. rewrite X. now destruct l. }
    exists order, written'. rewrite S. split; cbn [holder threads out err].
    - destruct l; unfold written'; cbn; rewrite O; reflexivity.
    - destruct l; unfold written'; cbn; [exact E|now apply shuffle_left_end|now apply shuffle_right_end].
    - intros k. rewrite <- W. unfold left_of. cbn [holder threads]. unfold written'. destruct (level_eqb k l) eqn:K.
      + apply level_eqb_eq in K as ->. rewrite Hl, set_thread_same, X. cbn. now rewrite <- app_assoc.
      + f_equal. destruct (holder s k) as [u|] eqn:Hk; [|reflexivity]. rewrite set_thread_other; [reflexivity|].
        intros ->. destruct (H _ _ Hk) as [r Y]. rewrite X in Y. injection Y as -> _. now rewrite level_eqb_refl in K.
    - intros k u Hk. destruct (Nat.eq_dec u t) as [->|N]; [|rewrite set_thread_other by exact N; eauto].
      rewrite set_thread_same. destruct (H _ _ Hk) as [r Y]. rewrite X in Y. injection Y as -> _. cbn. eauto.
    - intros u k r. destruct (Nat.eq_dec u t) as [->|N]; [rewrite set_thread_same; cbn; intros [= <- _]; exact Hl|].
      rewrite set_thread_other by exact N. apply R.
    - intros k u. destruct (Nat.eq_dec u t) as [->|N]; [rewrite set_thread_same|rewrite set_thread_other by exact N]; cbn; apply P.
  Qed.
  Lemma good_end s t l : good s -> writing (threads s t) = Some (l, []) -> good (step setting s t).
  Proof.
    intros (order & written & [O E W H R P]) X. assert (Hl : holder s l = Some t) by eauto.
    exists order, written. unfold step. rewrite X. split; cbn [holder threads out err]; auto.
    - intros k. rewrite <- W. f_equal. unfold left_of. cbn [holder threads]. destruct (level_eqb k l) eqn:K.
      + apply level_eqb_eq in K as ->. now rewrite set_holder_same, Hl, X.
      + assert (N : k <> l) by (intros ->; now rewrite level_eqb_refl in K). rewrite set_holder_other by exact N.
        destruct (holder s k) as [u|] eqn:Hk; [|reflexivity]. rewrite set_thread_other; [reflexivity|].
        intros ->. destruct (H _ _ Hk) as [r Y]. congruence.
    - intros k u. destruct (level_eqb k l) eqn:K.
      + apply level_eqb_eq in K as ->. now rewrite set_holder_same.
      + assert (N : k <> l) by (intros ->; now rewrite level_eqb_refl in K). rewrite set_holder_other by exact N.
        intros Hk. destruct (Nat.eq_dec u t) as [->|M]; [|rewrite set_thread_other by exact M; eauto].
        destruct (H _ _ Hk) as [r Y]. congruence.
    - intros u k r. destruct (Nat.eq_dec u t) as [->|N]; [rewrite set_thread_same; discriminate|].
      rewrite set_thread_other by exact N. intros Y. pose proof (R _ _ _ Y) as Hk. rewrite set_holder_other; [exact Hk|]. congruence.
    - intros k u. destruct (Nat.eq_dec u t) as [->|N]; [rewrite set_thread_same|rewrite set_thread_other by exact N]; cbn; apply P.
  Qed.
  Lemma good_start s t c calls : good s -> writing (threads s t) = None -> todo (threads s t) = c :: calls -> good (step setting s t).
  Proof.
    intros (order & written & [O E W H R P]) X T. unfold step. rewrite X, T. destruct (shown setting c) eqn:V.
    - destruct (holder s (c_level c)) as [h|] eqn:Hc; [exists order, written; now split|].
      set (order' := fun k => if level_eqb k (c_level c) then order k ++ [(t, c)] else order k).
      exists order', written. split; cbn [holder threads out err]; auto.
      + intros k. unfold left_of. cbn [holder threads]. unfold order'. specialize (W k). unfold left_of in W. destruct (level_eqb k (c_level c)) eqn:K.
        * apply level_eqb_eq in K as ->. rewrite set_holder_same, set_thread_same. cbn. rewrite whole_snoc. f_equal.
          rewrite Hc, app_nil_r in W. exact W.
        * assert (N : k <> c_level c) by (intros ->; now rewrite level_eqb_refl in K). rewrite set_holder_other by exact N. rewrite <- W. f_equal.
          destruct (holder s k) as [u|] eqn:Hk; [|reflexivity]. rewrite set_thread_other; [reflexivity|].
          intros ->. destruct (H _ _ Hk) as [r Y]. congruence.
      + intros k u. destruct (level_eqb k (c_level c)) eqn:K.
        * apply level_eqb_eq in K as ->. rewrite set_holder_same. intros [= <-]. rewrite set_thread_same. cbn. eauto.
        * assert (N : k <> c_level c) by (intros ->; now rewrite level_eqb_refl in K). rewrite set_holder_other by exact N.
          intros Hk. destruct (Nat.eq_dec u t) as [->|M]; [|rewrite set_thread_other by exact M; eauto].
          destruct (H _ _ Hk) as [r Y]. congruence.
      + intros u k r. destruct (Nat.eq_dec u t) as [->|N].
        * rewrite set_thread_same. cbn. intros [= <- _]. now rewrite set_holder_same.
        * rewrite set_thread_other by exact N. intros Y. pose proof (R _ _ _ Y) as Hk. rewrite set_holder_other; [exact Hk|]. congruence.
      + intros k u. specialize (P k u). unfold order'. destruct (Nat.eq_dec u t) as [->|N].
        * rewrite set_thread_same. cbn [todo]. rewrite T in P. rewrite <- P. cbn [expected filter]. fold (expected setting k calls).
          unfold shown in V. change rank with last_setting in V. destruct (level_eqb k (c_level c)) eqn:K.
          -- apply level_eqb_eq in K as ->. rewrite of_thread_snoc, Nat.eqb_refl, level_eqb_refl, V. cbn. now rewrite <- app_assoc.
          -- destruct (level_eqb (c_level c) k) eqn:K'; [apply level_eqb_eq in K' as <-; now rewrite level_eqb_refl in K|]. reflexivity.
        * rewrite set_thread_other by exact N. destruct (level_eqb k (c_level c)); [|exact P]. rewrite of_thread_snoc.
          assert (Nat.eqb t u = false) as -> by (apply Nat.eqb_neq; congruence). now rewrite app_nil_r.
    - exists order, written. split; cbn [holder threads out err]; auto.
      + intros k. rewrite <- W. f_equal. unfold left_of. cbn [holder threads]. destruct (holder s k) as [u|] eqn:Hk; [|reflexivity].
        rewrite set_thread_other; [reflexivity|]. intros ->. destruct (H _ _ Hk) as [r Y]. congruence.
      + intros k u Hk. destruct (H _ _ Hk) as [r Y]. rewrite set_thread_other; [eauto|]. congruence.
      + intros u k r. destruct (Nat.eq_dec u t) as [->|N]; [rewrite set_thread_same; discriminate|]. rewrite set_thread_other by exact N. apply R.
      + intros k u. specialize (P k u). destruct (Nat.eq_dec u t) as [->|N]; [|rewrite set_thread_other by exact N; exact P].
        rewrite set_thread_same. cbn [todo]. rewrite T in P. rewrite <- P. unfold expected. cbn [filter]. unfold shown in V. change rank with last_setting in V.
        destruct (level_eqb (c_level c) k) eqn:K; [|reflexivity]. apply level_eqb_eq in K as <-. cbn [andb]. rewrite V. reflexivity.
  Qed.
  Lemma good_step s t : good s -> good (step setting s t).
  Proof.
    intros G. destruct (writing (threads s t)) as [[l [|c rest]]|] eqn:X.
    - eapply good_end; eauto.
    - eapply good_write; eauto.
    - destruct (todo (threads s t)) as [|c calls] eqn:T; [|eapply good_start; eauto]. unfold step. now rewrite X, T.
  Qed.
  Lemma good_run schedule : forall s, good s -> good (run_from setting s schedule).
  Proof. induction schedule as [|t schedule IH]; intros s G; [exact G|]. apply IH, good_step, G. Qed.
End machine.

(** At every moment of every schedule, what is on the output is the start of messages written
    one after the other, with the messages of each thread in its order. *)
Theorem C107_output_so_far : forall setting program schedule, exists order rest,
  out (run setting program schedule) ++ rest = whole order /\
  forall t, exists later, of_thread t order ++ later = expected setting Info (program t).
Proof.
  intros setting program schedule. destruct (good_run setting program schedule _ (good_init setting program)) as (order & written & [O E W H R P]).
  exists (order Info). eexists. split; [unfold run; rewrite O; apply W|]. intros t. eexists. apply P.
Qed.
Print Assumptions C107_output_so_far.
(** When all the threads have ended, the output is made of all their messages, each one whole,
    those of each thread in its order. *)
Theorem C107_output : forall setting program schedule, finished (run setting program schedule) -> exists order,
  out (run setting program schedule) = whole order /\ forall t, of_thread t order = expected setting Info (program t).
Proof.
  intros setting program schedule F. destruct (good_run setting program schedule _ (good_init setting program)) as (order & written & [O E W H R P]).
  fold (run setting program schedule) in *. exists (order Info). split.
  - rewrite O, <- W. unfold left_of. destruct (holder _ Info) as [t|] eqn:Hi; [|now rewrite app_nil_r].
    destruct (H _ _ Hi) as [r Y]. rewrite (F t) in Y. discriminate.
  - intros t. specialize (P Info t). rewrite (F t) in P. cbn in P. now rewrite app_nil_r in P.
Qed.
Print Assumptions C107_output.
(** The error output is made of the warnings, each one whole, and of the errors, each one
    whole, but the warnings and the errors can be mixed. *)
Theorem C107_error_output : forall setting program schedule, finished (run setting program schedule) -> exists warnings errors,
  shuffle (whole warnings) (whole errors) (err (run setting program schedule)) /\
  (forall t, of_thread t warnings = expected setting Warning (program t)) /\
  (forall t, of_thread t errors = expected setting Error (program t)).
Proof.
  intros setting program schedule F. destruct (good_run setting program schedule _ (good_init setting program)) as (order & written & [O E W H R P]).
  fold (run setting program schedule) in *. exists (order Warning), (order Error).
  assert (Q : forall l, written l = whole (order l)).
  { intros l. rewrite <- W. unfold left_of. destruct (holder _ l) as [t|] eqn:Hi; [|now rewrite app_nil_r].
    destruct (H _ _ Hi) as [r Y]. rewrite (F t) in Y. discriminate. }
  rewrite <- !Q. split; [exact E|]. split; intros t; [specialize (P Warning t)|specialize (P Error t)]; rewrite (F t) in P; cbn in P; now rewrite app_nil_r in P.
Qed.
Print Assumptions C107_error_output.
Lemma no_calls order : (forall t, of_thread t order = []) -> order = [].
Proof. destruct order as [|[t c] order]; [reflexivity|]. intros H. specialize (H t). unfold of_thread in H. cbn in H. now rewrite Nat.eqb_refl in H. Qed.
(** When the threads show no warning, or no error, each message is whole. *)
Theorem C107_one_kind : forall setting program schedule kind other,
  (kind = Error /\ other = Warning \/ kind = Warning /\ other = Error) -> finished (run setting program schedule) ->
  (forall t, expected setting other (program t) = []) -> exists order,
  err (run setting program schedule) = whole order /\ forall t, of_thread t order = expected setting kind (program t).
Proof.
  intros setting program schedule kind other K F N. destruct (C107_error_output setting program schedule F) as (ws & es & S & W & E).
  destruct K as [[-> ->]|[-> ->]].
  - exists es. split; [|exact E]. assert (ws = []) as -> by (apply no_calls; intros t; now rewrite W). now apply shuffle_only_right.
  - exists ws. split; [|exact W]. assert (es = []) as -> by (apply no_calls; intros t; now rewrite E). now apply shuffle_only_left.
Qed.
Print Assumptions C107_one_kind.

(** ** A warning and an error can be mixed *)
Definition a_warning : call := mkCall Warning "src/a.cpp" 3 5 "w".
Definition an_error : call := mkCall Error "src/b.cpp" 4 6 "e".
Definition two_threads (t : nat) : list call := match t with 0 => [a_warning] | 1 => [an_error] | _ => [] end.
Definition mixed_schedule : list nat := [0; 0] ++ repeat 1 (2 + List.length (text an_error)) ++ repeat 0 (List.length (text a_warning)).
Lemma finished_two s : threads s 0 = mkThread None [] -> threads s 1 = mkThread None [] -> (forall t, 2 <= t -> threads s t = mkThread None []) -> finished s.
Proof. intros A B C [|[|t]]; auto. apply C. lia. Qed.
Lemma idle_from setting n schedule : forall s, (forall t, n <= t -> threads s t = mkThread None []) -> forall t, n <= t -> threads (run_from setting s schedule) t = mkThread None [].
Proof.
  induction schedule as [|u schedule IH]; intros s I t T; [now apply I|]. apply IH; [|exact T]. clear t T. intros t T.
  unfold step. destruct (writing (threads s u)) as [[l [|c rest]]|] eqn:X.
  - cbn. rewrite set_thread_other; [now apply I|]. intros ->. now rewrite (I u T) in X.
  - destruct l; cbn; (rewrite set_thread_other; [now apply I|]); intros ->; now rewrite (I u T) in X.
  - destruct (todo (threads s u)) as [|c calls] eqn:Q; [now apply I|].
    assert (N : t <> u) by (intros ->; now rewrite (I u T) in Q).
    destruct (shown setting c); [destruct (holder s (c_level c)); [now apply I|]|]; cbn; (rewrite set_thread_other; [now apply I|exact N]).
Qed.
Theorem C107_mixed_refuted : exists program schedule, finished (run info_level program schedule) /\
  forall order, err (run info_level program schedule) <> whole order.
Proof.
  exists two_threads, mixed_schedule. split.
  - apply finished_two; [reflexivity|reflexivity|]. apply idle_from. now intros [|[|t]] T; try lia.
  - intros [|[t c] order] E.
    + apply (f_equal (@List.length ascii)) in E. vm_compute in E. discriminate.
    + apply (f_equal (fun l => nth 1 l newline)) in E.
      assert (X : nth 1 (whole ((t, c) :: order)) newline = "["%char) by (unfold whole, text, prefix; cbn; now destruct (c_level c)).
      assert (Y : nth 1 (err (run info_level two_threads mixed_schedule)) newline = escape) by reflexivity.
      rewrite X, Y in E. discriminate.
Qed.
Print Assumptions C107_mixed_refuted.

(** ** No thread waits forever *)
Definition weight (x : thread) : nat :=
  match writing x with Some (_, rest) => S (List.length rest) | None => 0 end + list_sum (map (fun c => 2 + List.length (text c)) (todo x)).
Definition weights (n : nat) (s : state) : nat := list_sum (map (fun t => weight (threads s t)) (seq 0 n)).
Lemma sum_less (f g : nat -> nat) l t : In t l -> (forall x, In x l -> g x <= f x) -> g t < f t -> list_sum (map g l) < list_sum (map f l).
Proof.
  induction l as [|a l IH]; intros I G L; [destruct I|]. cbn [map list_sum fold_right]. fold (list_sum (map g l)) (list_sum (map f l)).
  assert (Q : list_sum (map g l) <= list_sum (map f l)).
  { clear IH I L t. assert (H : forall x, In x l -> g x <= f x) by (intros; apply G; now right). clear G.
    induction l as [|b l IH]; [easy|]. cbn. pose proof (H b (or_introl eq_refl)). assert (forall x, In x l -> g x <= f x) by (intros; apply H; now right).
    specialize (IH H1). unfold list_sum in *. lia. }
  destruct I as [->|I].
  - unfold list_sum in *. cbn. lia.
  - specialize (IH I (fun x X => G x (or_intror X)) L). pose proof (G a (or_introl eq_refl)). unfold list_sum in *. cbn. lia.
Qed.
Lemma weight_step setting s t x : threads (step setting s t) = set_thread (threads s) t x -> weight x < weight (threads s t) ->
  forall n, t < n -> weights n (step setting s t) < weights n s.
Proof.
  intros E L n T. unfold weights. apply (sum_less _ _ _ t).
  - apply in_seq. lia.
  - intros u _. rewrite E. destruct (Nat.eq_dec u t) as [->|N]; [rewrite set_thread_same; lia|now rewrite set_thread_other].
  - now rewrite E, set_thread_same.
Qed.
Lemma can_step setting program s n : good setting program s -> (forall t, n <= t -> threads s t = mkThread None []) -> ~ finished s ->
  exists t, t < n /\ weights n (step setting s t) < weights n s.
Proof.
  intros G I N.
  destruct (existsb (fun t => match writing (threads s t) with Some _ => true | None => false end) (seq 0 n)) eqn:B.
  - apply existsb_exists in B as (t & T & X). apply in_seq in T. exists t. split; [lia|].
    destruct (writing (threads s t)) as [[l [|c rest]]|] eqn:Y; [| |discriminate].
    + apply (weight_step setting s t (mkThread None (todo (threads s t)))); [unfold step; now rewrite Y| |lia].
      unfold weight. rewrite Y. cbn [writing todo List.length]. lia.
    + apply (weight_step setting s t (mkThread (Some (l, rest)) (todo (threads s t)))); [unfold step; rewrite Y; now destruct l| |lia].
      unfold weight. rewrite Y. cbn [writing todo List.length]. lia.
  - assert (W : forall t, writing (threads s t) = None).
    { intros t. destruct (le_lt_dec n t) as [T|T]; [now rewrite (I t T)|]. destruct (writing (threads s t)) eqn:Y; [|reflexivity].
      exfalso. assert (X : existsb (fun t => match writing (threads s t) with Some _ => true | None => false end) (seq 0 n) = true); [|congruence].
      apply existsb_exists. exists t. split; [apply in_seq; lia|]. now rewrite Y. }
    destruct (existsb (fun t => match todo (threads s t) with [] => false | _ => true end) (seq 0 n)) eqn:C.
    + apply existsb_exists in C as (t & T & X). apply in_seq in T. exists t. split; [lia|].
      destruct (todo (threads s t)) as [|c calls] eqn:Y; [discriminate|].
      assert (H : holder s (c_level c) = None).
      { destruct (holder s (c_level c)) as [h|] eqn:Hc; [|reflexivity]. destruct G as (order & written & [_ _ _ H _ _]).
        destruct (H _ _ Hc) as [r Z]. now rewrite W in Z. }
      destruct (shown setting c) eqn:V.
      * apply (weight_step setting s t (mkThread (Some (c_level c, text c)) calls)); [unfold step; rewrite W, Y, V, H; reflexivity| |lia].
        unfold weight. rewrite W, Y. cbn [writing todo map]. unfold list_sum. cbn [fold_right]. lia.
      * apply (weight_step setting s t (mkThread None calls)); [unfold step; rewrite W, Y, V; reflexivity| |lia].
        unfold weight. rewrite W, Y. cbn [writing todo map]. unfold list_sum. cbn [fold_right]. lia.
    + exfalso. apply N. intros t. destruct (threads s t) as [w l] eqn:E. pose proof (W t) as Wt. rewrite E in Wt. cbn in Wt. subst w. f_equal.
      destruct (le_lt_dec n t) as [T|T]; [specialize (I t T); congruence|]. destruct l as [|c l]; [reflexivity|]. exfalso.
      assert (X : existsb (fun t => match todo (threads s t) with [] => false | _ => true end) (seq 0 n) = true); [|congruence].
      apply existsb_exists. exists t. split; [apply in_seq; lia|]. now rewrite E.
Qed.
(** After every schedule of any number of threads, all the threads can end their calls: a
    thread that waits never waits for one that waits. *)
Theorem C107_no_deadlock : forall setting program n schedule, (forall t, n <= t -> program t = []) ->
  exists more, finished (run setting program (schedule ++ more)).
Proof.
  intros setting program n schedule I. unfold run, run_from. setoid_rewrite fold_left_app.
  fold (run_from setting (init program) schedule). pose proof (good_run setting program schedule _ (good_init setting program)) as G.
  assert (J : forall t, n <= t -> threads (run_from setting (init program) schedule) t = mkThread None []).
  { apply idle_from. intros t T. cbn. now rewrite I. }
  revert G J. generalize (run_from setting (init program) schedule) as s. intros s. remember (weights n s) as k eqn:K. revert s K.
  induction k as [k IH] using lt_wf_ind. intros s K G J.
  destruct (existsb (fun t => match threads s t with mkThread None [] => false | _ => true end) (seq 0 n)) eqn:B.
  - assert (N : ~ finished s). { intros F. apply existsb_exists in B as (t & _ & X). now rewrite (F t) in X. }
    destruct (can_step setting program s n G J N) as (t & T & L).
    destruct (IH _ ltac:(rewrite K; exact L) (step setting s t) eq_refl) as [more F].
    + now apply good_step.
    + apply (idle_from setting n [t] s J).
    + exists (t :: more). exact F.
  - exists []. intros t. cbn. destruct (le_lt_dec n t) as [T|T]; [now apply J|]. destruct (threads s t) as [[w|] [|c l]] eqn:E; try reflexivity; exfalso;
    (assert (X : existsb (fun t => match threads s t with mkThread None [] => false | _ => true end) (seq 0 n) = true); [|congruence]);
    apply existsb_exists; exists t; (split; [apply in_seq; lia|]); now rewrite E.
Qed.
Print Assumptions C107_no_deadlock.

(** ** The text *)
Lemma filename_from_app dir name acc : ~ In "/"%char name -> filename_from (dir ++ "/"%char :: name) acc = name.
Proof.
  intros N. assert (F : forall l a, ~ In "/"%char l -> filename_from l a = rev a ++ l).
  { induction l as [|c l IH]; intros a M; cbn; [now rewrite app_nil_r|]. destruct (Ascii.eqb_spec c "/"); [subst; exfalso; apply M; now left|].
    rewrite IH by (intros Z; apply M; now right). cbn. now rewrite <- app_assoc. }
  revert acc. induction dir as [|c dir IH]; intros acc; cbn [app filename_from].
  - rewrite Ascii.eqb_refl, F by exact N. reflexivity.
  - destruct (Ascii.eqb c "/"); apply IH.
Qed.
Lemma chars_app a b : chars (a ++ b) = chars a ++ chars b.
Proof. unfold chars. induction a; cbn; [reflexivity|]. now rewrite IHa. Qed.
(** For every message: its color, its kind, the name of the file without its directories, the
    line and the column, and the message, then the color is reset and the line ended. *)
Theorem C107_text : forall level dir name line column message, ~ In "/"%char (chars name) ->
  text (mkCall level (dir ++ "/" ++ name) line column message) =
  chars (match level with
         | Info => String escape "[34m[INF] "
         | Warning => String escape "[33m[WARN] "
         | Error => String escape "[31m[ERR] "
         end ++ name ++ "(" ++ NilEmpty.string_of_uint (N.to_uint line) ++ ":" ++ NilEmpty.string_of_uint (N.to_uint column) ++ ") " ++
         message ++ String escape ("[0m" ++ String newline ""))%string.
Proof.
  intros l dir name line column message N. unfold text. cbn [c_level c_file c_line c_column c_message]. unfold filename.
  rewrite !chars_app. change (chars dir ++ chars "/" ++ chars name) with (chars dir ++ "/"%char :: chars name).
  rewrite filename_from_app by exact N. destruct l; reflexivity.
Qed.
Print Assumptions C107_text.
(** With the level of the code every message is shown. *)
Theorem C107_all_shown : forall l calls, expected info_level l calls = filter (fun c => level_eqb (c_level c) l) calls.
Proof.
  intros l calls. unfold expected. apply filter_ext. intros c. destruct l; cbn; now rewrite andb_true_r.
Qed.
Print Assumptions C107_all_shown.
(** Two threads, one message each: they are written one after the other. *)
Example C107_example :
  let calls t := match t with 0 => [mkCall Info "src/a.cpp" 3 5 "w"] | 1 => [mkCall Info "src/b.cpp" 12 1 "e"] | _ => [] end in
  let s := run info_level calls (repeat 0 3 ++ repeat 1 3 ++ repeat 0 40 ++ repeat 1 40) in
  finished s /\ out s = text (mkCall Info "src/a.cpp" 3 5 "w") ++ text (mkCall Info "src/b.cpp" 12 1 "e").
Proof.
  cbv zeta. split; [|reflexivity]. apply finished_two; [reflexivity|reflexivity|]. apply idle_from. now intros [|[|t]] T; try lia.
Qed.

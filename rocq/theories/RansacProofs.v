(** Lemmas on the concurrent RANSAC loop: invariant, progress. *)
From Coq Require Import ZifyBool ZifyNat.
From Verif Require Import PoseOptModel PoseOptProofs.
Local Open Scope nat_scope.

Section Ransac.
Context {F P : Type}.
Variable kind : F -> fkind.
Variable inlier : P -> F -> option bool.
Variable finite : P -> bool.
Variable lm : P -> list F -> option P.
Variable current : P.
Variable matched : list F.
Variable shuffled : nat -> list F.
Variable stop iterations : nat.
Notation rstate := (rstate F P).
Notation candidate := (candidate F P).
Notation ist := (ist F P).
Notation eval := (evaluate kind inlier finite lm current matched shuffled).
Notation step := (r_step kind inlier finite lm current matched shuffled stop).
Notation run := (r_run kind inlier finite lm current matched shuffled stop).
Notation init := (r_init current).
Implicit Types (s : rstate) (c : candidate) (i j : nat).

(** the iteration holds the lock *)
Definition holding (x : ist) : Prop :=
  match x with IHold0 _ | IHold1 _ | IHold2 _ | IHold3 _ | IHold4 => True | _ => False end.
Definition cand_of (x : ist) : option candidate :=
  match x with
  | IHave c | IHave2 c | ICount c | IWant c | IHold0 c | IHold1 c | IHold2 c | IHold3 c => Some c
  | _ => None end.

(** the shared result is the one of candidate [c] *)
Definition is_best s c : Prop := r_max s = c_score c /\ r_pose s = c_pose c /\ r_in s = c_in c /\ r_out s = c_out c.
Definition consistent s : Prop :=
  (r_max s = done /\ r_pose s = current /\ r_in s = [] /\ r_out s = []) \/
  exists i c, i < iterations /\ eval i = Some (Some c) /\ is_best s c.

Definition mid s (x : ist) : Prop :=
  match x with
  | IHold0 c => True
  | IHold1 c => r_max s = c_score c
  | IHold2 c => r_max s = c_score c /\ r_pose s = c_pose c
  | IHold3 c => r_max s = c_score c /\ r_pose s = c_pose c /\ r_in s = c_in c
  | IHold4 => consistent s
  | _ => False
  end.

Record inv s : Prop := mkInv {
  i_cand : forall i c, cand_of (r_it s i) = Some c -> i < iterations /\ eval i = Some (Some c);
  i_lock : forall i, holding (r_it s i) <-> r_lock s = Some i;
  i_free : r_lock s = None -> consistent s;
  i_held : forall i, r_lock s = Some i -> mid s (r_it s i);
  i_out : forall i, iterations <= i -> r_it s i = IStart
}.

Lemma inv_init : inv init.
Proof.
  constructor; cbn; try discriminate; auto.
  - intros i. split; [intros []|discriminate].
  - intros _. left. auto.
Qed.

Lemma upd_same (f : nat -> ist) i x : upd f i x i = x.
Proof. unfold upd. now rewrite Nat.eqb_refl. Qed.
Lemma upd_other (f : nat -> ist) i x j : j <> i -> upd f i x j = f j.
Proof. intros H. unfold upd. destruct (Nat.eqb_spec j i); congruence. Qed.

Lemma consistent_ext s s' :
  r_max s' = r_max s -> r_pose s' = r_pose s -> r_in s' = r_in s -> r_out s' = r_out s -> consistent s -> consistent s'.
Proof. unfold consistent, is_best. intros -> -> -> ->. auto. Qed.
Lemma mid_ext s s' x :
  r_max s' = r_max s -> r_pose s' = r_pose s -> r_in s' = r_in s -> r_out s' = r_out s -> mid s x -> mid s' x.
Proof.
  intros A B C D. destruct x; cbn; try rewrite A, B, C; try rewrite A, B; try rewrite A; auto.
  now apply consistent_ext.
Qed.

(** moves of an iteration that neither takes nor holds the lock *)
Lemma inv_goto s i x :
  i < iterations -> inv s -> ~ holding (r_it s i) -> ~ holding x ->
  (forall c, cand_of x = Some c -> i < iterations /\ eval i = Some (Some c)) -> inv (goto i x s).
Proof.
  intros Hlt I Hi Hx Hc. constructor; unfold goto; cbn.
  - intros j c. destruct (Nat.eq_dec j i) as [->|N]; [rewrite upd_same; auto|rewrite upd_other by auto; apply (i_cand _ I)].
  - intros j. destruct (Nat.eq_dec j i) as [->|N].
    + rewrite upd_same. rewrite <- (i_lock _ I i). tauto.
    + rewrite upd_other by auto. apply (i_lock _ I).
  - intros L. eapply consistent_ext; [..|exact (i_free _ I L)]; reflexivity.
  - intros j L. assert (j <> i) by (intros ->; apply Hi; now apply (i_lock _ I)).
    rewrite upd_other by auto. eapply mid_ext; [..|exact (i_held _ I j L)]; reflexivity.
  - intros j Hj. rewrite upd_other by lia. now apply (i_out _ I).
Qed.

(** moves of the holder that keeps the lock *)
Lemma inv_hold s s' i x :
  i < iterations -> inv s -> holding (r_it s i) -> holding x ->
  (forall c, cand_of x = Some c -> cand_of (r_it s i) = Some c) ->
  r_lock s' = r_lock s -> r_it s' = upd (r_it s) i x -> mid s' x -> inv s'.
Proof.
  intros Hlt I Hi Hx Hc El Ei Hm. assert (L := proj1 (i_lock _ I i) Hi). constructor.
  - rewrite Ei. intros j c. destruct (Nat.eq_dec j i) as [->|N]; [rewrite upd_same; intros X; apply (i_cand _ I), Hc, X|rewrite upd_other by auto; apply (i_cand _ I)].
  - rewrite Ei, El. intros j. destruct (Nat.eq_dec j i) as [->|N].
    + rewrite upd_same. tauto.
    + rewrite upd_other by auto. apply (i_lock _ I).
  - rewrite El. congruence.
  - rewrite El, Ei. intros j Lj. assert (j = i) by congruence. subst. now rewrite upd_same.
  - rewrite Ei. intros j Hj. rewrite upd_other by lia. now apply (i_out _ I).
Qed.

Lemma inv_step s i : i < iterations -> inv s -> inv (step i s).
Proof.
  intros Hi I. unfold r_step. destruct (r_dead s); [exact I|].
  pose proof (i_cand _ I i) as Ci. pose proof (i_lock _ I i) as Li. pose proof (i_held _ I i) as Mi.
  destruct (r_it s i) as [|c|c|c|c|c|c|c|c| | | |] eqn:E.
  - destruct (r_quit s); [apply inv_goto; auto; rewrite ?E; cbn; auto; discriminate|].
    destruct (eval i) as [[c|]|] eqn:Ev.
    + apply inv_goto; auto; rewrite ?E; cbn; auto. intros c' X. injection X as <-. auto.
    + apply inv_goto; auto; rewrite ?E; cbn; auto. discriminate.
    + destruct I. constructor; cbn; auto.
  - destruct (dlt _ _); apply inv_goto; auto; rewrite ?E; cbn; auto.
  - destruct (close_to _ _); apply inv_goto; auto; rewrite ?E; cbn; auto; discriminate.
  - destruct (Nat.ltb _ _); apply inv_goto; auto; rewrite ?E; cbn; auto; discriminate.
  - destruct (r_lock s) as [j|] eqn:L; [exact I|].
    constructor; cbn.
    + intros j c'. destruct (Nat.eq_dec j i) as [->|N]; [rewrite upd_same; apply Ci|rewrite upd_other by auto; apply (i_cand _ I)].
    + intros j. destruct (Nat.eq_dec j i) as [->|N]; [rewrite upd_same; cbn; tauto|].
      rewrite upd_other by auto. rewrite (i_lock _ I), L. split; [discriminate|congruence].
    + discriminate.
    + intros j X. injection X as <-. rewrite upd_same. exact Logic.I.
    + intros j Hj. rewrite upd_other by lia. now apply (i_out _ I).
  - eapply inv_hold with (i := i) (x := IHold1 c); eauto; rewrite ?E; cbn; auto.
  - eapply inv_hold with (i := i) (x := IHold2 c); eauto; rewrite ?E; cbn; auto.
    split; auto. apply Mi. apply Li. cbn; auto.
  - eapply inv_hold with (i := i) (x := IHold3 c); eauto; rewrite ?E; cbn; auto.
    split; [|split]; auto; apply Mi; apply Li; cbn; auto.
  - eapply inv_hold with (i := i) (x := IHold4); eauto; rewrite ?E; cbn; auto; try discriminate.
    right. exists i, c. destruct (Ci c eq_refl). split; auto. split; auto.
    unfold is_best. cbn. destruct (Mi (proj1 Li Logic.I)) as (A & B & C). auto.
  - assert (L := proj1 Li Logic.I). constructor; cbn.
    + intros j c'. destruct (Nat.eq_dec j i) as [->|N]; [rewrite upd_same; discriminate|rewrite upd_other by auto; apply (i_cand _ I)].
    + intros j. destruct (Nat.eq_dec j i) as [->|N]; [rewrite upd_same; cbn; split; [tauto|discriminate]|].
      rewrite upd_other by auto. rewrite (i_lock _ I), L. split; [congruence|discriminate].
    + intros _. eapply consistent_ext; [..|exact (Mi L)]; reflexivity.
    + discriminate.
    + intros j Hj. rewrite upd_other by lia. now apply (i_out _ I).
  - destruct (_ && _); apply inv_goto; auto; rewrite ?E; cbn; auto; discriminate.
  - apply (inv_goto s i IDone Hi) in I; [|rewrite E; cbn; auto|cbn; auto|cbn; discriminate].
    destruct I. constructor; auto.
  - exact I.
Qed.

Lemma run_cons i sch s : run (i :: sch) s = run sch (step i s).
Proof. reflexivity. Qed.
Lemma run_app a b s : run (a ++ b) s = run b (run a s).
Proof. unfold r_run. apply fold_left_app. Qed.

Lemma inv_run schedule s : (forall i, In i schedule -> i < iterations) -> inv s -> inv (run schedule s).
Proof.
  revert s. induction schedule as [|i sch IH]; intros s B I; [exact I|]. rewrite run_cons.
  apply IH; [intros; apply B; now right|]. apply inv_step; auto. apply B. now left.
Qed.

Lemma done_consistent schedule :
  (forall i, In i schedule -> i < iterations) ->
  all_done iterations (run schedule init) = true -> consistent (run schedule init).
Proof.
  intros B D. assert (I := inv_run schedule init B inv_init). apply (i_free _ I).
  destruct (r_lock (run schedule init)) as [j|] eqn:L; auto. exfalso.
  assert (Hj := proj2 (i_lock _ I j) L).
  unfold all_done in D. rewrite forallb_forall in D.
  destruct (Nat.lt_ge_cases j iterations) as [X|X].
  - specialize (D j ltac:(apply in_seq; lia)). destruct (r_it (run schedule init) j); cbn in *; tauto || discriminate.
  - rewrite (i_out _ I j X) in Hj. exact Hj.
Qed.

(** ** The program is not ended by an iteration *)
Lemma dead_run schedule s : (forall i, In i schedule -> i < iterations) ->
  (forall i, i < iterations -> eval i <> None) -> r_dead s = false -> r_dead (run schedule s) = false.
Proof.
  intros B E. revert s. induction schedule as [|i sch IH]; intros s D; [exact D|]. rewrite run_cons.
  apply IH; [intros; apply B; now right|]. assert (Ei := E i (B i (or_introl eq_refl))).
  unfold r_step. rewrite D. destruct (r_it s i); auto; try (destruct (eval i) as [[|]|]; [| |congruence]);
    repeat (match goal with |- context [match ?x with _ => _ end] => destruct x end); auto.
Qed.

(** ** Progress *)
Definition togo (x : ist) : nat :=
  match x with
  | IStart => 12 | IHave _ => 11 | IHave2 _ => 10 | ICount _ => 9 | IWant _ => 8 | IHold0 _ => 7 | IHold1 _ => 6
  | IHold2 _ => 5 | IHold3 _ => 4 | IHold4 => 3 | ITail => 2 | IStop => 1 | IDone => 0
  end.
Definition total s : nat := list_sum (map (fun i => togo (r_it s i)) (seq 0 iterations)).

Lemma list_sum_upd (f g : nat -> nat) a n i : a <= i < a + n -> (forall j, j <> i -> g j = f j) ->
  list_sum (map g (seq a n)) + f i = list_sum (map f (seq a n)) + g i.
Proof.
  revert a. induction n as [|n IH]; intros a H Hg; [lia|]. cbn [seq map list_sum fold_right].
  change (fold_right Nat.add 0) with list_sum.
  destruct (Nat.eq_dec a i) as [->|N].
  - assert (E : map g (seq (S i) n) = map f (seq (S i) n)) by (apply map_ext_in; intros j Hj; apply in_seq in Hj; apply Hg; lia).
    rewrite E. lia.
  - specialize (IH (S a) ltac:(lia) Hg). rewrite (Hg a N). lia.
Qed.

Lemma total_upd s s' i x : i < iterations -> r_it s' = upd (r_it s) i x -> total s' + togo (r_it s i) = total s + togo x.
Proof.
  intros Hi E. unfold total. rewrite E.
  pose proof (list_sum_upd (fun j => togo (r_it s j)) (fun j => togo (upd (r_it s) i x j)) 0 iterations i ltac:(lia)) as H.
  cbn beta in H. rewrite upd_same in H. apply H. intros j N. now rewrite upd_other.
Qed.

(** a step ends the program, does nothing, or shortens the work *)
Lemma step_progress s i : i < iterations ->
  r_dead (step i s) = true \/ (step i s = s /\ (r_it s i = IDone \/ (exists c, r_it s i = IWant c) /\ exists j, r_lock s = Some j)) \/
  total (step i s) < total s.
Proof.
  intros Hi. unfold r_step. destruct (r_dead s) eqn:D; [auto|].
  assert (G : forall s' x, r_it s' = upd (r_it s) i x -> togo x < togo (r_it s i) -> total s' < total s).
  { intros s' x E T. pose proof (total_upd s s' i x Hi E). lia. }
  destruct (r_it s i) as [|c|c|c|c|c|c|c|c| | | |] eqn:E.
  - destruct (r_quit s); [right; right; eapply G; [reflexivity|cbn; lia]|].
    destruct (eval i) as [[c|]|]; [right; right; eapply G; [reflexivity|cbn; lia]..|left; reflexivity].
  - destruct (dlt _ _); right; right; (eapply G; [reflexivity|cbn; lia]).
  - destruct (close_to _ _); right; right; (eapply G; [reflexivity|cbn; lia]).
  - destruct (Nat.ltb _ _); right; right; (eapply G; [reflexivity|cbn; lia]).
  - destruct (r_lock s) as [j|]; [right; left; split; eauto|right; right; eapply G; [reflexivity|cbn; lia]].
  - right; right; eapply G; [reflexivity|cbn; lia].
  - right; right; eapply G; [reflexivity|cbn; lia].
  - right; right; eapply G; [reflexivity|cbn; lia].
  - right; right; eapply G; [reflexivity|cbn; lia].
  - right; right; eapply G; [reflexivity|cbn; lia].
  - destruct (_ && _); right; right; (eapply G; [reflexivity|cbn; lia]).
  - right; right; eapply G; [reflexivity|cbn; lia].
  - right; left. auto.
Qed.

Lemma dead_step s i : r_dead s = true -> step i s = s.
Proof. intros D. unfold r_step. now rewrite D. Qed.
Lemma dead_stays sch s : r_dead s = true -> run sch s = s.
Proof. revert s. induction sch as [|i sch IH]; intros s D; [reflexivity|]. rewrite run_cons, dead_step by auto. now apply IH. Qed.

Lemma run_decreases sch s : (forall i, In i sch -> i < iterations) ->
  r_dead (run sch s) = true \/ run sch s = s \/ total (run sch s) < total s.
Proof.
  revert s. induction sch as [|i sch IH]; intros s B; [now auto|]. rewrite run_cons.
  assert (B' : forall i, In i sch -> i < iterations) by (intros; apply B; now right).
  destruct (step_progress s i (B i (or_introl eq_refl))) as [D|[[-> _]|L]].
  - left. rewrite dead_stays; auto.
  - apply IH; auto.
  - destruct (IH (step i s) B') as [D|[->|M]]; auto. right. right. lia.
Qed.

Lemma all_done_iff s : all_done iterations s = true <-> forall i, i < iterations -> r_it s i = IDone.
Proof.
  unfold all_done. rewrite forallb_forall. split.
  - intros H i Hi. specialize (H i ltac:(apply in_seq; lia)). destruct (r_it s i); cbn in H; congruence.
  - intros H i I. apply in_seq in I. rewrite H by lia. reflexivity.
Qed.

(** in one round where every iteration has a turn, something happens *)
Lemma round_progress sch s : (forall i, In i sch -> i < iterations) -> (forall i, i < iterations -> In i sch) ->
  inv s -> all_done iterations s = false -> r_dead (run sch s) = true \/ total (run sch s) < total s.
Proof.
  intros B Cov I ND.
  assert (J : exists j, j < iterations /\ r_it s j <> IDone /\ (forall k, r_lock s = Some k -> k = j)).
  { destruct (r_lock s) as [k|] eqn:L.
    - assert (Hk := proj2 (i_lock _ I k) L). exists k. split; [|split].
      + destruct (Nat.lt_ge_cases k iterations) as [X|X]; auto. exfalso.
        rewrite (i_out _ I k X) in Hk. exact Hk.
      + intros E. rewrite E in Hk. exact Hk.
      + congruence.
    - assert (X : exists j, j < iterations /\ r_it s j <> IDone).
      { unfold all_done in ND. apply not_true_iff_false in ND. rewrite forallb_forall in ND.
        destruct (existsb (fun j => negb (is_done (r_it s j))) (seq 0 iterations)) eqn:Ex.
        - apply existsb_exists in Ex. destruct Ex as (j & Ij & Hj). apply in_seq in Ij. exists j. split; [lia|]. intros E. rewrite E in Hj. discriminate.
        - exfalso. apply ND. intros j Ij. apply not_false_is_true. intros Hj.
          assert (Y : existsb (fun j => negb (is_done (r_it s j))) (seq 0 iterations) = true) by (apply existsb_exists; exists j; rewrite Hj; auto).
          congruence. }
      destruct X as (j & Hj & Nj). exists j. split; auto. split; auto. congruence. }
  destruct J as (j & Hj & Nj & Lj).
  destruct (in_split j sch (Cov j Hj)) as (pre & post & ->).
  assert (Bp : forall i, In i pre -> i < iterations) by (intros; apply B; apply in_or_app; auto).
  assert (Bq : forall i, In i post -> i < iterations) by (intros; apply B; apply in_or_app; right; now right).
  rewrite run_app, run_cons.
  destruct (run_decreases pre s Bp) as [D|[E|L]].
  - left. rewrite dead_step by auto. rewrite dead_stays; auto.
  - rewrite E. destruct (step_progress s j Hj) as [D|[[_ X]|L]].
    + left. rewrite dead_stays; auto.
    + exfalso. destruct X as [X|[(c & X) (k & Lk)]]; [tauto|].
      assert (Ek := Lj k Lk). subst k. assert (Hk := proj2 (i_lock _ I j) Lk). rewrite X in Hk. exact Hk.
    + destruct (run_decreases post (step j s) Bq) as [D|[->|M]]; auto. right. lia.
  - destruct (step_progress (run pre s) j Hj) as [D|[[-> _]|M]].
    + left. rewrite dead_stays; auto.
    + destruct (run_decreases post (run pre s) Bq) as [D|[->|M]]; auto. right. lia.
    + destruct (run_decreases post (step j (run pre s)) Bq) as [D|[->|M']]; auto; right; lia.
Qed.

Lemma total_le s : total s <= 12 * iterations.
Proof.
  unfold total. rewrite <- (seq_length iterations 0) at 2. induction (seq 0 iterations) as [|i l IH]; cbn [map list_sum fold_right length]; [lia|].
  change (fold_right Nat.add 0) with list_sum. assert (togo (r_it s i) <= 12) by (destruct (r_it s i); cbn; lia). lia.
Qed.

Lemma done_stays sch s : (forall i, In i sch -> i < iterations) -> all_done iterations s = true -> run sch s = s.
Proof.
  intros B D. revert B. induction sch as [|i sch IH]; intros B; [reflexivity|]. rewrite run_cons.
  assert (E : step i s = s).
  { unfold r_step. rewrite (proj1 (all_done_iff s) D i (B i (or_introl eq_refl))). now destruct (r_dead s). }
  rewrite E. apply IH. intros; apply B; now right.
Qed.

(** enough rounds: everything is done *)
Lemma rounds_end (rounds : list (list nat)) s :
  (forall r, In r rounds -> (forall i, In i r -> i < iterations) /\ (forall i, i < iterations -> In i r)) ->
  inv s -> total s <= length rounds ->
  r_dead (run (concat rounds) s) = true \/ all_done iterations (run (concat rounds) s) = true.
Proof.
  revert s. induction rounds as [|r rounds IH]; intros s R I T; cbn [concat].
  - right. cbn. apply all_done_iff. intros i Hi. cbn in T. assert (T0 : total s = 0) by lia. unfold total in T0.
    assert (X : forall l : list nat, list_sum (map (fun i => togo (r_it s i)) l) = 0 -> In i l -> togo (r_it s i) = 0).
    { clear. induction l as [|a l IH]; cbn; [tauto|]. change (fold_right Nat.add 0) with list_sum. intros H [->|J]; [lia|apply IH; [lia|exact J]]. }
    specialize (X _ T0 ltac:(apply in_seq; lia)). destruct (r_it s i); cbn in X; discriminate || reflexivity.
  - destruct (R r (or_introl eq_refl)) as [B C]. cbn [length] in T.
    assert (E : run (r ++ concat rounds) s = run (concat rounds) (run r s)) by apply run_app.
    rewrite E. assert (Bc : forall i, In i (concat rounds) -> i < iterations).
    { intros i Hi. apply in_concat in Hi. destruct Hi as (r' & X & Y). destruct (R r' (or_intror X)) as [B' _]. auto. }
    destruct (all_done iterations s) eqn:D.
    + right. rewrite (done_stays r s B D), (done_stays (concat rounds) s Bc D). exact D.
    + destruct (round_progress r s B C I D) as [X|X].
      * left. rewrite dead_stays; auto.
      * apply IH; [intros; apply R; now right|now apply inv_run|lia].
Qed.
End Ransac.

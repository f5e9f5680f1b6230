(** Random subsets with repetitions (C106). *)
From Verif Require Import DrawSpec OptFeatureProps.
From Coq Require Import List ZArith Reals Lra Lia Arith ZifyNat.
From Flocq Require Import Core.
Import ListNotations.
Local Open Scope R_scope.

Section draws.
  Context {A : Type}.
  Variable container : list A.
  Hypothesis small : (Z.of_nat (length container) <= 2 ^ 32)%Z.
  Lemma picked_in draws step : container <> [] -> is_draw (draws step) -> exists x, picked container draws step = Some x /\ In x container.
  Proof.
    intros N D. assert (P : (0 < Z.of_nat (length container))%Z) by (destruct container; [easy|cbn; lia]).
    assert (E : picked container draws step = nth_error container (Z.to_nat (random_uint (draws step) 0 (Z.of_nat (length container)))))
      by (unfold picked; destruct container; easy). rewrite E.
    pose proof (C83_in_range (draws step) 0 (Z.of_nat (length container)) D ltac:(lia) small) as B.
    destruct (nth_error container (Z.to_nat (random_uint (draws step) 0 (Z.of_nat (length container))))) as [x|] eqn:X.
    - exists x. split; [reflexivity|]. now apply nth_error_In in X.
    - apply nth_error_None in X. lia.
  Qed.
  Lemma picked_any x : In x container -> exists d, is_draw d /\ forall draws step, draws step = d -> picked container draws step = Some x.
  Proof.
    intros X. apply In_nth_error in X as [i X]. assert (I : (i < length container)%nat) by (apply nth_error_Some; congruence).
    destruct (C83_all_reached 0 (Z.of_nat (length container)) (Z.of_nat i) ltac:(lia) small ltac:(lia)) as (d & D & E).
    exists d. split; [exact D|]. intros draws step Q. unfold picked. rewrite Q, E, Nat2Z.id. destruct container; [now destruct i|exact X].
  Qed.
  (** one draw per element *)
  Lemma draws_for l : incl l container -> exists draws, (forall i, is_draw (draws i)) /\
    forall i x, nth_error l i = Some x -> picked container draws i = Some x.
  Proof.
    induction l as [|a l IH]; intros I.
    - exists (fun _ => 0). split; [|intros [|i]; discriminate].
      intros _. split; [|lra]. symmetry. apply rounded_format. apply generic_format_0.
    - destruct IH as (ds & D & E); [intros y Y; apply I; now right|]. destruct (picked_any a) as (d & D' & E'); [apply I; now left|].
      exists (fun i => match i with O => d | S i => ds i end). split; [now intros [|i]|].
      intros [|i] x X; cbn in X; [injection X as <-; now apply E'|]. specialize (E i x X). unfold picked in *. exact E.
  Qed.
  Lemma pick_more_ok draws missing : container <> [] -> (forall i, is_draw (draws i)) -> forall step out, incl out container ->
    exists l, pick_more container draws missing step out = Subset l /\ length l = (missing + length out)%nat /\ incl l container.
  Proof.
    intros N D. induction missing as [|m IH]; intros step out I; cbn [pick_more].
    - exists out. auto.
    - destruct (picked_in draws step N (D step)) as (x & -> & X). destruct (IH (S step) (x :: out)) as (l & E & L & J).
      + intros y [<-|Y]; auto.
      + exists l. rewrite E, L. cbn. repeat split; auto. lia.
  Qed.
  Lemma pick_more_exact draws : forall l step out, (forall i x, nth_error l i = Some x -> picked container draws (step + i) = Some x) ->
    pick_more container draws (length l) step out = Subset (rev l ++ out).
  Proof.
    induction l as [|a l IH]; intros step out H; cbn [pick_more length rev app]; [reflexivity|].
    pose proof (H O a eq_refl) as P. rewrite Nat.add_0_r in P. rewrite P.
    rewrite IH; [now rewrite <- app_assoc|]. intros i x X. rewrite <- (H (S i) x X). f_equal. lia.
  Qed.
End draws.
(** For every container and every draws: when more elements than the container has are asked,
    an exception is thrown; else the results are the lists of that number of elements of the
    container, and all of them are possible. *)
Theorem C106_count : forall A (container : list A) count, (Z.of_nat (length container) <= 2 ^ 32)%Z ->
  ((length container < count)%nat -> forall draws, subset_with_duplicates container draws count = TooMany) /\
  ((count <= length container)%nat ->
   (forall draws, (forall i, is_draw (draws i)) -> exists l, subset_with_duplicates container draws count = Subset l) /\
   forall l, (exists draws, (forall i, is_draw (draws i)) /\ subset_with_duplicates container draws count = Subset l) <->
             length l = count /\ incl l container).
Proof.
  intros A container count S. unfold subset_with_duplicates. split.
  - intros C draws. apply Nat.ltb_lt in C. now rewrite C.
  - intros C. assert (E : Nat.ltb (length container) count = false) by now apply Nat.ltb_ge. rewrite E.
    assert (T : forall draws, (forall i, is_draw (draws i)) -> exists l, pick_more container draws count 0 [] = Subset l /\ length l = count /\ incl l container).
    { intros draws D. destruct container as [|a c] eqn:K.
      - cbn in C. assert (count = O) as -> by lia. exists []. repeat split. intros x [].
      - rewrite <- K in *. destruct (pick_more_ok container S draws count) with (step := O) (out := @nil A) as (l & P & L & I); auto.
        + now rewrite K.
        + intros x [].
        + exists l. repeat split; auto. cbn in L. lia. }
    split.
    + intros draws D. destruct (T draws D) as (l & P & _). eauto.
    + intros l. split.
      * intros (draws & D & P). destruct (T draws D) as (l' & P' & L & I). rewrite P in P'. injection P' as ->. auto.
      * intros [<- I]. destruct (draws_for container S (rev l)) as (draws & D & P).
        { intros x X. apply I. now apply in_rev. }
        exists draws. split; [exact D|]. rewrite <- (rev_length l), (pick_more_exact container draws (rev l) 0 []); [now rewrite rev_involutive, app_nil_r|].
        intros i x X. now apply P.
Qed.
Print Assumptions C106_count.

Section scores.
  Context {A : Type}.
  Variable container : list A.
  Hypothesis small : (Z.of_nat (length container) <= 2 ^ 32)%Z.
  Variable score : A -> R.
  Variable target : R.
  Lemma pick_score_ok draws iterations : container <> [] -> (forall i, is_draw (draws i)) -> forall step out, incl out container ->
    (forall later earlier, out = later ++ earlier -> later <> [] -> total score earlier < target) ->
    exists l, pick_score container draws score target iterations step (total score out) out = Subset l /\
              incl l container /\ stops_in_time score target (iterations + length out) l.
  Proof.
    intros N D. induction iterations as [|k IH]; intros step out I B; cbn [pick_score].
    - exists out. repeat split; auto.
    - destruct (Rlt_dec (total score out) target) as [L|L].
      + destruct (picked_in container small draws step N (D step)) as (x & -> & X).
        change (rounded (total score out + score x)) with (total score (x :: out)).
        destruct (IH (S step) (x :: out)) as (l & E & J & K).
        * intros y [<-|Y]; auto.
        * intros [|y later] earlier Q Z; [easy|]. injection Q as <- Q. destruct later as [|z later]; [cbn in Q; now subst earlier|].
          apply (B (z :: later)); [exact Q|discriminate].
        * exists l. split; [exact E|]. split; [exact J|]. replace (S k + length out)%nat with (k + length (x :: out))%nat by (cbn; lia). exact K.
      + exists out. split; [reflexivity|]. split; [exact I|]. split; [lia|]. split; [exact B|]. right. lra.
  Qed.
  Lemma pick_score_exact draws : forall l iterations step out,
    (forall i x, nth_error l i = Some x -> picked container draws (step + i) = Some x) ->
    stops_in_time score target (iterations + length out) (rev l ++ out) ->
    pick_score container draws score target iterations step (total score out) out = Subset (rev l ++ out).
  Proof.
    induction l as [|a l IH]; intros iterations step out H (L & B & F); cbn [rev app] in *.
    - destruct iterations as [|k]; cbn [pick_score]; [reflexivity|]. destruct (Rlt_dec (total score out) target); [|reflexivity].
      exfalso. cbn in F. destruct F as [F|F]; [lia|lra].
    - destruct iterations as [|k].
      + exfalso. rewrite !app_length, rev_length in L. cbn in L. lia.
      + cbn [pick_score]. assert (T : total score out < target). { apply (B (rev l ++ [a]) out); [reflexivity|]. now destruct (rev l). }
        destruct (Rlt_dec (total score out) target); [|easy]. pose proof (H O a eq_refl) as P. rewrite Nat.add_0_r in P. rewrite P.
        change (rounded (total score out + score a)) with (total score (a :: out)).
        rewrite IH; [now rewrite <- app_assoc| |].
        * intros i x X. rewrite <- (H (S i) x X). f_equal. lia.
        * replace (k + length (a :: out))%nat with (S k + length out)%nat by (cbn; lia).
          replace (rev l ++ a :: out) with ((rev l ++ [a]) ++ out) by now rewrite <- app_assoc. repeat split; assumption.
  Qed.
End scores.
(** For every container that is not empty, every scores, target and draws: the results are the
    lists of elements of the container that end with the first element that brings the score to
    the target, or at the number of iterations, and all of them are possible. *)
Theorem C106_score : forall A (container : list A) score target iterations,
  container <> [] -> (Z.of_nat (length container) <= 2 ^ 32)%Z ->
  (forall draws, (forall i, is_draw (draws i)) -> exists l, score_subset_with_duplicates container draws score target iterations = Subset l) /\
  forall l, (exists draws, (forall i, is_draw (draws i)) /\ score_subset_with_duplicates container draws score target iterations = Subset l) <->
            incl l container /\ stops_in_time score target iterations l.
Proof.
  intros A container score target iterations N S. unfold score_subset_with_duplicates.
  assert (T : forall draws, (forall i, is_draw (draws i)) -> exists l, pick_score container draws score target iterations 0 0 [] = Subset l /\
              incl l container /\ stops_in_time score target iterations l).
  { intros draws D. destruct (pick_score_ok container S score target draws iterations N D O []) as (l & E & I & K).
    - intros x [].
    - intros later earlier E Q. symmetry in E. now apply app_eq_nil in E as [-> _].
    - exists l. rewrite Nat.add_0_r in K. auto. }
  split.
  - intros draws D. destruct (T draws D) as (l & P & _). eauto.
  - intros l. split.
    + intros (draws & D & P). destruct (T draws D) as (l' & P' & R). rewrite P in P'. injection P' as ->. exact R.
    + intros [I K]. destruct (draws_for container S (rev l)) as (draws & D & P).
      { intros x X. apply I. now apply in_rev. }
      exists draws. split; [exact D|].
      pose proof (pick_score_exact container score target draws (rev l) iterations 0 []) as Q. cbn [total fold_right length] in Q.
      rewrite rev_involutive, app_nil_r, Nat.add_0_r in Q. apply Q; [|exact K]. intros i x X. now apply P.
Qed.
Print Assumptions C106_score.
(** With an empty container, nothing is picked if nothing is asked; else the assertion fails. *)
Theorem C106_empty : forall A draws (score : A -> R) target iterations,
  score_subset_with_duplicates [] draws score target iterations =
  if Rlt_dec 0 target then match iterations with O => Subset [] | _ => Undefined end else Subset [].
Proof. intros A draws score target [|k]; unfold score_subset_with_duplicates; cbn; now destruct (Rlt_dec 0 target). Qed.
Print Assumptions C106_empty.
Lemma format_quarter m : (Z.abs m < 2 ^ 53)%Z -> rounded (IZR m / 4) = IZR m / 4.
Proof. intros M. apply rounded_format. apply (format_F2R m (-2)); [exact M|lia]. Qed.
(** The result can have less than the score asked, and nothing says so. *)
Theorem C106_less_refuted : exists A (container : list A) draws score target iterations l,
  (forall i, is_draw (draws i)) /\ (forall x, 0 < score x) /\ (0 < iterations)%nat /\
  score_subset_with_duplicates container draws score target iterations = Subset l /\ total score l < target.
Proof.
  assert (D0 : is_draw 0) by (split; [symmetry; apply rounded_format, generic_format_0|lra]).
  assert (T : total (fun _ : unit => 1 / 4) [tt; tt] = 2 / 4).
  { cbn [total fold_right]. replace (0 + 1 / 4) with (1 / 4) by lra. rewrite (format_quarter 1) by (cbn; lia).
    replace (1 / 4 + 1 / 4) with (2 / 4) by lra. now rewrite (format_quarter 2) by (cbn; lia). }
  assert (T1 : total (fun _ : unit => 1 / 4) [tt] = 1 / 4).
  { cbn [total fold_right]. replace (0 + 1 / 4) with (1 / 4) by lra. now rewrite (format_quarter 1) by (cbn; lia). }
  exists unit, [tt]. destruct (C106_score unit [tt] (fun _ => 1 / 4) 1 2 ltac:(discriminate) ltac:(cbn; lia)) as [_ C].
  specialize (C [tt; tt]). destruct C as [_ C]. destruct C as (draws & D & P).
  - split; [intros x _; destruct x; now left|]. split; [cbn; lia|]. split; [|now left].
    intros [|a [|b later]] earlier E Q; [easy| |].
    + injection E as _ <-. rewrite T1. lra.
    + injection E as _ _ E. symmetry in E. apply app_eq_nil in E as [_ ->]. cbn. lra.
  - exists draws, (fun _ => 1 / 4), 1, 2%nat, [tt; tt]. split; [exact D|]. split; [intros _; lra|]. split; [lia|]. split; [exact P|]. rewrite T. lra.
Qed.
Print Assumptions C106_less_refuted.
Example C106_example : stops_in_time (fun x : bool => if x then 3 / 4 else 1 / 4) 1 512 [true; false] /\
  exists draws, (forall i, is_draw (draws i)) /\ subset_with_duplicates [true; false] draws 2 = Subset [false; false].
Proof.
  split.
  - assert (T1 : total (fun x : bool => if x then 3 / 4 else 1 / 4) [false] = 1 / 4).
    { cbn [total fold_right]. replace (0 + 1 / 4) with (1 / 4) by lra. now rewrite (format_quarter 1) by (cbn; lia). }
    split; [apply Nat.leb_le; reflexivity|]. split.
    + intros [|a [|b later]] earlier E Q; [easy| |].
      * injection E as _ <-. rewrite T1. lra.
      * injection E as _ _ E. symmetry in E. apply app_eq_nil in E as [_ ->]. cbn. lra.
    + right. change (1 <= rounded (total (fun x : bool => if x then 3 / 4 else 1 / 4) [false] + 3 / 4)). rewrite T1.
      replace (1 / 4 + 3 / 4) with (4 / 4) by lra. rewrite (format_quarter 4) by (cbn; lia). lra.
  - apply (C106_count bool [true; false] 2 ltac:(cbn; lia)); [cbn; lia|]. split; [reflexivity|]. intros x [<-|[<-|[]]]; right; now left.
Qed.

(** Which detections the features of one map claim after a matching. *)
From Coq Require Import ZifyBool ZifyNat ZifyN Permutation.
From Verif Require Import FeatureMapModel FeatureMapSpec FeatureMapProofs FeatureMapHistory FeatureMapMore
  KeypointModel KeypointProofs.

Section Claims.
Context {D Det Ctx View Mt U : Type}.
Variable p : policy D Det Ctx View Mt U.
Notation feat := (feat D).
Notation fmap := (fmap D).
Notation fstate := (fstate D).
Implicit Types (m : fmap) (f : feat) (s : fstate).

(** What a [find_matches] function guarantees about the indexes it returns for
    [n] detections: either the tracked detection of the feature ([tr]), or
    detections that nobody tracks and that are not flagged as matched yet. *)
Definition find_contract (v : View) (dets : list Det) (tr : N -> option nat) : Prop :=
  (forall a b k, tr a = Some k -> tr b = Some k -> a = b) /\
  forall adv add f flags k, length flags = length dets ->
    In k (fst (p_find p v adv add dets f flags)) ->
    (k < length dets)%nat /\
    (tr (f_id f) = Some k \/ (nth_error flags k = Some false /\ forall a, tr a <> Some k)).

Lemma set_flags_spec is b l l' :
  set_flags is b l = Ret l' ->
  length l' = length l /\ (forall i, In i is -> (i < length l)%nat) /\
  forall j, nth_error l' j = if existsb (Nat.eqb j) is then Some b else nth_error l j.
Proof.
  revert l. induction is as [|i is IH]; intros l H; cbn in H.
  - injection H as <-. repeat split; auto. intros i [].
  - destruct (set_flag i b l) as [l1|] eqn:E; [|discriminate].
    pose proof (set_flag_spec _ _ _ _ E) as S. apply IH in H. destruct H as (H1 & H2 & H3).
    destruct S as (Li & S1 & S2). split; [congruence|]. split.
    + intros x [<-|Hx]; auto. rewrite <- S1. auto.
    + intros j. rewrite H3. cbn. destruct (Nat.eqb_spec j i) as [->|Hne]; cbn.
      * destruct (existsb (Nat.eqb i) is); auto. rewrite S2, Nat.eqb_refl. reflexivity.
      * destruct (existsb (Nat.eqb j) is); auto. rewrite S2. destruct (Nat.eqb_spec j i); [contradiction|reflexivity].
Qed.

Lemma set_flags_total is b l : (forall i, In i is -> (i < length l)%nat) -> exists l', set_flags is b l = Ret l'.
Proof.
  revert l. induction is as [|i is IH]; intros l H; cbn; [eauto|].
  destruct (set_flag i b l) as [l1|] eqn:E.
  - apply IH. intros j Hj. pose proof (set_flag_spec _ _ _ _ E) as (_ & -> & _). apply H. now right.
  - apply set_flag_none in E. specialize (H i (or_introl eq_refl)). lia.
Qed.

(** one loop *)
Lemma match_loop_claims v dets tr : find_contract v dets tr ->
  forall adv add m fl mt, length fl = length dets -> keyed m -> NoDup (keys m) ->
  exists m' fl' mt', match_loop p v adv add dets m fl mt = Ret (m', fl', mt') /\
    length fl' = length dets /\
    (forall k, nth_error fl' k = Some true <->
       nth_error fl k = Some true \/ exists a f, In (a, f) m' /\ In k (f_matches f)) /\
    (forall a f k, In (a, f) m' -> In k (f_matches f) ->
       In a (keys m) /\ (k < length dets)%nat /\ (tr a = Some k \/ (nth_error fl k = Some false /\ forall b, tr b <> Some k))) /\
    (forall a b f f' k, In (a, f) m' -> In (b, f') m' -> In k (f_matches f) -> In k (f_matches f') -> a = b).
Proof.
  intros [Tinj C] adv add m. induction m as [|[a f0] m IH]; intros fl mt Lf Ky ND.
  - exists [], fl, mt. split; auto. split; auto. split; [|split].
    + intros k. split; auto. intros [H|(a & f & [] & _)]; auto.
    + intros a f k [].
    + intros a b f f' k [].
  - inversion Ky as [|x l Ka Ky']; subst. inversion ND as [|x l NI ND']; subst. cbn [fst snd] in *.
    cbn [match_loop].
    set (f := mark_unmatched f0).
    assert (Skip : forall mt0, exists m' fl' mt',
      (let* (r, fl1, mt1) := match_loop p v adv add dets m fl mt0 in Ret ((a, f) :: r, fl1, mt1)) = Ret (m', fl', mt') /\
      length fl' = length dets /\
      (forall k, nth_error fl' k = Some true <->
         nth_error fl k = Some true \/ exists a f, In (a, f) m' /\ In k (f_matches f)) /\
      (forall b g k, In (b, g) m' -> In k (f_matches g) ->
         In b (keys ((a, f0) :: m)) /\ (k < length dets)%nat /\
         (tr b = Some k \/ (nth_error fl k = Some false /\ forall c, tr c <> Some k))) /\
      (forall b c g g' k, In (b, g) m' -> In (c, g') m' -> In k (f_matches g) -> In k (f_matches g') -> b = c)).
    { intros mt0. destruct (IH fl mt0 Lf Ky' ND') as (m' & fl' & mt' & -> & L & F1 & F2 & F3). cbn [bind].
      exists ((a, f) :: m'), fl', mt'. split; auto. split; auto. split; [|split].
      - intros k. rewrite F1. split; intros [H|(b & g & H & H')]; auto.
        + right. exists b, g. split; auto. now right.
        + destruct H as [H|H]; [|eauto]. injection H as <- <-. destruct H'.
      - intros b g k [H|H] H'; [injection H as <- <-; destruct H'|]. apply (F2 _ _ _ H) in H'.
        destruct H' as (X & Y). split; auto. now right.
      - intros b c g g' k [H|H] [H1|H1] K1 K2; try (injection H as <- <-; destruct K1); try (injection H1 as <- <-; destruct K2).
        eapply F3; eauto. }
    destruct (p_moving p (f_data f) || negb (p_visible p v (f_data f))); [apply Skip|].
    destruct (p_find p v adv add dets f fl) as [idx pushed] eqn:Ef.
    destruct idx as [|i0 idx0]; [apply Skip|]. set (idx := i0 :: idx0) in *.
    assert (Ci : forall k, In k idx -> (k < length dets)%nat /\ (tr a = Some k \/ (nth_error fl k = Some false /\ forall c, tr c <> Some k))).
    { intros k Hk. destruct (C adv add f fl k Lf) as [C1 C2]; [rewrite Ef; exact Hk|]. split; auto.
      change (f_id f) with (f_id f0) in C2. rewrite <- Ka in C2. exact C2. }
    destruct (set_flags_total idx true fl) as [fl1 E1]; [intros i Hi; rewrite Lf; now apply Ci|].
    rewrite E1. cbn [bind]. pose proof (set_flags_spec _ _ _ _ E1) as (L1 & _ & N1).
    destruct (IH fl1 (mt ++ pushed)) as (m' & fl' & mt' & -> & L & F1 & F2 & F3); [congruence|exact Ky'|exact ND'|]. cbn [bind].
    exists ((a, mark_matched idx f) :: m'), fl', mt'. split; [reflexivity|]. split; [exact L|].
    assert (Ein : forall k, existsb (Nat.eqb k) idx = true <-> In k idx).
    { intros k. rewrite existsb_exists. split; [intros (x & Hx & E); apply Nat.eqb_eq in E; now subst|].
      intros Hk. exists k. split; auto. apply Nat.eqb_refl. }
    split; [|split].
    + intros k. rewrite F1, N1. destruct (existsb (Nat.eqb k) idx) eqn:Ek.
      * split; auto. intros _. right. exists a, (mark_matched idx f). split; [now left|]. now apply Ein.
      * split; intros [H|(b & g & H & H')]; auto.
        -- right. exists b, g. split; auto. now right.
        -- destruct H as [H|H]; [|right; eauto]. injection H as <- <-. change (In k idx) in H'. apply Ein in H'. congruence.
    + intros b g k [H|H] H'.
      * injection H as <- <-. change (In k idx) in H'. split; [now left|]. now apply Ci.
      * destruct (F2 _ _ _ H H') as (X & Y & Z). split; [now right|]. split; auto. destruct Z as [Z|[Z1 Z2]]; auto.
        right. split; auto. rewrite N1 in Z1. destruct (existsb (Nat.eqb k) idx); [discriminate|auto].
    + intros b c g g' k H H1 K1 K2.
      assert (Clash : forall b' g'', In (b', g'') m' -> In k (f_matches g'') -> In k idx -> False).
      { intros b' g'' X Y Z. destruct (F2 _ _ _ X Y) as (V1 & _ & V2). destruct (Ci k Z) as [_ W].
        assert (b' <> a) by (intros ->; contradiction).
        destruct V2 as [V2|[V2 V3]].
        - destruct W as [W|[_ W]]; [|exact (W _ V2)]. apply H0. eapply Tinj; eauto.
        - rewrite N1 in V2. apply Ein in Z. rewrite Z in V2. discriminate. }
      destruct H as [H|H]; destruct H1 as [H1|H1].
      * injection H as <- <-. injection H1 as <- <-. reflexivity.
      * exfalso. injection H as <- <-. eapply Clash; eauto.
      * exfalso. injection H1 as <- <-. eapply Clash; eauto.
      * eapply F3; eauto.
Qed.

(** no detection is claimed twice, and the flags are exactly the claims *)
Definition exclusive (dets : list Det) (s : fstate) : Prop :=
  (forall a b f f' k, In (a, f) (s_local s ++ s_staged s) -> In (b, f') (s_local s ++ s_staged s) ->
     In k (f_matches f) -> In k (f_matches f') -> a = b) /\
  length (s_flags s) = length dets /\
  (forall k, nth_error (s_flags s) k = Some true <->
     exists a f, In (a, f) (s_local s ++ s_staged s) /\ In k (f_matches f)).

Lemma pass_claims v dets tr adv n mt s : find_contract v dets tr ->
  s_active s = true -> keyed (s_local s) -> keyed (s_staged s) -> NoDup (ids s) ->
  exists s' mt', get_matches_pass p v adv n dets mt s = Ret (s', mt') /\ exclusive dets s'.
Proof.
  intros C A K1 K2 ND. unfold get_matches_pass. rewrite A. cbn [negb].
  destruct (match_loop_claims v dets tr C adv true (s_local s) (repeat false (length dets)) []) as
    (loc & fl1 & mt1 & -> & L1 & F1 & G1 & H1); [apply repeat_length|exact K1|exact (NoDup_app_l _ _ _ ND)|]. cbn [bind].
  destruct (match_loop_claims v dets tr C adv (length mt1 <? n * 3) (s_staged s) fl1 mt1) as
    (stg & fl2 & mt2 & -> & L2 & F2 & G2 & H2); [exact L1|exact K2|exact (NoDup_app_r _ _ _ ND)|]. cbn [bind].
  eexists. eexists. split; [reflexivity|]. unfold exclusive. cbn [s_local s_staged s_flags].
  assert (Cross : forall a b f f' k, In (a, f) loc -> In (b, f') stg -> In k (f_matches f) -> In k (f_matches f') -> False).
  { intros a b f f' k X Y X' Y'. destruct (G1 _ _ _ X X') as (V1 & V2 & V3). destruct (G2 _ _ _ Y Y') as (W1 & W2 & W3).
    assert (a <> b) by (intros ->; exact (NoDup_app_disj _ _ _ _ ND V1 W1)).
    destruct C as [Tinj _].
    destruct W3 as [W3|[W3 W4]].
    - destruct V3 as [V3|[_ V3]]; [|exact (V3 _ W3)]. apply H. eapply Tinj; eauto.
    - assert (nth_error fl1 k = Some true); [|congruence]. apply F1. right. eauto. }
  split; [|split; [exact L2|]].
  - intros a b f f' k X Y X' Y'. apply in_app_or in X, Y. destruct X as [X|X]; destruct Y as [Y|Y].
    + exact (H1 _ _ _ _ _ X Y X' Y').
    + destruct (Cross _ _ _ _ _ X Y X' Y').
    + destruct (Cross _ _ _ _ _ Y X Y' X').
    + exact (H2 _ _ _ _ _ X Y X' Y').
  - intros k. rewrite F2, F1. split.
    + intros [[X|(a & f & X & Y)]|(a & f & X & Y)].
      * apply nth_error_In, repeat_spec in X. discriminate.
      * exists a, f. split; auto. apply in_or_app. auto.
      * exists a, f. split; auto. apply in_or_app. auto.
    + intros (a & f & X & Y). apply in_app_or in X. destruct X as [X|X]; [left; right|right]; eauto.
Qed.

Lemma get_matches_claims v dets tr n s : find_contract v dets tr ->
  s_active s = true -> keyed (s_local s) -> keyed (s_staged s) -> NoDup (ids s) ->
  exists s' mt', get_matches p v n dets s = Ret (s', mt') /\ exclusive dets s'.
Proof.
  intros C A K1 K2 ND. unfold get_matches.
  destruct (pass_claims v dets tr false n [] s C A K1 K2 ND) as (s1 & mt1 & E1 & X1). rewrite E1. cbn [bind].
  destruct (length mt1 <? n); [|eauto].
  pose proof (get_matches_pass_inv _ _ _ _ _ _ _ _ _ E1) as (Ac & Sl & Ss & _).
  apply (pass_claims v dets tr true n mt1 s1 C).
  - congruence.
  - exact (sbm_keyed _ _ K1 Sl).
  - exact (sbm_keyed _ _ K2 Ss).
  - destruct Sl as [Kl _]. destruct Ss as [Ks _]. unfold ids in *. now rewrite Kl, Ks.
Qed.

End Claims.

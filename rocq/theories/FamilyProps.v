(** A family of maps in one frame: every kind is treated once with its own
    detections and outliers, and features change kind exactly once. *)
From Coq Require Import Permutation ZifyBool ZifyNat ZifyN.
From Verif Require Import FeatureMapModel FeatureMapSpec FeatureMapProofs FeatureMapHistory LocalMapModel LocalMapProofs FeatureMapMore FeatureMapProps FamilySpec.
Local Open Scope N_scope.
Local Arguments size_t_mod : simpl never.

Section Family.
Context {D Det Ctx View Mt U : Type}.
Notation pol_t := (policy D Det Ctx View Mt U).
Notation fmap := (fmap D).
Notation fstate := (fstate D).
Notation maps := (list (pol_t * fstate)).
Implicit Types (ms : maps) (s : fstate) (g : shared) (p : pol_t).

Lemma of_kind_eq k outl : map snd (filter (fun o : nat * (N * nat) => Nat.eqb (fst o) k) outl) = of_kind k outl.
Proof.
  induction outl as [|o outl IH]; [reflexivity|]. unfold of_kind in *. cbn.
  destruct (Nat.eqb (fst o) k); cbn; now rewrite IH.
Qed.

Lemma update_map_valid p fuel c dets s g r : update_map p fuel c true dets s g = Ret r -> r <> MThrow.
Proof.
  unfold update_map. destruct (negb (s_active s)); [intros H; injection H as <-; discriminate|]. cbn [negb].
  destruct (update_local_map p c dets (s_local s) g) as [[[loc u1] g1]| |]; cbn [bind]; try discriminate.
  destruct (update_staged_map p fuel c dets (s_staged s) loc) as [[[a b] u2]| |]; cbn [bind]; try discriminate.
  intros H. injection H as <-. discriminate.
Qed.

Lemma add_valid p c dets used s g : add_features_to_staged_map p c true dets used s g <> None.
Proof.
  unfold add_features_to_staged_map. destruct (negb (s_active s)); cbn [negb]; [discriminate|].
  destruct (add_features p c 0 dets used (s_staged s) g). discriminate.
Qed.

Lemma frames fuel c dets outl ms ms1 ms2 g g2 :
  lm_mark outl ms = Ret ms1 -> lm_update_maps fuel c dets ms1 g = Ret (ms2, g2) ->
  each (frame_step fuel c dets outl) ms g ms2 g2.
Proof.
  revert ms1 ms2 g. induction ms as [|[p s] ms IH]; cbn; intros ms1 ms2 g H1 H2.
  - injection H1 as <-. cbn in H2. injection H2 as <- <-. constructor.
  - rewrite of_kind_eq in H1.
    destruct (mark_outliers (of_kind (p_kind p) outl) s) as [s1| |] eqn:E1; cbn [bind] in H1; try discriminate.
    destruct (lm_mark outl ms) as [r1| |] eqn:E2; cbn [bind] in H1; try discriminate. injection H1 as <-.
    cbn [lm_update_maps] in H2.
    destruct (update_map p fuel c true (dets (p_kind p)) s1 g) as [r| |] eqn:E3; cbn [bind] in H2; try discriminate.
    pose proof (update_map_valid _ _ _ _ _ _ _ E3) as NT.
    destruct r as [s2 g1 used|]; [|congruence].
    destruct (add_features_to_staged_map p c true (dets (p_kind p)) used s2 g1) as [[s3 g3]|] eqn:E4;
      [|now apply add_valid in E4].
    destruct (lm_update_maps fuel c dets r1 g3) as [[r' g']| |] eqn:E5; cbn [bind] in H2; try discriminate.
    injection H2 as <- <-. econstructor; [|eapply IH; eauto].
    exists s1, s2, g1, used. auto.
Qed.

Lemma upgrade_loop_eq p c (m : fmap) :
  upgrade_loop p c m =
  (stays c p m, flat_map (fun kf => match p_upgrade p c (snd kf) with Some u => [(u, f_matches (snd kf))] | None => [] end) m).
Proof.
  induction m as [|[k f] m IH]; [reflexivity|]. cbn. rewrite IH. destruct (p_upgrade p c f); reflexivity.
Qed.

Lemma get_upgraded_eq p c s :
  get_upgraded_features p c s =
  (mkFState (s_active s) (stays c p (s_local s)) (stays c p (s_staged s)) (s_flags s), leaves c p s).
Proof. unfold get_upgraded_features, leaves. now rewrite !upgrade_loop_eq, flat_map_app. Qed.

(** one map takes the features of its kind *)
Lemma add_upgraded_news p us s g s' g' b :
  wf_shared g -> below g (keys (s_local s)) ->
  add_upgraded_features p us s g = (s', g', b) -> no_wrap g' ->
  (b = true <-> exists um x, In um us /\ p_mk_upgraded p (fst um) = Some (CThrow x)) /\
  (b = false -> exists news,
    s' = mkFState (s_active s) (s_local s ++ news) (s_staged s) (s_flags s) /\
    Forall2 (became p) (filter (takes p) us) news).
Proof.
  revert s g. induction us as [|[u m] us IH]; intros s g W B H NW.
  - cbn in H. injection H as <- <- <-. split.
    + split; [discriminate|]. intros (? & ? & [] & _).
    + intros _. exists []. rewrite app_nil_r. split; [now destruct s|constructor].
  - cbn [add_upgraded_features] in H.
    assert (T : takes p (u, m) = match p_mk_upgraded p u with Some _ => true | None => false end) by reflexivity.
    destruct (p_mk_upgraded p u) as [[d|x]|] eqn:Eu.
    + destruct (draw_id g) as [i g1] eqn:E1.
      pose proof (add_upgraded_mono p _ _ _ _ _ _ H) as M.
      destruct (draw_id_ok _ _ _ W E1) as [Dr Ei]; [unfold no_wrap in *; lia|].
      assert (Nin : ~ In i (keys (s_local s))) by (intros Hin; apply B in Hin; lia).
      apply lookup_none in Nin. unfold add_to_local_map in H. cbn [f_id] in H. rewrite Nin in H.
      apply IH in H; auto.
      * destruct H as [H1 H2]. split.
        -- rewrite H1. split; intros (um & x & I1 & I2).
           ++ exists um, x. split; [now right|exact I2].
           ++ destruct I1 as [<-|I1]; [cbn in I2; congruence|]. exists um, x. auto.
        -- intros Hb. destruct (H2 Hb) as (n2 & -> & F2). cbn.
           exists ((i, mkFeat i 0 1 m d) :: n2). split; [now rewrite <- app_assoc|].
           rewrite T. constructor; [|exact F2]. exists d. auto.
      * apply Dr.
      * cbn. intros k X. unfold keys in X. rewrite map_app in X. apply in_app_or in X.
        destruct Dr as (_ & _ & L & _ & I). destruct X as [X|[X|[]]]; [apply B in X; lia|]. subst k. cbn.
        specialize (I i (or_introl eq_refl)). lia.
    + assert (Hb : b = true) by (destruct x; injection H as _ _ <-; reflexivity). split.
      * split; [|auto]. intros _. exists (u, m), x. split; [now left|exact Eu].
      * intros X. congruence.
    + apply IH in H; auto. destruct H as [H1 H2]. split.
      * rewrite H1. split; intros (um & x & I1 & I2).
        -- exists um, x. split; [now right|exact I2].
        -- destruct I1 as [<-|I1]; [cbn in I2; congruence|]. exists um, x. auto.
      * intros Hb. destruct (H2 Hb) as (n2 & E & F2). exists n2. split; [exact E|].
        cbn [filter]. rewrite T. exact F2.
Qed.

Definition gained (us : list (U * list nat)) (ps ps' : pol_t * fstate) : Prop :=
  fst ps' = fst ps /\ s_active (snd ps') = s_active (snd ps) /\ s_flags (snd ps') = s_flags (snd ps) /\
  s_staged (snd ps') = s_staged (snd ps) /\
  exists news, s_local (snd ps') = s_local (snd ps) ++ news /\ Forall2 (became (fst ps)) (filter (takes (fst ps)) us) news.

Lemma gained_trans us l x y z : gained us x y -> gained l y z -> gained (us ++ l) x z.
Proof.
  intros (A1 & A2 & A3 & A4 & n1 & A5 & A6) (B1 & B2 & B3 & B4 & n2 & B5 & B6).
  rewrite A1 in B6. repeat split; try congruence.
  exists (n1 ++ n2). split; [rewrite B5, A5; now rewrite app_assoc|].
  rewrite filter_app. now apply Forall2_app.
Qed.

Lemma exchanged_trans c us l x y z : exchanged c us x y -> gained l y z -> exchanged c (us ++ l) x z.
Proof.
  intros (A1 & A2 & A3 & A4 & n1 & A5 & A6) (B1 & B2 & B3 & B4 & n2 & B5 & B6).
  rewrite A1 in B6. repeat split; try congruence.
  exists (n1 ++ n2). split; [rewrite B5, A5; now rewrite app_assoc|].
  rewrite filter_app. now apply Forall2_app.
Qed.

Lemma sys_inv_below (ms : maps) g p s : sys_inv ms g -> In (p, s) ms -> below g (keys (s_local s)).
Proof.
  intros I H i Hi. destruct I as [_ _ _ R]. apply R. apply in_or_app. left.
  unfold all_ids. apply in_flat_map. exists (p, s). split; [exact H|]. cbn. unfold ids. apply in_or_app. now left.
Qed.

Lemma lm_add_upgraded_news us (ms pre : maps) g ms' g' b :
  sys_inv (pre ++ ms) g -> lm_add_upgraded us ms g = (ms', g', b) -> no_wrap g' ->
  (b = true <-> exists p s um x, In (p, s) ms /\ In um us /\ p_mk_upgraded p (fst um) = Some (CThrow x)) /\
  (b = false -> Forall2 (gained us) ms ms').
Proof.
  revert pre g ms'. induction ms as [|[p s] ms IH]; cbn; intros pre g ms' I H NW.
  - injection H as <- <- <-. split; [|constructor]. split; [discriminate|]. intros (? & ? & ? & ? & [] & _).
  - destruct (add_upgraded_features p us s g) as [[s1 g1] b1] eqn:E.
    assert (S1 : sys_steps (pre ++ (p, s) :: ms, g) (pre ++ (p, s1) :: ms, g1)).
    { apply (step_at pre p s s1 ms g g1 0 (FUpgradeIn us)). cbn [fexec]. now rewrite E. }
    assert (M1 : g_allocs g1 <= g_allocs g').
    { destruct b1; [injection H as _ <- _; lia|].
      destruct (lm_add_upgraded us ms g1) as [[r g2] b2] eqn:E2. injection H as _ <- _.
      apply (lm_add_upgraded_steps _ _ _ []) in E2. apply sys_steps_mono in E2. exact E2. }
    assert (NW1 : no_wrap g1) by (unfold no_wrap in *; lia).
    pose proof (sys_steps_inv _ _ S1 NW1 I) as I1. cbn in I1.
    destruct (add_upgraded_news p us s g s1 g1 b1) as [X1 X2]; auto.
    { apply I. } { eapply sys_inv_below; [exact I|]. apply in_or_app. right. now left. }
    destruct b1.
    + injection H as <- <- <-. split; [|discriminate]. split; [|reflexivity]. intros _.
      destruct X1 as [X1 _]. destruct (X1 eq_refl) as (um & x & Y1 & Y2). exists p, s, um, x. auto.
    + destruct (lm_add_upgraded us ms g1) as [[r g2] b2] eqn:E2. injection H as <- <- <-.
      destruct (X2 eq_refl) as (news & -> & F). cbn [s_local] in *.
      specialize (IH (pre ++ [(p, mkFState (s_active s) (s_local s ++ news) (s_staged s) (s_flags s))]) g1 r).
      rewrite <- app_assoc in IH. destruct (IH I1 E2 NW) as [Z1 Z2]. split.
      * rewrite Z1. split; intros (q & t & um & x & Y1 & Y2 & Y3).
        -- exists q, t, um, x. auto.
        -- destruct Y1 as [Y1|Y1]; [|exists q, t, um, x; auto]. injection Y1 as -> ->.
           destruct X1 as [_ X1]. assert (false = true) by (apply X1; eauto). discriminate.
      * intros Hb. constructor; [|auto]. repeat split. exists news. auto.
Qed.

Lemma stays_all c p (m : fmap) : (forall f, p_upgrade p c f = None) -> stays c p m = m.
Proof. intros H. unfold stays. induction m as [|[k f] m IH]; [reflexivity|]. cbn. rewrite H. now f_equal. Qed.

Lemma leaves_none c p s : (forall f, p_upgrade p c f = None) -> leaves c p s = [].
Proof.
  intros H. unfold leaves. induction (s_local s ++ s_staged s) as [|[k f] m IH]; [reflexivity|]. cbn. now rewrite H.
Qed.

(** a map whose turn comes: what it gives is what it would have given at first *)
Lemma turn c us p0 s0 p s :
  ((forall c f, p_upgrade p0 c f = None) \/ (forall u, p_mk_upgraded p0 u = None)) ->
  gained us (p0, s0) (p, s) ->
  p = p0 /\ leaves c p s = leaves c p0 s0 /\
  exchanged c us (p0, s0) (p, mkFState (s_active s) (stays c p (s_local s)) (stays c p (s_staged s)) (s_flags s)).
Proof.
  intros OW (A1 & A2 & A3 & A4 & news & A5 & A6). cbn in *. subst p. split; [reflexivity|].
  destruct OW as [OW|OW].
  - rewrite !leaves_none by auto. split; [reflexivity|]. repeat split; cbn; try congruence.
    exists news. rewrite !stays_all by auto. auto.
  - assert (N0 : filter (takes p0) us = []).
    { clear -OW. induction us as [|um us IH]; [reflexivity|]. cbn. unfold takes at 1. rewrite OW. exact IH. }
    rewrite N0 in A6. inversion A6; subst news. rewrite app_nil_r in A5. split.
    + unfold leaves. now rewrite A4, A5.
    + repeat split; cbn; try congruence. exists []. rewrite N0, A5, app_nil_r. auto.
Qed.

Lemma Forall2_in_l {A B : Type} (R : A -> B -> Prop) l l' x : Forall2 R l l' -> In x l -> exists y, In y l' /\ R x y.
Proof. intros F. induction F; cbn; intros []; subst; firstorder eauto. Qed.
Lemma Forall2_in_r {A B : Type} (R : A -> B -> Prop) l l' y : Forall2 R l l' -> In y l' -> exists x, In x l /\ R x y.
Proof. intros F. induction F; cbn; intros []; subst; firstorder eauto. Qed.

Lemma F2_length {A B : Type} (R : A -> B -> Prop) l l' : Forall2 R l l' -> length l = length l'.
Proof. intros F. induction F; cbn; congruence. Qed.

Lemma exchange c (A0 A B0 B : maps) us g ms' g' b :
  one_way (A0 ++ B0) -> Forall2 (exchanged c us) A0 A -> Forall2 (gained us) B0 B ->
  sys_inv (A ++ B) g -> lm_upgrade (length B) (length A) c (A ++ B) g = (ms', g', b) -> no_wrap g' ->
  (b = true <-> exists p s um x, In (p, s) (A0 ++ B0) /\ In um (all_leaving c B0) /\ p_mk_upgraded p (fst um) = Some (CThrow x)) /\
  (b = false -> Forall2 (exchanged c (us ++ all_leaving c B0)) (A0 ++ B0) ms').
Proof.
  intros OW FA FB. revert A0 A us g OW FA B FB.
  induction B0 as [|[p0 s0] B0 IH]; intros A0 A us g OW FA B FB I H NW; inversion FB as [|? [p s] ? B' G FB']; subst.
  - cbn in H. injection H as <- <- <-. split.
    + split; [discriminate|]. intros (? & ? & ? & ? & _ & [] & _).
    + intros _. cbn. now rewrite !app_nil_r.
  - cbn [length lm_upgrade] in H.
    rewrite nth_error_app2 in H by lia. rewrite Nat.sub_diag in H. cbn [nth_error] in H.
    rewrite get_upgraded_eq in H.
    set (s' := mkFState (s_active s) (stays c p (s_local s)) (stays c p (s_staged s)) (s_flags s)) in *.
    rewrite firstn_app, firstn_all, Nat.sub_diag, firstn_O, app_nil_r in H.
    replace (skipn (S (length A)) (A ++ (p, s) :: B')) with B' in H.
    2: { clear. induction A; cbn; auto. }
    assert (OW0 : (forall c f, p_upgrade p0 c f = None) \/ (forall u, p_mk_upgraded p0 u = None)).
    { unfold one_way in OW. rewrite Forall_forall in OW. apply (OW (p0, s0)). apply in_or_app. right. now left. }
    destruct (turn c us p0 s0 p s OW0 G) as (-> & EL & EX). fold s' in EX. rewrite EL in H.
    destruct (lm_add_upgraded (leaves c p0 s0) (A ++ (p0, s') :: B') g) as [[ms2 g2] b2] eqn:E2.
    assert (S1 : sys_steps (A ++ (p0, s) :: B', g) (A ++ (p0, s') :: B', g)).
    { apply (step_at A p0 s s' B' g g 0 (FUpgradeOut c)). cbn [fexec]. now rewrite get_upgraded_eq. }
    pose proof (lm_add_upgraded_steps _ _ _ [] _ _ _ E2) as S2. cbn [app] in S2.
    assert (M2 : g_allocs g2 <= g_allocs g').
    { destruct b2; [injection H as _ <- _; lia|]. apply lm_upgrade_steps, sys_steps_mono in H. exact H. }
    assert (NW2 : no_wrap g2) by (unfold no_wrap in *; lia).
    assert (NW1 : no_wrap g) by (apply sys_steps_mono in S2; cbn in S2; unfold no_wrap in *; lia).
    pose proof (sys_steps_inv _ _ S1 NW1 I) as I1. cbn in I1.
    destruct (lm_add_upgraded_news (leaves c p0 s0) (A ++ (p0, s') :: B') [] g ms2 g2 b2 I1 E2 NW2) as [T1 T2].
    assert (same : forall q : pol_t,
       ((exists t, In (q, t) (A0 ++ (p0, s0) :: B0)) <-> (exists t, In (q, t) (A ++ (p0, s') :: B')))).
    { intros q. split; intros [t Ht]; apply in_app_or in Ht.
      - destruct Ht as [Ht|[Ht|Ht]].
        + destruct (Forall2_in_l _ _ _ _ FA Ht) as ([q' t'] & Y1 & Y2 & _). cbn in Y2. subst q'.
          exists t'. apply in_or_app. now left.
        + injection Ht as <- _. exists s'. apply in_or_app. right. now left.
        + destruct (Forall2_in_l _ _ _ _ FB' Ht) as ([q' t'] & Y1 & Y2 & _). cbn in Y2. subst q'.
          exists t'. apply in_or_app. right. now right.
      - destruct Ht as [Ht|[Ht|Ht]].
        + destruct (Forall2_in_r _ _ _ _ FA Ht) as ([q' t'] & Y1 & Y2 & _). cbn in Y2. subst q'.
          exists t'. apply in_or_app. now left.
        + injection Ht as <- _. exists s0. apply in_or_app. right. now left.
        + destruct (Forall2_in_r _ _ _ _ FB' Ht) as ([q' t'] & Y1 & Y2 & _). cbn in Y2. subst q'.
          exists t'. apply in_or_app. right. now right. }
    change (all_leaving c ((p0, s0) :: B0)) with (leaves c p0 s0 ++ all_leaving c B0).
    destruct b2.
    + injection H as <- <- <-. split; [|discriminate]. split; [|reflexivity]. intros _.
      destruct T1 as [T1 _]. destruct (T1 eq_refl) as (q & t & um & x & Y1 & Y2 & Y3).
      destruct (same q) as [_ K]. destruct K as [t' K]; [eauto|].
      exists q, t', um, x. split; [exact K|]. split; [apply in_or_app; now left|exact Y3].
    + specialize (T2 eq_refl). apply Forall2_app_inv_l in T2. destruct T2 as (A2 & B2 & F1 & F2 & ->).
      inversion F2 as [|? [p2 s2] ? B2' G2 FB2]; subst.
      pose proof (sys_steps_inv _ _ S2 NW2 I1) as I2. cbn in I2.
      assert (LA : length A2 = length A) by (symmetry; eapply F2_length; eauto).
      assert (LB : length B2' = length B') by (symmetry; eapply F2_length; eauto).
      assert (FA2 : Forall2 (exchanged c (us ++ leaves c p0 s0)) (A0 ++ [(p0, s0)]) (A2 ++ [(p2, s2)])).
      { apply Forall2_app.
        - clear -FA F1. revert A2 F1. induction FA as [|x y l l' X FA IH]; intros A2 F1; inversion F1; subst; constructor; auto.
          eapply exchanged_trans; eauto.
        - constructor; [|constructor]. eapply exchanged_trans; eauto. }
      assert (FB3 : Forall2 (gained (us ++ leaves c p0 s0)) B0 B2').
      { clear -FB' FB2. revert B2' FB2. induction FB' as [|x y l l' X FA IH]; intros B2' F1; inversion F1; subst; constructor; auto.
        eapply gained_trans; eauto. }
      replace (length B') with (length B2') in H by lia.
      replace (S (length A)) with (length (A2 ++ [(p2, s2)])) in H by (rewrite app_length; cbn; lia).
      replace (A2 ++ (p2, s2) :: B2') with ((A2 ++ [(p2, s2)]) ++ B2') in * by (now rewrite <- app_assoc).
      destruct (IH (A0 ++ [(p0, s0)]) (A2 ++ [(p2, s2)]) (us ++ leaves c p0 s0) g2) with (B := B2') as [R1 R2]; auto.
      { now rewrite <- app_assoc. }
      rewrite <- app_assoc in R1, R2. cbn [app] in R1, R2. rewrite <- app_assoc in R2. split; [|exact R2].
      rewrite R1. split; intros (q & t & um & x & Y1 & Y2 & Y3).
      * exists q, t, um, x. split; [exact Y1|]. split; [apply in_or_app; now right|exact Y3].
      * apply in_app_or in Y2. destruct Y2 as [Y2|Y2]; [|exists q, t, um, x; auto].
        destruct (same q) as [K _]. destruct K as [t' K]; [eauto|].
        destruct T1 as [_ T1]. assert (false = true) by (apply T1; eauto 8). discriminate.
Qed.

(** ** The frame of a family *)

(** An update with a valid pose: every map, in order, does the frame of a single
    map with the outliers and the detections of its kind; then the features ready
    to change kind leave their map and each is taken by the maps of its new kind,
    once, with a fresh identifier, its match indexes and a success count of one.
    The update throws exactly when the constructor of such a feature throws. *)
Theorem C112_update : forall pols fuel c dets outl ms g r,
  sys_reachable pols (ms, g) -> one_way ms ->
  lm_update fuel c true dets outl ms g = Ret r -> g_allocs (snd (result_state r)) < 2 ^ 64 ->
  exists ms2 g2, each (frame_step fuel c dets outl) ms g ms2 g2 /\
    ((exists ms3 g3, r = LThrow ms3 g3) <-> refused c ms2) /\
    (forall ms3 g3, r = LDone ms3 g3 ->
       Forall2 (exchanged c (all_leaving c ms2)) ms2 ms3 /\ NoDup (all_ids ms3 ++ g_out g3)).
Proof.
  intros pols fuel c dets outl ms g r R OW H NW. pose proof H as H0. unfold lm_update in H. cbn [negb] in H.
  destruct (lm_mark outl ms) as [ms1| |] eqn:E1; cbn [bind] in H; try discriminate.
  destruct (lm_update_maps fuel c dets ms1 g) as [[ms2 g2]| |] eqn:E2; cbn [bind] in H; try discriminate.
  destruct (lm_upgrade (length ms2) 0 c ms2 g2) as [[ms3 g3] b] eqn:E3. injection H as <-.
  pose proof (frames _ _ _ _ _ _ _ _ _ E1 E2) as F.
  pose proof (lm_mark_steps _ _ _ [] g E1) as S1. pose proof (lm_update_maps_steps _ _ _ _ _ [] _ _ E2) as S2.
  pose proof (lm_upgrade_steps _ _ _ _ _ _ _ _ E3) as S3. cbn in S1, S2.
  assert (NW3 : no_wrap g3) by (destruct b; exact NW).
  assert (NW2 : no_wrap g2) by (apply sys_steps_mono in S3; cbn in S3; unfold no_wrap in *; lia).
  assert (S02 : sys_reachable pols (ms2, g2)).
  { eapply sys_steps_trans; [exact R|]. eapply sys_steps_trans; eauto. }
  pose proof (sys_reach_inv _ _ S02 NW2) as I2. cbn in I2.
  assert (OW2 : one_way ms2).
  { clear -F OW. unfold one_way in *. induction F; [constructor|]. inversion OW; subst. constructor; auto. }
  assert (G0 : Forall2 (gained []) ms2 ms2).
  { clear. induction ms2 as [|x l IH]; constructor; auto. repeat split. exists []. rewrite app_nil_r. split; [reflexivity|constructor]. }
  destruct (exchange c [] [] ms2 ms2 [] g2 ms3 g3 b OW2 (Forall2_nil _) G0 I2 E3 NW3) as [X1 X2]. cbn [app] in X1, X2.
  exists ms2, g2. split; [exact F|]. split.
  - unfold refused. rewrite <- X1. destruct b; split; intros Y; eauto.
    + destruct Y as (? & ? & Y). discriminate.
    + discriminate.
  - intros ms4 g4 Y. destruct b; [discriminate|]. injection Y as <- <-. split; [now apply X2|].
    pose proof (sys_steps_inv _ _ S3 NW3 I2) as I3. apply I3.
Qed.

(** Nothing else than the maps' own frames when no feature is ready. *)
Theorem C112_no_change : forall pols fuel c dets outl ms g r,
  sys_reachable pols (ms, g) -> one_way ms ->
  lm_update fuel c true dets outl ms g = Ret r -> g_allocs (snd (result_state r)) < 2 ^ 64 ->
  (forall p s f, In (p, s) ms -> p_upgrade p c f = None) ->
  exists ms3 g3, r = LDone ms3 g3 /\ each (frame_step fuel c dets outl) ms g ms3 g3.
Proof.
  intros pols fuel c dets outl ms g r R OW H NW N0.
  unfold lm_update in H. cbn [negb] in H.
  destruct (lm_mark outl ms) as [ms1| |] eqn:E1; cbn [bind] in H; try discriminate.
  destruct (lm_update_maps fuel c dets ms1 g) as [[ms2 g2]| |] eqn:E2; cbn [bind] in H; try discriminate.
  destruct (lm_upgrade (length ms2) 0 c ms2 g2) as [[ms3 g3] b] eqn:E3. injection H as <-.
  pose proof (frames _ _ _ _ _ _ _ _ _ E1 E2) as F.
  assert (N2 : forall p s f, In (p, s) ms2 -> p_upgrade p c f = None).
  { clear -F N0. induction F as [|p s g s1 g1 ms ms' g' S F IH]; [intros ? ? ? []|].
    intros q t f [X|X]; [injection X as <- _; eapply N0; now left|]. eapply IH; eauto. intros; eapply N0; right; eauto. }
  assert (K : forall n i, lm_upgrade n i c ms2 g2 = (ms2, g2, false)).
  { induction n as [|n IH]; intros i; [reflexivity|]. cbn [lm_upgrade].
    destruct (nth_error ms2 i) as [[p s]|] eqn:En; [|reflexivity].
    pose proof (nth_error_In _ _ En) as Hin. rewrite get_upgraded_eq.
    rewrite !stays_all by (intros; eauto). rewrite leaves_none by (intros; eauto).
    replace (mkFState (s_active s) (s_local s) (s_staged s) (s_flags s)) with s by (now destruct s).
    replace (firstn i ms2 ++ (p, s) :: skipn (S i) ms2) with ms2.
    2: { clear -En. revert i En. induction ms2 as [|x l IH]; intros [|i] En; cbn in *; try discriminate; [congruence|].
         f_equal. now apply IH. }
    assert (L : forall l g0, lm_add_upgraded [] l g0 = (l, g0, false) :> maps * shared * bool).
    { induction l as [|[q t] l IHl]; intros g0; [reflexivity|]. cbn. now rewrite IHl. }
    rewrite L. apply IH. }
  rewrite K in E3. injection E3 as <- <- <-. eauto.
Qed.

(** An update with an invalid pose covariance throws and changes nothing. *)
Theorem C112_invalid_pose : forall fuel c dets outl ms g,
  lm_update fuel c false dets outl ms g = Ret (LThrow ms g) /\ lm_add_all c false dets ms g = LThrow ms g.
Proof. split; reflexivity. Qed.

(** A frame without a pose: every map, in order, takes a frame without a pose. *)
Theorem C112_no_pose : forall ms g,
  each (fun p s g s' g' => update_with_no_tracking p s g = (s', g')) ms g
    (fst (lm_update_no_pose ms g)) (snd (lm_update_no_pose ms g)).
Proof.
  induction ms as [|[p s] ms IH]; intros g; cbn; [constructor|].
  destruct (update_with_no_tracking p s g) as [s' g'] eqn:E. specialize (IH g').
  destruct (lm_update_no_pose ms g') as [r g'']. cbn in *. econstructor; eauto.
Qed.

(** The first frame: every map stages all the detections of its kind. *)
Theorem C112_add_all : forall c dets ms g, exists ms' g',
  lm_add_all c true dets ms g = LDone ms' g' /\
  each (fun p s g s' g' => add_features_to_staged_map p c true (dets (p_kind p)) [] s g = Some (s', g')) ms g ms' g'.
Proof.
  intros c dets ms g. unfold lm_add_all. cbn [negb].
  destruct (lm_add_loop c dets ms g) as [ms' g'] eqn:E. exists ms', g'. split; [reflexivity|].
  revert g ms' g' E. induction ms as [|[p s] ms IH]; cbn; intros g ms' g' E; [injection E as <- <-; constructor|].
  unfold add_all_features_to_staged_map in E.
  destruct (add_features_to_staged_map p c true (dets (p_kind p)) [] s g) as [[s1 g1]|] eqn:E1; [|now apply add_valid in E1].
  destruct (lm_add_loop c dets ms g1) as [r g2] eqn:E2. injection E as <- <-. econstructor; eauto.
Qed.

(** The search of matches: every map searches those of its kind among the
    detections of its kind; the matches handed over are those of all the maps, in
    order, and no identifier is drawn. *)
Theorem C112_find : forall v dets ms ms' mt,
  lm_find v dets ms = Ret (ms', mt) ->
  exists mts, mt = concat mts /\
    Forall2 (fun ps psm => fst (fst psm) = fst ps /\
       get_matches (fst ps) v (p_min_features (fst ps)) (dets (p_kind (fst ps))) (snd ps) = Ret (snd (fst psm), snd psm))
      ms (combine ms' mts) /\ length ms' = length ms /\ length mts = length ms.
Proof.
  intros v dets. induction ms as [|[p s] ms IH]; cbn; intros ms' mt H.
  - injection H as <- <-. exists []. repeat split. constructor.
  - destruct (get_matches p v (p_min_features p) (dets (p_kind p)) s) as [[s1 m1]| |] eqn:E1; cbn [bind] in H; try discriminate.
    destruct (lm_find v dets ms) as [[r m2]| |] eqn:E2; cbn [bind] in H; try discriminate. injection H as <- <-.
    destruct (IH _ _ eq_refl) as (mts & -> & F & L1 & L2). exists (m1 :: mts). cbn. split; [reflexivity|].
    split; [|split; congruence]. constructor; [|exact F]. cbn. auto.
Qed.

(** A reset empties every active map and keeps the others. *)
Theorem C112_reset : forall ms,
  Forall2 (fun ps ps' => fst ps' = fst ps /\
     (s_active (snd ps) = true -> s_local (snd ps') = [] /\ s_staged (snd ps') = []) /\
     (s_active (snd ps) = false -> snd ps' = snd ps)) ms (lm_reset ms).
Proof.
  induction ms as [|[p s] ms IH]; constructor; auto. cbn. unfold reset.
  destruct (s_active s) eqn:E; cbn; repeat split; congruence.
Qed.
End Family.
Print Assumptions C112_update.
Print Assumptions C112_no_change.
Print Assumptions C112_invalid_pose.
Print Assumptions C112_no_pose.
Print Assumptions C112_add_all.
Print Assumptions C112_find.
Print Assumptions C112_reset.

(** A frame of three kinds: the 2D point 100 leaves its staged map (identifier 2)
    and becomes the point of identifier 5, matched to the same detection. *)
Definition ex_family := [ex_points; ex_points2d; ex_planes].
Example C112_example : exists ms g r ms3 g3,
  sys_reachable ex_family (ms, g) /\ one_way ms /\
  lm_update 10 tt true ex_dets [] ms g = Ret r /\ r = LDone ms3 g3 /\ g_allocs (snd (result_state r)) < 2 ^ 64 /\
  all_ids ms = [1; 2; 3; 4] /\ all_ids ms3 = [5; 1; 3; 4] /\
  map (fun ps => s_local (snd ps)) ms3 = [[(5, mkFeat 5 0 1%Z [0%nat] 100%nat)]; []; []].
Proof.
  destruct (lexec 10 (LAddAll tt true ex_dets) (sys_init ex_family)) as [x| |] eqn:E1; try (vm_compute in E1; discriminate).
  destruct (lexec 10 (LFind tt ex_dets) x) as [[ms g]| |] eqn:E2;
    try (vm_compute in E1; injection E1 as <-; vm_compute in E2; discriminate).
  assert (R : sys_reachable ex_family (ms, g)).
  { apply lreach_sys. eapply lreach_op; [|exact E2]. eapply lreach_op; [|exact E1]. apply lreach_init. }
  exists ms, g. vm_compute in E1; injection E1 as <-; vm_compute in E2; injection E2 as <- <-.
  do 3 eexists. split; [exact R|]. split.
  { unfold one_way. apply Forall_cons; [left; reflexivity|]. apply Forall_cons; [right; reflexivity|]. apply Forall_cons; [left; reflexivity|constructor]. }
  split; [vm_compute; reflexivity|]. split; [reflexivity|]. vm_compute. repeat split; reflexivity.
Qed.

(** Known defect: when the constructor of a changed feature throws, the feature
    has already left its map and is in no map afterwards. *)
Definition ex_refusing : policy nat nat unit unit nat nat :=
  mkPolicy point_should_add point_should_remove point_is_lost
    (fun d => Nat.eqb d 66) (fun _ _ => true)
    (fun _ _ _ dets f flags => let r := ex_index (f_data f) 0 dets flags in (r, r))
    (fun _ d _ => (d, true)) (fun _ => true) (fun _ d => COk d) (fun d => Some d)
    (fun _ _ => None) 0 1 (fun u => Some (CThrow true)).
Theorem C112_thrown_refuted : exists ms g ms3 g3,
  sys_reachable [ex_refusing; ex_points2d; ex_planes] (ms, g) /\ one_way ms /\
  lm_update 10 tt true ex_dets [] ms g = Ret (LThrow ms3 g3) /\ In 2 (all_ids ms) /\ all_ids ms3 = [1; 3; 4].
Proof.
  destruct (lexec 10 (LAddAll tt true ex_dets) (sys_init [ex_refusing; ex_points2d; ex_planes])) as [x| |] eqn:E1; try (vm_compute in E1; discriminate).
  destruct (lexec 10 (LFind tt ex_dets) x) as [[ms g]| |] eqn:E2;
    try (vm_compute in E1; injection E1 as <-; vm_compute in E2; discriminate).
  assert (R : sys_reachable [ex_refusing; ex_points2d; ex_planes] (ms, g)).
  { apply lreach_sys. eapply lreach_op; [|exact E2]. eapply lreach_op; [|exact E1]. apply lreach_init. }
  exists ms, g. vm_compute in E1; injection E1 as <-; vm_compute in E2; injection E2 as <- <-.
  do 2 eexists. split; [exact R|]. split.
  { unfold one_way. apply Forall_cons; [left; reflexivity|]. apply Forall_cons; [right; reflexivity|]. apply Forall_cons; [left; reflexivity|constructor]. }
  split; [vm_compute; reflexivity|]. vm_compute. split; [auto|reflexivity].
Qed.
Print Assumptions C112_thrown_refuted.

(** Output moments, additions, termination, rejected updates and outliers. *)
From Coq Require Import Permutation ZifyBool ZifyNat ZifyN.
From Verif Require Import FeatureMapModel FeatureMapSpec FeatureMapProofs FeatureMapHistory LocalMapModel LocalMapProofs.
Local Open Scope N_scope.
Local Arguments size_t_mod : simpl never.

Section More.
Context {D Det Ctx View Mt U : Type}.
Notation pol_t := (policy D Det Ctx View Mt U).
Notation feat := (feat D).
Notation fmap := (fmap D).
Notation fstate := (fstate D).
Notation fop := (fop Det Ctx View U).
Notation maps := (list (pol_t * fstate)).
Implicit Types (p : pol_t) (m loc stg : fmap) (f : feat) (s : fstate) (o : fop) (ms : maps).

(** ** Identifiers never come back *)
Lemma sys_step_fresh (x y : maps * shared) i :
  sys_step x y -> sys_inv (fst x) (snd x) -> no_wrap (snd y) ->
  g_alloc (snd x) <= g_alloc (snd y) /\
  (In i (all_ids (fst y)) -> In i (all_ids (fst x)) \/ g_alloc (snd x) < i).
Proof.
  intros S. destruct S as [pre p s s' post g g' fuel o E|pre p s s' post g SC]; cbn [fst snd]; intros I NW.
  - pose proof (sys_inv_wf _ _ _ _ _ I) as W.
    pose proof (fexec_delta p _ _ _ _ _ _ W E NW) as (news & ws & rest & P & O & W' & L & Nn & In' & K1 & K2).
    split; auto. rewrite !all_ids_mid, !in_app_iff. intros [H|[H|H]]; auto.
    assert (X : In i (ids s ++ news)).
    { eapply Permutation_in; [symmetry; exact P|]. apply in_or_app. auto. }
    apply in_app_or in X. destruct X as [X|X]; auto. apply In' in X. right. lia.
  - split; [lia|]. destruct SC as (_ & _ & P1 & P2).
    rewrite !all_ids_mid, !in_app_iff. intros [H|[H|H]]; auto. left. right. left.
    unfold ids in *. apply in_app_or in H. apply in_or_app.
    destruct H as [H|H]; [left|right]; unfold keys in *; eapply Permutation_in; [|exact H| |exact H];
      symmetry; now apply Permutation_map.
Qed.

Lemma sys_steps_mono (x y : maps * shared) : sys_steps x y -> g_allocs (snd x) <= g_allocs (snd y).
Proof. intros S. induction S as [|x y z S IH T]; [lia|]. apply sys_mono in T. lia. Qed.

Lemma sys_steps_inv (x y : maps * shared) :
  sys_steps x y -> no_wrap (snd y) -> sys_inv (fst x) (snd x) -> sys_inv (fst y) (snd y).
Proof.
  intros S NW I. induction S as [|x y z S IH T]; auto. eapply sys_inv_step; eauto. apply IH; auto.
  apply sys_mono in T. unfold no_wrap in *. lia.
Qed.

Lemma never_back_aux (x y : maps * shared) i :
  sys_steps x y -> sys_inv (fst x) (snd x) -> no_wrap (snd y) ->
  i <= g_alloc (snd x) -> ~ In i (all_ids (fst x)) ->
  i <= g_alloc (snd y) /\ ~ In i (all_ids (fst y)).
Proof.
  intros S I NW. revert I. induction S as [|x y z S IH T]; intros I L N; auto.
  assert (NWy : no_wrap (snd y)) by (apply sys_mono in T; unfold no_wrap in *; lia).
  destruct (IH NWy I L N) as [L' N'].
  destruct (sys_step_fresh _ _ i T (sys_steps_inv _ _ S NWy I) NW) as [L2 F].
  split; [lia|]. intros H. apply F in H. destruct H as [H|H]; [auto|lia].
Qed.

Lemma never_back pols (x y z : maps * shared) i :
  sys_reachable pols x -> sys_steps x y -> sys_steps y z -> no_wrap (snd z) ->
  In i (all_ids (fst x)) -> ~ In i (all_ids (fst y)) -> ~ In i (all_ids (fst z)).
Proof.
  intros R S1 S2 NW Hx Hy.
  assert (NWy : no_wrap (snd y)) by (apply sys_steps_mono in S2; unfold no_wrap in *; lia).
  assert (NWx : no_wrap (snd x)) by (apply sys_steps_mono in S1; unfold no_wrap in *; lia).
  pose proof (sys_reach_inv _ _ R NWx) as Ix. pose proof (sys_steps_inv _ _ S1 NWy Ix) as Iy.
  assert (L : i <= g_alloc (snd y)).
  { pose proof (si_g _ _ Ix) as Gx. pose proof (si_g _ _ Iy) as Gy. unfold wf_shared in *.
    apply sys_steps_mono in S1. assert (i <= g_alloc (snd x)) by (apply (si_range _ _ Ix); apply in_or_app; auto). lia. }
  eapply never_back_aux; eauto.
Qed.

(** ** What an update does to one feature *)
Lemma apply_matches_data p c dets is d ok used d' ok' used' :
  apply_matches p c dets is d ok used = Ret (d', ok', used') ->
  d' = data_after p c dets is d /\ used' = used ++ successes p c dets is d.
Proof.
  revert d ok used. induction is as [|i is IH]; cbn; intros d ok used H.
  - injection H as <- <- <-. now rewrite app_nil_r.
  - destruct (nth_error dets i) as [det|]; [|discriminate].
    destruct (p_update p c d det) as [d1 res] eqn:E. apply IH in H. cbn. destruct H as [-> ->]. split; auto.
    destruct res; auto. rewrite <- app_assoc. reflexivity.
Qed.

Lemma update_one_data p c dets f0 f used :
  update_one p c dets f0 = Ret (f, used) ->
  f_data f = data_after p c dets (f_matches f0) (f_data f0) /\
  used = successes p c dets (f_matches f0) (f_data f0).
Proof.
  unfold update_one. destruct (apply_matches p c dets (f_matches f0) (f_data f0) false []) as [[[d ok] us]| |] eqn:E;
    cbn; intros H; try discriminate.
  injection H as <- <-. apply apply_matches_data in E. destruct E as [-> ->]. split; auto. now destruct ok.
Qed.

(** ** Output *)
Lemma update_local_map_written p c dets m g m' us g' :
  update_local_map p c dets m g = Ret (m', us, g') -> keyed m ->
  exists ws, g_out g' = g_out g ++ ws /\
  forall i, In i ws <->
    exists f0 f u, In (i, f0) m /\ update_one p c dets f0 = Ret (f, u) /\
                   p_is_lost p (f_failed f) = true /\ p_moving p (f_data f) = false.
Proof.
  revert g m' us g'. induction m as [|[k f0] m IH]; cbn; intros g m' us g' H K.
  - injection H as <- <- <-. exists []. rewrite app_nil_r. split; auto. intros i. split; [intros []|].
    intros (? & ? & ? & [] & _).
  - inversion K as [|? ? Hk K']; subst. cbn in Hk.
    destruct (update_one p c dets f0) as [[f u]| |] eqn:E; cbn in H; try discriminate.
    pose proof (update_one_id _ _ _ _ _ _ E) as Hid.
    destruct (p_is_lost p (f_failed f)) eqn:Lo.
    + destruct (update_local_map p c dets m (if p_moving p (f_data f) then g else write (f_id f) g)) as [[[r us1] g1]| |] eqn:E1;
        cbn in H; try discriminate.
      injection H as <- <- <-. apply IH in E1; auto. destruct E1 as (ws & O & Hws).
      destruct (p_moving p (f_data f)) eqn:Mo.
      * exists ws. split; auto. intros i. rewrite Hws. split.
        -- intros (a & b & u' & X & Y). exists a, b, u'. split; auto.
        -- intros (a & b & u' & [X|X] & Y1 & Y2 & Y3); [|eauto 8].
           injection X as -> ->. rewrite E in Y1. injection Y1 as <- <-. congruence.
      * exists (f_id f :: ws). cbn in O. rewrite O, <- app_assoc. split; auto. intros i. cbn. rewrite Hws. split.
        -- intros [<-|(a & b & u' & X & Y)].
           ++ exists f0, f, u. rewrite Hid, <- Hk. auto.
           ++ exists a, b, u'. auto.
        -- intros (a & b & u' & [X|X] & Y1 & Y2 & Y3); [|right; eauto 8].
           injection X as -> ->. left. rewrite E in Y1. injection Y1 as <- <-. congruence.
    + destruct (update_local_map p c dets m g) as [[[r us1] g1]| |] eqn:E1; cbn in H; try discriminate.
      injection H as <- <- <-. apply IH in E1; auto. destruct E1 as (ws & O & Hws). exists ws. split; auto.
      intros i. rewrite Hws. split.
      * intros (a & b & u' & X & Y). exists a, b, u'. auto.
      * intros (a & b & u' & [X|X] & Y1 & Y2 & Y3); [|eauto 8].
        injection X as -> ->. rewrite E in Y1. injection Y1 as <- <-. congruence.
Qed.

Lemma update_local_no_tracking_written p m g m' g' :
  update_local_no_tracking p m g = (m', g') -> keyed m ->
  exists ws, g_out g' = g_out g ++ ws /\
  forall i, In i ws <-> exists f0, In (i, f0) m /\ p_is_lost p (f_failed f0 + 1) = true.
Proof.
  revert g m' g'. induction m as [|[k f0] m IH]; cbn; intros g m' g' H K.
  - injection H as <- <-. exists []. rewrite app_nil_r. split; auto. intros i. split; [intros []|intros (? & [] & _)].
  - inversion K as [|? ? Hk K']; subst. cbn in Hk.
    destruct (p_is_lost p (f_failed f0 + 1)) eqn:Lo.
    + apply IH in H; auto. destruct H as (ws & O & Hws). cbn in O. exists (f_id f0 :: ws). rewrite O, <- app_assoc.
      split; auto. intros i. cbn. rewrite Hws. split.
      * intros [<-|(a & X & Y)]; [exists f0; rewrite <- Hk; auto|eauto].
      * intros (a & [X|X] & Y); [left; congruence|right; eauto].
    + destruct (update_local_no_tracking p m g) as [r g1] eqn:E. injection H as <- <-.
      apply IH in E; auto. destruct E as (ws & O & Hws). exists ws. split; auto. intros i. rewrite Hws. split.
      * intros (a & X & Y). eauto.
      * intros (a & [X|X] & Y); [|eauto]. injection X as -> ->. congruence.
Qed.

(** what is written by one operation: exactly the local features it loses by
    tracking failure, moving ones excepted when there is a pose *)
Lemma fexec_written p fuel o s g s' g' :
  wf s g -> fexec p fuel o s g = Ret (s', g') -> no_wrap g' ->
  exists ws, g_out g' = g_out g ++ ws /\
  forall i, In i ws <->
    exists f, lookup i (s_local s) = Some f /\ lookup i (s_local s') = None /\
      s_active s = true /\
      ((exists c dets, o = FUpdate c true dets /\ p_moving p (data_after p c dets (f_matches f) (f_data f)) = false) \/
       o = FNoTracking).
Proof.
  intros W H NW.
  assert (Removed : forall i f, lookup i (s_local s) = Some f -> _) by exact (fexec_local_removed p _ _ _ _ _ _ W H NW).
  pose proof (wf_nd_local _ _ W) as NDl.
  assert (Nothing : g_out g' = g_out g ->
      (forall c dets, o = FUpdate c true dets -> s_active s = false) -> (o = FNoTracking -> s_active s = false) ->
      exists ws, g_out g' = g_out g ++ ws /\
      forall i, In i ws <->
      exists f, lookup i (s_local s) = Some f /\ lookup i (s_local s') = None /\
      s_active s = true /\
      ((exists c dets, o = FUpdate c true dets /\ p_moving p (data_after p c dets (f_matches f) (f_data f)) = false) \/
       o = FNoTracking)).
  { intros O A B. exists []. rewrite app_nil_r. split; auto. intros i. split; [intros []|].
    intros (f & _ & _ & Ac & [(c & dets & X & _)|X]); [apply A in X|apply B in X]; congruence. }
  destruct o; cbn [fexec] in H; try (apply Nothing; [|discriminate|discriminate]).
  - destruct (get_matches p v (p_min_features p) dets s) as [[s1 mt]| |]; cbn in H; try discriminate. now injection H as <- <-.
  - unfold update_map in H. destruct (s_active s) eqn:Ac; cbn in H.
    2: { injection H as <- <-. apply Nothing; auto; discriminate. }
    destruct covOk; cbn in H.
    2: { injection H as <- <-. apply Nothing; auto; discriminate. }
    destruct (update_local_map p c dets (s_local s) g) as [[[loc us] g1]| |] eqn:E; cbn in H; try discriminate.
    destruct (update_staged_map p fuel c dets (s_staged s) loc) as [[[stg loc'] us2]| |] eqn:E2; cbn in H; try discriminate.
    injection H as <- <-. destruct (update_local_map_written _ _ _ _ _ _ _ _ E (wf_kl _ _ W)) as (ws & O & Hws).
    exists ws. split; auto. intros i. rewrite Hws. split.
    + intros (f0 & f & u & X & Y & Lo & Mo). exists f0. pose proof (in_lookup _ _ _ NDl X) as L.
      split; auto. split; [|split; [reflexivity|]].
      * apply (Removed _ _ L). unfold local_removal_cause. unfold fate_of. rewrite Ac. cbn.
        apply update_one_inv in Y. destruct Y as (_ & Y & _).
        destruct (any_success p c dets (f_matches f0) (f_data f0)); cbn; destruct Y as (<- & _); split; auto; discriminate.
      * left. exists c, dets. split; auto. apply update_one_data in Y. destruct Y as [<- _]. exact Mo.
    + intros (f0 & L & Rm & _ & [(c' & dets' & X & Mo)|X]); [|discriminate]. injection X as <- <-.
      pose proof (lookup_in _ _ _ L) as Hin.
      destruct (update_local_map_ret _ _ _ _ _ _ E _ _ Hin) as (f & u & Y).
      apply (Removed _ _ L) in Rm. cbn [local_removal_cause] in Rm.
      destruct Rm as [_ Lo]. exists f0, f, u. split; auto. split; auto.
      pose proof (update_one_inv _ _ _ _ _ _ Y) as (_ & Z & _). apply update_one_data in Y. destruct Y as [-> _]. split; auto.
      unfold fate_of in Lo. rewrite Ac in Lo. cbn in Lo.
      destruct (any_success p c dets (f_matches f0) (f_data f0)); cbn in Lo; destruct Z as (-> & _); exact Lo.
  - unfold update_with_no_tracking in H. destruct (s_active s) eqn:Ac; cbn in H.
    2: { injection H as <- <-. apply Nothing; auto; discriminate. }
    destruct (update_local_no_tracking p (s_local s) g) as [loc g1] eqn:E. injection H as <- <-.
    destruct (update_local_no_tracking_written _ _ _ _ _ E (wf_kl _ _ W)) as (ws & O & Hws).
    exists ws. split; auto. intros i. rewrite Hws. split.
    + intros (f0 & X & Lo). exists f0. pose proof (in_lookup _ _ _ NDl X) as L. repeat split; auto.
      apply (Removed _ _ L). cbn. unfold fate_of. rewrite Ac. cbn. split; [discriminate|exact Lo].
    + intros (f0 & L & Rm & _). exists f0. split; [now apply lookup_in|]. apply (Removed _ _ L) in Rm.
      cbn in Rm. unfold fate_of in Rm. rewrite Ac in Rm. apply Rm.
  - unfold add_features_to_staged_map in H.
    destruct (s_active s) eqn:Ac; cbn in H; [|now injection H as <- <-].
    destruct covOk; cbn in H; [|now injection H as <- <-].
    destruct (add_features p c 0 dets used (s_staged s) g) as [stg g1] eqn:E. injection H as <- <-.
    apply add_features_ok in E; [|apply W| |exact NW].
    2: { intros j Hj. apply (wf_below _ _ W). unfold ids. apply in_or_app. auto. }
    destruct E as (news & (_ & O & _) & _). exact O.
  - destruct (mark_outliers outl s) as [s1| |]; cbn in H; try discriminate. now injection H as <- <-.
  - now injection H as <- <-.
  - destruct (add_upgraded_features p us s g) as [[s1 g1] b] eqn:E. injection H as <- <-.
    apply add_upgraded_ok in E; [|apply W| |exact NW].
    2: { intros j Hj. apply (wf_below _ _ W). unfold ids. apply in_or_app. auto. }
    destruct E as (news & (_ & O & _) & _). exact O.
  - now injection H as <- <-.
  - now injection H as <- <-.
Qed.

(** ** Additions *)
Lemma update_local_map_used p c dets m g m' us g' :
  update_local_map p c dets m g = Ret (m', us, g') ->
  forall i, In i us <-> exists k f, In (k, f) m /\ In i (successes p c dets (f_matches f) (f_data f)).
Proof.
  revert g m' us g'. induction m as [|[k f0] m IH]; cbn; intros g m' us g' H i.
  - injection H as <- <- <-. split; [intros []|intros (? & ? & [] & _)].
  - destruct (update_one p c dets f0) as [[f u]| |] eqn:E; cbn in H; try discriminate.
    apply update_one_data in E. destruct E as [_ ->].
    assert (Fin : forall us1, us = successes p c dets (f_matches f0) (f_data f0) ++ us1 ->
       (In i us1 <-> exists k f, In (k, f) m /\ In i (successes p c dets (f_matches f) (f_data f))) ->
       (In i us <-> exists k' f', ((k, f0) = (k', f') \/ In (k', f') m) /\ In i (successes p c dets (f_matches f') (f_data f')))).
    { intros us1 -> Hu. rewrite in_app_iff, Hu. split.
      - intros [X|(a & b & X & Y)]; eauto.
      - intros (a & b & [X|X] & Y); [injection X as <- <-; auto|right; eauto]. }
    destruct (p_is_lost p (f_failed f)).
    + destruct (update_local_map p c dets m (if p_moving p (f_data f) then g else write (f_id f) g)) as [[[r us1] g1]| |] eqn:E1;
        cbn in H; try discriminate.
      injection H as <- <- <-. apply (Fin us1); auto. eapply IH; eauto.
    + destruct (update_local_map p c dets m g) as [[[r us1] g1]| |] eqn:E1; cbn in H; try discriminate.
      injection H as <- <- <-. apply (Fin us1); auto. eapply IH; eauto.
Qed.

Lemma update_staged_map_used p fuel c dets m loc m' loc' us :
  update_staged_map p fuel c dets m loc = Ret (m', loc', us) ->
  forall i, In i us <-> exists k f, In (k, f) m /\ In i (f_matches f).
Proof.
  revert m loc m' loc' us. induction fuel as [|fuel IH]; intros m loc m' loc' us H i.
  - destruct m as [|[k f0] m]; cbn in H; [|discriminate]. injection H as <- <- <-.
    split; [intros []|intros (? & ? & [] & _)].
  - destruct m as [|[k f0] m]; cbn [update_staged_map] in H.
    { injection H as <- <- <-. split; [intros []|intros (? & ? & [] & _)]. }
    destruct (update_one p c dets f0) as [[f u]| |] eqn:E; cbn [bind] in H; try discriminate.
    apply update_one_inv in E. destruct E as (_ & E & _).
    assert (Fin : forall us1, us = f_matches f0 ++ us1 ->
       (In i us1 -> In i (f_matches f0) \/ exists k f, In (k, f) m /\ In i (f_matches f)) ->
       ((exists k f, In (k, f) m /\ In i (f_matches f)) -> In i us1) ->
       (In i us <-> exists k' f', In (k', f') ((k, f0) :: m) /\ In i (f_matches f'))).
    { intros us1 -> H1 H2. rewrite in_app_iff. split.
      - cbn. intros [X|X]; [eauto|]. apply H1 in X. destruct X as [X|(a & b & X & Y)]; eauto.
      - intros (a & b & [X|X] & Y); [injection X as <- <-; auto|right; eauto]. }
    destruct (p_should_add p (f_failed f) (f_succ f)).
    + destruct (p_mk_local p (f_data f)) as [d|].
      * destruct (update_staged_map p fuel c dets m (emplace (f_id f) (promoted f d) loc)) as [[[r l1] us1]| |] eqn:E1;
          cbn in H; try discriminate.
        injection H as <- <- <-. pose proof (IH _ _ _ _ _ E1 i) as X. apply (Fin us1); tauto.
      * destruct (update_staged_map p fuel c dets ((k, f) :: m) loc) as [[[r l1] us1]| |] eqn:E1;
          cbn in H; try discriminate.
        injection H as <- <- <-. pose proof (IH _ _ _ _ _ E1 i) as X. apply (Fin us1); auto.
        -- intros Y. apply X in Y. destruct Y as (a & b & [Y|Y] & Z); [|right; eauto]. injection Y as <- <-. left.
           destruct (any_success p c dets (f_matches f0) (f_data f0)); destruct E as (_ & _ & E); rewrite E in Z;
             [exact Z|destruct Z].
        -- intros (a & b & Y & Z). apply X. exists a, b. split; auto. now right.
    + destruct (p_should_remove p (f_failed f) (f_succ f)).
      * destruct (update_staged_map p fuel c dets m loc) as [[[r l1] us1]| |] eqn:E1; cbn in H; try discriminate.
        injection H as <- <- <-. pose proof (IH _ _ _ _ _ E1 i) as X. apply (Fin us1); tauto.
      * destruct (update_staged_map p fuel c dets m loc) as [[[r l1] us1]| |] eqn:E1; cbn in H; try discriminate.
        injection H as <- <- <-. pose proof (IH _ _ _ _ _ E1 i) as X. apply (Fin us1); tauto.
Qed.

Lemma update_map_used p fuel c dets s g s' g' used :
  s_active s = true -> update_map p fuel c true dets s g = Ret (MDone s' g' used) ->
  forall i, In i used <-> claimed p c dets s i.
Proof.
  intros Ac H i. unfold update_map in H. rewrite Ac in H. cbn in H.
  destruct (update_local_map p c dets (s_local s) g) as [[[loc us] g1]| |] eqn:E; cbn in H; try discriminate.
  destruct (update_staged_map p fuel c dets (s_staged s) loc) as [[[stg loc'] us2]| |] eqn:E2; cbn in H; try discriminate.
  injection H as <- <- <-. unfold claimed. rewrite in_app_iff.
  rewrite (update_local_map_used _ _ _ _ _ _ _ _ E i), (update_staged_map_used _ _ _ _ _ _ _ _ _ E2 i). reflexivity.
Qed.

Lemma add_features_news p c i dets used stg g stg' g' :
  wf_shared g -> below g (keys stg) ->
  add_features p c i dets used stg g = (stg', g') -> no_wrap g' ->
  exists news, drew g (keys news) g' /\ stg' = stg ++ news /\
    (forall k f, In (k, f) news -> exists d, f = fresh_feat k d) /\
    map (fun kf => f_data (snd kf)) news =
    flat_map (fun id : nat * Det =>
              if existsb (Nat.eqb (fst id)) used then []
              else if p_can_add p (snd id)
              then match p_mk_staged p c (snd id) with COk d => [d] | CThrow _ => [] end
              else []) (combine (seq i (length dets)) dets).
Proof.
  revert i stg g. induction dets as [|det dets IH]; cbn -[no_wrap]; intros i stg g Wg B H NW.
  - injection H as <- <-. exists []. rewrite app_nil_r. split; [now apply drew_refl|]. split; auto. split; auto. intros k f [].
  - destruct (existsb (Nat.eqb i) used) eqn:X.
    + apply IH in H; auto.
    + destruct (add_detected p c det stg g) as [stg1 g1] eqn:E.
      assert (NW1 : no_wrap g1) by (apply add_features_mono in H; unfold no_wrap in *; lia).
      pose proof (add_detected_ok _ _ _ _ _ _ _ Wg B E NW1) as (n1 & D1 & -> & F1).
      assert (B1 : below g1 (keys (stg ++ n1))).
      { intros j Hj. rewrite keys_app in Hj. apply in_app_or in Hj. destruct D1 as (_ & _ & L & _ & I).
        destruct Hj as [Hj|Hj]; [apply B in Hj|apply I in Hj]; lia. }
      apply IH in H; auto; [|apply D1]. destruct H as (n2 & D2 & -> & F2 & M2).
      exists (n1 ++ n2). split; [rewrite keys_app; eapply drew_app; eauto|].
      split; [now rewrite app_assoc|]. split.
      { intros k f Hin. apply in_app_or in Hin. destruct Hin; eauto. }
      rewrite map_app, M2. f_equal.
      unfold add_detected in E. destruct (p_can_add p det).
      2: { injection E as E _. rewrite <- (app_nil_r stg) in E at 1. apply app_inv_head in E. now subst n1. }
      destruct (p_mk_staged p c det) as [d|[|]].
      * destruct (draw_id g) as [j g2] eqn:Dr. injection E as E <-. pose proof (draw_id_ok _ _ _ Wg Dr NW1) as [_ Ej].
        rewrite emplace_new in E by (intros Hj; apply B in Hj; lia).
        apply app_inv_head in E. now subst n1.
      * destruct (draw_id g) as [j g2]. injection E as E _. rewrite <- (app_nil_r stg) in E at 1. apply app_inv_head in E. now subst n1.
      * injection E as E _. rewrite <- (app_nil_r stg) in E at 1. apply app_inv_head in E. now subst n1.
Qed.

(** ** Termination *)
Lemma apply_matches_no_diverge p c dets is d ok used : apply_matches p c dets is d ok used <> Diverge.
Proof.
  revert d ok used. induction is as [|i is IH]; cbn; intros d ok used; [discriminate|].
  destruct (nth_error dets i); [|discriminate]. destruct (p_update p c d d0). apply IH.
Qed.
Lemma update_one_no_diverge p c dets f : update_one p c dets f <> Diverge.
Proof.
  unfold update_one. pose proof (apply_matches_no_diverge p c dets (f_matches f) (f_data f) false []) as H.
  destruct (apply_matches p c dets (f_matches f) (f_data f) false []) as [[[? ?] ?]| |]; cbn; congruence.
Qed.
Lemma update_local_no_diverge p c dets m g : update_local_map p c dets m g <> Diverge.
Proof.
  revert g. induction m as [|[k f0] m IH]; cbn; intros g; [discriminate|].
  pose proof (update_one_no_diverge p c dets f0).
  destruct (update_one p c dets f0) as [[f u]| |]; cbn; try congruence.
  destruct (p_is_lost p (f_failed f)).
  - specialize (IH (if p_moving p (f_data f) then g else write (f_id f) g)).
    destruct (update_local_map p c dets m (if p_moving p (f_data f) then g else write (f_id f) g)) as [[[? ?] ?]| |]; cbn; congruence.
  - specialize (IH g). destruct (update_local_map p c dets m g) as [[[? ?] ?]| |]; cbn; congruence.
Qed.
Lemma update_staged_no_diverge p fuel c dets m loc :
  never_throws p -> (length m <= fuel)%nat -> update_staged_map p fuel c dets m loc <> Diverge.
Proof.
  intros NT. revert m loc. induction fuel as [|fuel IH]; intros m loc L.
  - destruct m as [|[k f] m]; [discriminate|cbn in L; lia].
  - destruct m as [|[k f0] m]; [discriminate|]. cbn [update_staged_map]. cbn in L.
    pose proof (update_one_no_diverge p c dets f0).
    destruct (update_one p c dets f0) as [[f u]| |]; cbn [bind]; try congruence.
    destruct (p_should_add p (f_failed f) (f_succ f)).
    + destruct (p_mk_local p (f_data f)) as [d|] eqn:ML; [|now apply NT in ML].
      specialize (IH m (emplace (f_id f) (promoted f d) loc)).
      destruct (update_staged_map p fuel c dets m (emplace (f_id f) (promoted f d) loc)) as [[[? ?] ?]| |]; cbn [bind]; try congruence.
      intros _. apply IH; auto; lia.
    + specialize (IH m loc).
      destruct (p_should_remove p (f_failed f) (f_succ f));
        (destruct (update_staged_map p fuel c dets m loc) as [[[? ?] ?]| |]; cbn [bind]; try congruence;
         intros _; apply IH; auto; lia).
Qed.
Lemma update_map_no_diverge p fuel c covOk dets s g :
  never_throws p -> (length (s_staged s) <= fuel)%nat -> update_map p fuel c covOk dets s g <> Diverge.
Proof.
  intros NT L. unfold update_map. destruct (negb (s_active s)); [discriminate|]. destruct (negb covOk); [discriminate|].
  pose proof (update_local_no_diverge p c dets (s_local s) g) as A.
  destruct (update_local_map p c dets (s_local s) g) as [[[loc ?] ?]| |]; cbn [bind]; try congruence.
  pose proof (update_staged_no_diverge p fuel c dets (s_staged s) loc NT L) as B.
  destruct (update_staged_map p fuel c dets (s_staged s) loc) as [[[? ?] ?]| |]; cbn [bind]; congruence.
Qed.

(** a staged feature whose promotion fails for ever while its matches keep
    succeeding blocks the update *)
Lemma update_staged_stuck p c dets m loc k f0 fuel :
  (forall d, p_mk_local p d = None) ->
  (forall d i, In i (f_matches f0) -> exists det, nth_error dets i = Some det /\ snd (p_update p c d det) = true) ->
  f_matches f0 <> [] ->
  (forall n, (f_succ f0 < n)%Z -> p_should_add p 0 n = true) ->
  update_staged_map p fuel c dets ((k, f0) :: m) loc = Diverge.
Proof.
  intros ML Up NE. revert f0 Up NE. induction fuel as [|fuel IH]; intros f0 Up NE SA; [reflexivity|].
  cbn [update_staged_map].
  assert (AM : forall is d ok used, (forall i, In i is -> In i (f_matches f0)) ->
     exists d' used', apply_matches p c dets is d ok used = Ret (d', ok || match is with [] => false | _ => true end, used')).
  { induction is as [|i is IHi]; cbn; intros d ok used Hi.
    - rewrite orb_false_r. eauto.
    - destruct (Up d i (Hi i (or_introl eq_refl))) as (det & -> & Ok).
      destruct (p_update p c d det) as [d1 res]. cbn in Ok. subst res.
      destruct (IHi d1 (ok || true) (used ++ [i])) as (d' & u' & X); [auto|].
      rewrite X. exists d', u'. destruct ok, is; reflexivity. }
  destruct (AM (f_matches f0) (f_data f0) false [] (fun i H => H)) as (d' & u' & X).
  assert (E : update_one p c dets f0 = Ret (update_matched (set_data d' f0), u')).
  { unfold update_one. rewrite X. cbn. destruct (f_matches f0); [now elim NE|reflexivity]. }
  rewrite E. cbn [bind]. cbn [update_matched set_data f_failed f_succ f_data f_matches f_id].
  rewrite SA by lia. rewrite ML. rewrite IH; auto. cbn. intros n Hn. apply SA. lia.
Qed.

(** ** Outliers *)
Lemma set_flag_spec i b l l' :
  set_flag i b l = Some l' ->
  (i < length l)%nat /\ length l' = length l /\
  forall j, nth_error l' j = if Nat.eqb j i then Some b else nth_error l j.
Proof.
  revert i l'. induction l as [|x l IH]; intros [|i] l' H; cbn in H; try discriminate.
  - injection H as <-. cbn. split; [lia|]. split; auto. intros [|j]; reflexivity.
  - destruct (set_flag i b l) as [r|] eqn:E; [|discriminate]. injection H as <-.
    apply IH in E. destruct E as (A & B & C). cbn. split; [lia|]. split; [lia|]. intros [|j]; [reflexivity|]. cbn. apply C.
Qed.
Lemma set_flag_none i b l : set_flag i b l = None <-> (length l <= i)%nat.
Proof.
  revert i. induction l as [|x l IH]; intros [|i]; cbn; split; intros H; try lia; auto; try discriminate.
  - destruct (set_flag i b l) eqn:E; [discriminate|]. apply IH in E. lia.
  - assert (X : (length l <= i)%nat) by lia. apply IH in X. now rewrite X.
Qed.

Lemma mark_feature_frame id det s s' b :
  mark_feature_with_id_as_unmatched id det s = Ret (s', b) ->
  (b = true <-> s_active s = true /\ id <> 0 /\ in_map id s) /\
  (b = false -> s' = s) /\
  s_active s' = s_active s /\
  (forall k, lookup k (s_local s') =
             option_map (fun f => if b && N.eqb k id then mark_unmatched_id det f else f) (lookup k (s_local s))) /\
  (forall k, lookup k (s_staged s') =
             option_map (fun f => if b && N.eqb k id && negb (existsb (N.eqb id) (keys (s_local s)))
                                  then mark_unmatched_id det f else f) (lookup k (s_staged s))) /\
  (forall j, nth_error (s_flags s') j =
             if b && Nat.eqb j det && existsb (fun kf => N.eqb (fst kf) id && is_matched (snd kf))
                       (match lookup id (s_local s) with Some f => [(id, f)] | None =>
                          match lookup id (s_staged s) with Some f => [(id, f)] | None => [] end end)
             then Some false else nth_error (s_flags s) j).
Proof.
  intros H. unfold mark_feature_with_id_as_unmatched in H.
  assert (OM : forall m k (q : feat -> feat), (forall f, q f = f) -> lookup k m = option_map q (lookup k m)).
  { intros m k q Hq. destruct (lookup k m); cbn; now rewrite ?Hq. }
  assert (Triv : b = false -> s' = s -> ~ (s_active s = true /\ id <> 0 /\ in_map id s) ->
    (b = true <-> s_active s = true /\ id <> 0 /\ in_map id s) /\
  (b = false -> s' = s) /\
  s_active s' = s_active s /\
  (forall k, lookup k (s_local s') =
             option_map (fun f => if b && N.eqb k id then mark_unmatched_id det f else f) (lookup k (s_local s))) /\
  (forall k, lookup k (s_staged s') =
             option_map (fun f => if b && N.eqb k id && negb (existsb (N.eqb id) (keys (s_local s)))
                                  then mark_unmatched_id det f else f) (lookup k (s_staged s))) /\
  (forall j, nth_error (s_flags s') j =
             if b && Nat.eqb j det && existsb (fun kf => N.eqb (fst kf) id && is_matched (snd kf))
                       (match lookup id (s_local s) with Some f => [(id, f)] | None =>
                          match lookup id (s_staged s) with Some f => [(id, f)] | None => [] end end)
             then Some false else nth_error (s_flags s) j)).
  { intros -> -> NX. split; [split; [discriminate|tauto]|]. split; [reflexivity|]. split; [reflexivity|]. cbn. split; [|split]; intros; [apply OM; auto..|reflexivity]. }
  assert (EX : forall m, lookup id m = None -> existsb (N.eqb id) (keys m) = false).
  { intros m Hm. destruct (existsb (N.eqb id) (keys m)) eqn:X; auto. apply existsb_exists in X.
    destruct X as (y & Y1 & Y2). apply N.eqb_eq in Y2. subst y. apply lookup_none in Hm. tauto. }
  assert (EX2 : forall m f, lookup id m = Some f -> existsb (N.eqb id) (keys m) = true).
  { intros m f Hm. apply existsb_exists. exists id. split; [|apply N.eqb_refl]. apply in_keys. exists f. now apply lookup_in. }
  assert (UM : forall f, is_matched f = false -> mark_unmatched_id det f = f).
  { intros [a b' c [|x l] d] X; [reflexivity|discriminate]. }
  destruct (s_active s) eqn:Ac; cbn [negb] in H; [|injection H as <- <-; apply Triv; auto; tauto || (intros (X & _); congruence)].
  destruct (N.eqb_spec id invalidId) as [->|Hid]; [injection H as <- <-; apply Triv; auto; unfold invalidId; tauto|].
  destruct (lookup id (s_local s)) as [f|] eqn:L.
  - assert (IM : in_map id s) by (left; apply in_keys; exists f; now apply lookup_in).
    assert (Tr : true = true <-> true = true /\ id <> 0 /\ in_map id s) by (unfold invalidId in Hid; tauto).
    destruct (is_matched f) eqn:M.
    + cbn [set_flags] in H. destruct (set_flag det false (s_flags s)) as [fl|] eqn:SF; cbn in H; [|discriminate].
      injection H as <- <-. split; auto. split; [discriminate|]. split; auto. cbn [s_local s_staged s_flags].
      split; [|split].
      * intros k. rewrite modify_lookup. destruct (N.eqb k id); cbn; auto. 
      * intros k. rewrite (EX2 _ _ L). apply OM. intros f0. cbn. now rewrite andb_false_r.
      * intros j. apply set_flag_spec in SF. destruct SF as (_ & _ & SF). rewrite SF. cbn. rewrite N.eqb_refl, M. cbn.
        now rewrite andb_true_r.
    + injection H as <- <-. split; auto. split; auto. split; auto. split; [|split].
      * intros k. cbn. destruct (N.eqb_spec k id) as [->|]; [|now apply OM]. rewrite L. cbn. now rewrite UM.
      * intros k. rewrite (EX2 _ _ L). apply OM. intros f0. cbn. now rewrite andb_false_r.
      * intros j. cbn. rewrite N.eqb_refl, M. cbn. now rewrite andb_false_r.
  - destruct (lookup id (s_staged s)) as [f|] eqn:L2.
    + assert (IM : in_map id s) by (right; apply in_keys; exists f; now apply lookup_in).
      assert (Tr : true = true <-> true = true /\ id <> 0 /\ in_map id s) by (unfold invalidId in Hid; tauto).
      assert (NL : forall k, lookup k (s_local s) =
          option_map (fun f0 : feat => if true && N.eqb k id then mark_unmatched_id det f0 else f0) (lookup k (s_local s))).
      { intros k. cbn. destruct (N.eqb_spec k id) as [->|]; [now rewrite L|now apply OM]. }
      destruct (is_matched f) eqn:M.
      * cbn [set_flags] in H. destruct (set_flag det false (s_flags s)) as [fl|] eqn:SF; cbn in H; [|discriminate].
        injection H as <- <-. split; auto. split; [discriminate|]. split; auto. cbn [s_local s_staged s_flags].
        split; [exact NL|split].
        -- intros k. rewrite modify_lookup, (EX _ L). cbn. rewrite andb_true_r. destruct (N.eqb k id); cbn; auto.
        -- intros j. apply set_flag_spec in SF. destruct SF as (_ & _ & SF). rewrite SF. cbn. rewrite N.eqb_refl, M. cbn.
           now rewrite andb_true_r.
      * injection H as <- <-. split; auto. split; auto. split; auto. split; [exact NL|split].
        -- intros k. rewrite (EX _ L). cbn. rewrite andb_true_r. destruct (N.eqb_spec k id) as [->|]; [|now apply OM].
           rewrite L2. cbn. now rewrite UM.
        -- intros j. cbn. rewrite N.eqb_refl, M. cbn. now rewrite andb_false_r.
    + injection H as <- <-. apply Triv; auto. intros (_ & _ & [X|X]).
      * apply lookup_none in L. tauto.
      * apply lookup_none in L2. tauto.
Qed.

(** ** Staged features are only removed by updates, upgrades and resets *)
Lemma fexec_staged_kept p fuel o s g s' g' :
  wf s g -> fexec p fuel o s g = Ret (s', g') -> no_wrap g' ->
  forall i f, lookup i (s_staged s) = Some f -> lookup i (s_staged s') = None ->
  fate_of p o s f <> Untouched \/ (o = FReset /\ s_active s = true) \/ (exists c, o = FUpgradeOut c /\ p_upgrade p c f <> None).
Proof.
  intros W H NW i f L L'. pose proof (wf_nd_staged _ _ W) as NDs.
  destruct o; cbn [fexec] in H.
  - destruct (get_matches p v (p_min_features p) dets s) as [[s1 mt]| |] eqn:E; cbn in H; try discriminate.
    injection H as <- <-. apply get_matches_inv in E. destruct E as (_ & _ & E & _).
    apply lookup_none in L'. destruct E as [E _]. rewrite E in L'. exfalso. apply L'. apply in_keys. exists f. now apply lookup_in.
  - destruct (s_active s) eqn:Ac.
    + destruct covOk.
      * left. unfold fate_of. rewrite Ac. cbn. destruct (any_success p c dets (f_matches f) (f_data f)); discriminate.
      * unfold update_map in H. rewrite Ac in H. cbn in H. injection H as <- <-. congruence.
    + unfold update_map in H. rewrite Ac in H. cbn in H. injection H as <- <-. congruence.
  - destruct (s_active s) eqn:Ac.
    + left. unfold fate_of. rewrite Ac. discriminate.
    + unfold update_with_no_tracking in H. rewrite Ac in H. cbn in H. injection H as <- <-. congruence.
  - unfold add_features_to_staged_map in H.
    destruct (s_active s) eqn:Ac; cbn in H; [|injection H as <- <-; congruence].
    destruct covOk; cbn in H; [|injection H as <- <-; congruence].
    destruct (add_features p c 0 dets used (s_staged s) g) as [stg g1] eqn:E. injection H as <- <-. cbn in L'.
    apply add_features_ok in E; [|apply W| |exact NW].
    2: { intros j Hj. apply (wf_below _ _ W). unfold ids. apply in_or_app. auto. }
    destruct E as (news & _ & -> & _). exfalso. apply lookup_none in L'. apply L'. rewrite keys_app. apply in_or_app. left.
    apply in_keys. exists f. now apply lookup_in.
  - destruct (mark_outliers outl s) as [s1| |] eqn:E; cbn in H; try discriminate.
    injection H as <- <-. apply mark_outliers_inv in E. destruct E as (_ & _ & E).
    apply lookup_none in L'. destruct E as [E _]. rewrite E in L'. exfalso. apply L'. apply in_keys. exists f. now apply lookup_in.
  - injection H as <- <-. unfold get_upgraded_features in L'.
    destruct (upgrade_loop p c (s_local s)) as [loc u1] eqn:E1.
    destruct (upgrade_loop p c (s_staged s)) as [stg u2] eqn:E2. cbn in L'.
    right. right. exists c. split; auto. intros X. apply lookup_none in L'. apply L'. apply in_keys. exists f.
    apply (upgrade_loop_in _ _ _ _ _ E2). split; auto. now apply lookup_in.
  - destruct (add_upgraded_features p us s g) as [[s1 g1] b] eqn:E. injection H as <- <-.
    apply add_upgraded_ok in E; [|apply W| |exact NW].
    2: { intros j Hj. apply (wf_below _ _ W). unfold ids. apply in_or_app. auto. }
    destruct E as (news & _ & -> & _). cbn in L'. congruence.
  - injection H as <- <-. unfold reset in L'. destruct (s_active s) eqn:Ac; [auto|cbn in L'; congruence].
  - injection H as <- <-. cbn in L'. congruence.
Qed.

End More.

(** ** Counters policies of the three kinds *)
From Coq Require Import QArith Lqa.
Lemma point_confidence_pos f z : point_should_remove f z = true <-> (z <= 0)%Z.
Proof.
  unfold point_should_remove, point_confidence, qclamp, pointStagedAgeConfidence.
  assert (E : (inject_Z z * / inject_Z 3 == z # 3)%Q) by (rewrite (Qmake_Qdiv z 3); reflexivity).
  destruct (Qle_bool (inject_Z z * / inject_Z 3) (-1)) eqn:A.
  - apply Qle_bool_iff in A. rewrite E in A. unfold Qle in A. cbn in A. split; [lia|reflexivity].
  - destruct (Qle_bool 1 (inject_Z z * / inject_Z 3)) eqn:B.
    + apply Qle_bool_iff in B. rewrite E in B. unfold Qle in B. cbn in B. split; [discriminate|lia].
    + rewrite Qle_bool_iff, E. unfold Qle. cbn. lia.
Qed.
Lemma point_confidence_add f z : point_should_add f z = true <-> (3 <= z)%Z.
Proof.
  unfold point_should_add, point_confidence, qclamp, pointStagedAgeConfidence, pointMinimumConfidenceForMap.
  assert (E : (inject_Z z * / inject_Z 3 == z # 3)%Q) by (rewrite (Qmake_Qdiv z 3); reflexivity).
  destruct (Qle_bool (inject_Z z * / inject_Z 3) (-1)) eqn:A.
  - apply Qle_bool_iff in A. rewrite E in A. unfold Qle in A. cbn in A. split; [discriminate|lia].
  - destruct (Qle_bool 1 (inject_Z z * / inject_Z 3)) eqn:B.
    + apply Qle_bool_iff in B. rewrite E in B. unfold Qle in B. cbn in B. split; [lia|reflexivity].
    + assert (~ (1 <= z # 3)%Q) by (rewrite <- E, <- Qle_bool_iff; congruence).
      unfold Qle in H. cbn in H.
      rewrite negb_true_iff, <- not_true_iff_false, Qle_bool_iff, E. unfold Qle. cbn. lia.
Qed.

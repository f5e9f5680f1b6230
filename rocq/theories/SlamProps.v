(** Properties C10-C12 and C52 of the tracking loop. *)
From Coq Require Import Permutation ZifyBool ZifyNat ZifyN.
From Verif Require Import FeatureMapModel FeatureMapSpec FeatureMapProofs LocalMapModel LocalMapProofs
  SlamModel SlamSpec.
Local Open Scope N_scope.
Opaque uint_mod.

Section Proofs.
Context {D Det Ctx View Mt U P : Type}.
Notation slam := (slam D Det Ctx View Mt U P).
Notation frame := (frame D Det Ctx View Mt U P).
Variable ops : pose_ops Ctx View P.
Variable pols : list (policy D Det Ctx View Mt U).
Variable start : P.
Notation session := (session ops pols start).

(** everything about one step *)
Lemma step_spec (f : frame) (s s' : slam) a :
  sl_step ops f s = Ret (Done s' a) ->
  po_cov_valid ops (sl_pose s) = true /\
  an_pose a = sl_pose s' /\
  sl_pose s' = match optimised_pose ops f s with Some p => p | None => sl_pose s end /\
  an_redetect a = sl_lost s || N.eqb (sl_count s mod 5) 0 /\
  sl_count s' = sl_count s mod 5 + 1 /\
  sl_first s' = false /\
  sl_failed s' = (if frame_success ops f s then 0 else if sl_first s then sl_failed s else fail_count (sl_failed s)) /\
  sl_lost s' = (if frame_success ops f s then false else if sl_first s then sl_lost s else N.ltb 3 (sl_failed s')).
Proof.
  unfold sl_step, optimised_pose, frame_success, frame_matches, frame_detections.
  change keypointRefreshFrequency with 5.
  destruct (po_cov_valid ops (sl_pose s)); cbn [negb]; [|discriminate].
  assert (Rd : N.eqb (sl_count s mod 5 + 1) 1 = N.eqb (sl_count s mod 5) 0).
  { destruct (N.eqb_spec (sl_count s mod 5 + 1) 1); destruct (N.eqb_spec (sl_count s mod 5) 0); auto; lia. }
  rewrite Rd.
  destruct (lm_find (po_view ops (sl_pose s)) _ (sl_maps s)) as [[ms mt]| |]; cbn [bind]; try discriminate.
  destruct (sl_first s) eqn:F; cbv iota.
  - destruct (lm_update_no_pose ms (sl_shared s)) as [ms1 g1].
    destruct (if sl_lost s && po_pos_cov_valid ops (sl_pose s) then _ else _) as [ms2 g2].
    intros H. injection H as <- <-. cbn. repeat split.
  - destruct (fr_optimise f (sl_pose s) mt) as [[p outl]|].
    + destruct (lm_update (fr_fuel f) (po_ctx ops p) (po_pos_cov_valid ops p) _ outl ms (sl_shared s)) as [[ms1 g1|ms1 g1]| |];
        cbn [bind]; try discriminate.
      * intros H. injection H as <- <-. cbn. repeat split.
      * destruct (lm_update_no_pose ms1 g1) as [ms2 g2]. intros H. injection H as <- <-. cbn. repeat split.
    + destruct (lm_update_no_pose ms (sl_shared s)) as [ms1 g1].
      destruct (if sl_lost s && po_pos_cov_valid ops (sl_pose s) then _ else _) as [ms2 g2].
      intros H. injection H as <- <-. cbn. repeat split.
Qed.

Lemma session_first evs s : session evs s -> sl_first s = match evs with [] => true | _ => false end.
Proof.
  intros R. destruct R as [|evs s f s' a R E]; [reflexivity|].
  apply step_spec in E. destruct E as (_ & _ & _ & _ & _ & F & _). rewrite F. now destruct evs.
Qed.

Lemma last_optimised_snoc (evs : list (event (P := P))) e :
  last_optimised start (evs ++ [e]) =
  match ev_optimised e with Some q => q | None => last_optimised start evs end.
Proof. unfold last_optimised. now rewrite fold_left_app. Qed.

Lemma session_pose evs s : session evs s -> sl_pose s = last_optimised start evs.
Proof.
  induction 1 as [|evs s f s' a R IH E]; [reflexivity|].
  rewrite last_optimised_snoc. cbn. apply step_spec in E. destruct E as (_ & _ & -> & _). now rewrite IH.
Qed.

Lemma session_prefix evs s : session evs s ->
  forall n e, nth_error evs n = Some e ->
  exists s0 f s1 a, session (firstn n evs) s0 /\ sl_step ops f s0 = Ret (Done s1 a) /\
    e = mkEvent (optimised_pose ops f s0) (frame_success ops f s0) a.
Proof.
  induction 1 as [|evs s f s' a R IH E]; intros n e H; [destruct n; discriminate|].
  destruct (Nat.lt_ge_cases n (length evs)) as [L|L].
  - rewrite nth_error_app1 in H by lia. destruct (IH n e H) as (s0 & f0 & s1 & a0 & X & Y & Z).
    exists s0, f0, s1, a0. split; auto. rewrite firstn_app. replace (n - length evs)%nat with 0%nat by lia.
    rewrite firstn_O, app_nil_r. exact X.
  - rewrite nth_error_app2 in H by lia. destruct (n - length evs)%nat as [|k] eqn:K.
    + cbn in H. injection H as <-. exists s, f, s', a. split; auto.
      rewrite firstn_app, K, firstn_O, app_nil_r. rewrite firstn_all2 by lia. exact R.
    + cbn in H. destruct k; discriminate.
Qed.

Lemma session_count evs s : session evs s -> sl_count s mod 5 = N.of_nat (length evs) mod 5.
Proof.
  induction 1 as [|evs s f s' a R IH E]; [reflexivity|].
  apply step_spec in E. destruct E as (_ & _ & _ & _ & -> & _). rewrite IH, app_length. cbn [length].
  rewrite Nat2N.inj_add. cbn. rewrite N.add_mod_idemp_l by discriminate. reflexivity.
Qed.

Lemma failures_snoc (evs : list (event (P := P))) e : evs <> [] ->
  failures (evs ++ [e]) = if ev_success e then 0 else 1 + failures evs.
Proof.
  destruct evs as [|e0 evs]; [easy|]. intros _. cbn [app failures]. rewrite rev_app_distr. reflexivity.
Qed.
Lemma failures_rev_le (l : list (event (P := P))) : failures_rev l <= N.of_nat (length l).
Proof. induction l as [|e l IH]; cbn [failures_rev length]; [lia|]. destruct (ev_success e); lia. Qed.
Lemma failures_le (evs : list (event (P := P))) : failures evs <= N.of_nat (length evs).
Proof.
  destruct evs as [|e evs]; cbn [failures length]; [lia|]. pose proof (failures_rev_le (rev evs)) as H.
  rewrite rev_length in H. lia.
Qed.

Lemma frame_success_first (f : frame) s : sl_first s = true -> frame_success ops f s = false.
Proof. intros H. unfold frame_success. now rewrite H. Qed.

Lemma session_lost evs s : session evs s -> N.of_nat (length evs) <= 2 ^ 32 ->
  sl_failed s = failures evs /\ sl_lost s = lost_after evs.
Proof.
  induction 1 as [|evs s f s' a R IH E]; intros L; [split; reflexivity|].
  rewrite app_length in L. cbn [length] in L. destruct IH as [IH1 IH2]; [lia|].
  pose proof (session_first _ _ R) as F.
  apply step_spec in E. destruct E as (_ & _ & _ & _ & _ & _ & E1 & E2).
  destruct evs as [|e0 evs].
  - rewrite F in *. rewrite (frame_success_first f s F) in *. cbn in *. split; congruence.
  - rewrite F in E1, E2. rewrite failures_snoc by discriminate. cbn [ev_success].
    assert (Lo : lost_after ((e0 :: evs) ++ [mkEvent (optimised_pose ops f s) (frame_success ops f s) a])
                 = (3 <? failures ((e0 :: evs) ++ [mkEvent (optimised_pose ops f s) (frame_success ops f s) a]))).
    { cbn [app lost_after]. destruct (evs ++ [_]) eqn:X; [destruct evs; discriminate|reflexivity]. }
    rewrite Lo, failures_snoc by discriminate. cbn [ev_success].
    assert (FC : fail_count (failures (e0 :: evs)) = 1 + failures (e0 :: evs)).
    { unfold fail_count. change uint_mod with (2 ^ 32). pose proof (failures_le (e0 :: evs)) as Fl.
      assert (failures (e0 :: evs) <= N.of_nat (length evs)).
      { cbn [failures]. pose proof (failures_rev_le (rev evs)) as H. now rewrite rev_length in H. }
      rewrite N.mod_small; [lia|]. cbn [length] in L. lia. }
    destruct (frame_success ops f s).
    + split; auto.
    + rewrite IH1, FC in *. split; auto. rewrite E2, E1. reflexivity.
Qed.

Lemma session_reachable evs s : session evs s -> sys_reachable pols (sl_maps s, sl_shared s).
Proof.
  induction 1 as [|evs s f s' a R IH E]; [apply sys_refl|].
  eapply sys_steps_trans; [exact IH|]. clear IH R. revert E. unfold sl_step.
  destruct (negb (po_cov_valid ops (sl_pose s))); [discriminate|].
  set (dets := fr_detect f (sl_pose s) (sl_maps s) _).
  destruct (lm_find (po_view ops (sl_pose s)) dets (sl_maps s)) as [[ms mt]| |] eqn:E1; cbn [bind]; try discriminate.
  assert (S1 : sys_steps (sl_maps s, sl_shared s) (ms, sl_shared s)).
  { apply (lexec_steps _ (LFind (po_view ops (sl_pose s)) dets) 0). cbn [lexec]. rewrite E1. reflexivity. }
  assert (NP : forall (m : lmaps D Det Ctx View Mt U) g, sys_steps (m, g) (lm_update_no_pose m g)).
  { intros m g. apply (lexec_steps _ LNoPose 0). reflexivity. }
  destruct (if sl_first s then None else fr_optimise f (sl_pose s) mt) as [[p outl]|].
  - destruct (lm_update (fr_fuel f) (po_ctx ops p) (po_pos_cov_valid ops p) dets outl ms (sl_shared s)) as [[ms1 g1|ms1 g1]| |] eqn:E2;
        cbn [bind]; try discriminate.
    + intros H. injection H as <- <-. cbn [sl_maps sl_shared]. eapply sys_steps_trans; [exact S1|].
      apply (lexec_steps _ (LUpdate (po_ctx ops p) (po_pos_cov_valid ops p) dets outl) (fr_fuel f)). cbn [lexec]. rewrite E2. reflexivity.
    + destruct (lm_update_no_pose ms1 g1) as [ms2 g2] eqn:E3. intros H. injection H as <- <-. cbn [sl_maps sl_shared].
      eapply sys_steps_trans; [exact S1|]. eapply sys_steps_trans; [|rewrite <- E3; apply NP].
      apply (lexec_steps _ (LUpdate (po_ctx ops p) (po_pos_cov_valid ops p) dets outl) (fr_fuel f)). cbn [lexec]. rewrite E2. reflexivity.
  - destruct (lm_update_no_pose ms (sl_shared s)) as [ms1 g1] eqn:E3.
    destruct (if sl_lost s && po_pos_cov_valid ops (sl_pose s) then _ else _) as [ms2 g2] eqn:E4.
    intros H. injection H as <- <-. cbn [sl_maps sl_shared].
    eapply sys_steps_trans; [exact S1|]. eapply sys_steps_trans; [apply NP|]. rewrite E3.
    destruct (sl_lost s && po_pos_cov_valid ops (sl_pose s)).
    + rewrite <- E4. apply (lexec_steps _ (LAddAll (po_ctx ops (sl_pose s)) true dets) 0). reflexivity.
    + injection E4 as <- <-. apply sys_refl.
Qed.
End Proofs.

(** ** C10 — the pose *)

(** At every frame of every session (any start pose, any kinds of maps, any
    detections, matches and optimiser answers): the returned pose is the last
    optimised pose, this frame included, or the start pose when no frame was
    optimised yet; the first frame never optimises. *)
Theorem C10_pose_is_last_optimised :
  forall (D Det Ctx View Mt U P : Type) (ops : pose_ops Ctx View P) (pols : list (policy D Det Ctx View Mt U)) start evs s,
  session ops pols start evs s ->
  (forall n e, nth_error evs n = Some e ->
     an_pose (ev_answer e) = last_optimised start (firstn (S n) evs)) /\
  (forall e, nth_error evs 0 = Some e -> ev_optimised e = None) /\
  sl_pose s = last_optimised start evs.
Proof.
  intros D Det Ctx View Mt U P ops pols start evs s R. split; [|split].
  - intros n e H. destruct (session_prefix ops pols start _ _ R _ _ H) as (s0 & f & s1 & a & X & Y & Z).
    assert (Fn : firstn (S n) evs = firstn n evs ++ [e]).
    { clear - H. revert evs H. induction n as [|n IH]; intros [|x l] H; cbn in *; try discriminate.
      - now injection H as ->.
      - f_equal. now apply IH. }
    rewrite Fn, last_optimised_snoc. rewrite Z. cbn [ev_optimised ev_answer].
    apply step_spec in Y. destruct Y as (_ & -> & -> & _).
    now rewrite (session_pose ops pols start _ _ X).
  - intros e H. destruct (session_prefix ops pols start _ _ R _ _ H) as (s0 & f & s1 & a & X & Y & ->).
    apply session_first in X. cbn in X. cbn. unfold optimised_pose. now rewrite X.
  - exact (session_pose ops pols start _ _ R).
Qed.
Print Assumptions C10_pose_is_last_optimised.

(** One call: the pose moves exactly to what the optimiser answered. *)
Theorem C10_one_frame :
  forall (D Det Ctx View Mt U P : Type) (ops : pose_ops Ctx View P) (f : frame D Det Ctx View Mt U P) s s' a,
  sl_step ops f s = Ret (Done s' a) ->
  an_pose a = sl_pose s' /\
  (sl_first s = true -> sl_pose s' = sl_pose s) /\
  (sl_first s = false -> exists ms mt,
     lm_find (po_view ops (sl_pose s)) (frame_detections f s) (sl_maps s) = Ret (ms, mt) /\
     match fr_optimise f (sl_pose s) mt with
     | Some (p, _) => sl_pose s' = p
     | None => sl_pose s' = sl_pose s
     end).
Proof.
  intros D Det Ctx View Mt U P ops f s s' a E. pose proof (step_spec _ _ _ _ _ E) as (_ & A & B & _).
  split; [exact A|]. unfold optimised_pose in B. split.
  - intros F. now rewrite F in B.
  - intros F. rewrite F in B. unfold frame_matches in B.
    unfold sl_step in E. destruct (negb (po_cov_valid ops (sl_pose s))); [discriminate|].
    change keypointRefreshFrequency with 5 in E.
    fold (frame_detections f s) in E.
    destruct (lm_find (po_view ops (sl_pose s)) (frame_detections f s) (sl_maps s)) as [[ms mt]| |]; try discriminate.
    exists ms, mt. split; [reflexivity|]. now destruct (fr_optimise f (sl_pose s) mt) as [[p o]|].
Qed.
Print Assumptions C10_one_frame.

(** The process exits exactly when the stored pose has an invalid covariance: a
    session whose start pose and optimised poses have valid covariances never
    exits. *)
Theorem C10_never_exits :
  forall (D Det Ctx View Mt U P : Type) (ops : pose_ops Ctx View P) (pols : list (policy D Det Ctx View Mt U)) start evs s f,
  session ops pols start evs s ->
  po_cov_valid ops start = true ->
  (forall e p, In e evs -> ev_optimised e = Some p -> po_cov_valid ops p = true) ->
  sl_step ops f s <> Ret Exited.
Proof.
  intros D Det Ctx View Mt U P ops pols start evs s f R V0 V E.
  assert (V1 : po_cov_valid ops (sl_pose s) = true).
  { rewrite (session_pose ops pols start _ _ R). unfold last_optimised. clear - V0 V. revert start V0.
    induction evs as [|e evs IH]; intros start V0; cbn; auto. apply IH; [intros; eapply V; eauto; now right|].
    destruct (ev_optimised e) eqn:X; auto. eapply V; eauto. now left. }
  unfold sl_step in E. rewrite V1 in E. cbn [negb] in E.
  destruct (lm_find _ _ _) as [[ms mt]| |]; cbn [bind] in E; try discriminate.
  destruct (if sl_first s then None else _) as [[p o]|].
  - destruct (lm_update _ _ _ _ _ _ _) as [[m g|m g]| |]; cbn [bind] in E; try discriminate.
    destruct (lm_update_no_pose m g); discriminate.
  - destruct (lm_update_no_pose ms (sl_shared s)) as [m1 g1].
    destruct (sl_lost s && po_pos_cov_valid ops (sl_pose s)).
    + destruct (result_state _) as [m2 g2]. discriminate.
    + discriminate.
Qed.
Print Assumptions C10_never_exits.

(** ** C11 — lost tracking *)

(** Up to 2^32 frames: lost before and after the first frame, and then exactly
    when more than three frames in a row failed. *)
Theorem C11_lost_exactly :
  forall (D Det Ctx View Mt U P : Type) (ops : pose_ops Ctx View P) (pols : list (policy D Det Ctx View Mt U)) start evs s,
  session ops pols start evs s -> N.of_nat (length evs) <= 2 ^ 32 ->
  sl_lost s = lost_after evs.
Proof. intros D Det Ctx View Mt U P ops pols start evs s R L. exact (proj2 (session_lost ops pols start _ _ R L)). Qed.
Print Assumptions C11_lost_exactly.

(** Consequences: a successful frame clears the lost state whatever came
    before, and the first failed frame after the first one clears the initial
    lost state. *)
Theorem C11_success_clears :
  forall (D Det Ctx View Mt U P : Type) (ops : pose_ops Ctx View P) (pols : list (policy D Det Ctx View Mt U)) start evs e s,
  session ops pols start (evs ++ [e]) s -> ev_success e = true -> sl_lost s = false.
Proof.
  intros D Det Ctx View Mt U P ops pols start evs e s R S.
  inversion R as [H|evs0 s0 f s' a R0 E H]; [now destruct evs|].
  apply app_inj_tail in H. destruct H as [-> <-]. cbn in S.
  apply step_spec in E. destruct E as (_ & _ & _ & _ & _ & _ & _ & E). now rewrite S in E.
Qed.
Print Assumptions C11_success_clears.

Theorem C11_second_frame_never_lost :
  forall (D Det Ctx View Mt U P : Type) (ops : pose_ops Ctx View P) (pols : list (policy D Det Ctx View Mt U)) start e1 e2 s,
  session ops pols start [e1; e2] s -> sl_lost s = false.
Proof.
  intros D Det Ctx View Mt U P ops pols start e1 e2 s R.
  rewrite (C11_lost_exactly _ _ _ _ _ _ _ _ _ _ _ _ R); [|cbn; lia]. cbn. now destruct (ev_success e2).
Qed.
Print Assumptions C11_second_frame_never_lost.

(** ** C12 — full keypoint detection *)

(** Frame [n] (counted from 0) requests a full detection exactly when [n] is a
    multiple of 5 or tracking was lost before it. *)
Theorem C12_redetection_schedule :
  forall (D Det Ctx View Mt U P : Type) (ops : pose_ops Ctx View P) (pols : list (policy D Det Ctx View Mt U)) start evs s,
  session ops pols start evs s -> N.of_nat (length evs) <= 2 ^ 32 ->
  forall n e, nth_error evs n = Some e ->
  (an_redetect (ev_answer e) = true <->
   lost_after (firstn n evs) = true \/ Nat.modulo n 5 = 0%nat).
Proof.
  intros D Det Ctx View Mt U P ops pols start evs s R L n e H.
  destruct (session_prefix ops pols start _ _ R _ _ H) as (s0 & f & s1 & a & X & Y & ->).
  assert (Ln : (n < length evs)%nat) by (apply nth_error_Some; congruence).
  assert (Lf : length (firstn n evs) = n) by (apply firstn_length_le; lia).
  pose proof (session_lost ops pols start _ _ X) as [_ Lo]; [rewrite Lf; lia|].
  pose proof (session_count ops pols start _ _ X) as Co. rewrite Lf in Co.
  apply step_spec in Y. destruct Y as (_ & _ & _ & Rd & _). cbn [ev_answer]. rewrite Rd, Lo, Co.
  rewrite Bool.orb_true_iff, N.eqb_eq. split; intros [A|A]; auto; right; lia.
Qed.
Print Assumptions C12_redetection_schedule.

(** Among any five consecutive frames, one requests a full detection. *)
Theorem C12_every_five_frames :
  forall (D Det Ctx View Mt U P : Type) (ops : pose_ops Ctx View P) (pols : list (policy D Det Ctx View Mt U)) start evs s,
  session ops pols start evs s -> N.of_nat (length evs) <= 2 ^ 32 ->
  forall n, (n + 5 <= length evs)%nat ->
  exists m e, (n <= m < n + 5)%nat /\ nth_error evs m = Some e /\ an_redetect (ev_answer e) = true.
Proof.
  intros D Det Ctx View Mt U P ops pols start evs s R L n Hn.
  assert (M : exists m, (n <= m < n + 5)%nat /\ Nat.modulo m 5 = 0%nat).
  { pose proof (Nat.div_mod n 5 ltac:(lia)) as Dm. pose proof (Nat.mod_upper_bound n 5 ltac:(lia)).
    destruct (Nat.eq_dec (n mod 5) 0) as [E|E]; [exists n; split; [lia|exact E]|].
    exists (5 * (n / 5) + 5)%nat. split; [lia|]. replace (5 * (n / 5) + 5)%nat with ((n / 5 + 1) * 5)%nat by lia.
    apply Nat.mod_mul. lia. }
  destruct M as (m & Hm & Z).
  destruct (nth_error evs m) as [e|] eqn:E; [|apply nth_error_None in E; lia].
  exists m, e. split; [exact Hm|]. split; [exact E|].
  apply (C12_redetection_schedule _ _ _ _ _ _ _ _ _ _ _ _ R L _ _ E). auto.
Qed.
Print Assumptions C12_every_five_frames.

(** ** C52 — the map guarantees hold during tracking *)

(** The maps of a session are always in a reachable state of the family of maps
    (so all the theorems about reachable map states apply); in particular the
    identifiers of all the maps are non zero and pairwise distinct. *)
Theorem C52_tracking_maps_reachable :
  forall (D Det Ctx View Mt U P : Type) (ops : pose_ops Ctx View P) (pols : list (policy D Det Ctx View Mt U)) start evs s,
  session ops pols start evs s ->
  sys_reachable pols (sl_maps s, sl_shared s) /\
  (g_allocs (sl_shared s) < 2 ^ 64 -> NoDup (all_ids (sl_maps s)) /\ ~ In 0 (all_ids (sl_maps s))).
Proof.
  intros D Det Ctx View Mt U P ops pols start evs s R.
  pose proof (session_reachable ops pols start _ _ R) as SR. split; [exact SR|]. intros NW.
  destruct (sys_reach_inv pols (sl_maps s, sl_shared s) SR NW) as [A B ND Rg]. cbn [fst snd] in *.
  split; [now apply NoDup_app_l in ND|]. intros H. assert (0 < 0 <= g_alloc (sl_shared s)) by (apply Rg; apply in_or_app; auto). lia.
Qed.
Print Assumptions C52_tracking_maps_reachable.

(** ** Failed frames in the maps *)
Section Failed.
Context {D Det Ctx View Mt U P : Type}.
Implicit Types (p : policy D Det Ctx View Mt U).

Lemma match_loop_ages p v adv add dets m fl mt m' fl' mt' :
  match_loop p v adv add dets m fl mt = Ret (m', fl', mt') -> ages m' = ages m.
Proof.
  revert fl mt m' fl' mt'. induction m as [|[k0 f0] m IH]; cbn [match_loop]; intros fl mt m' fl' mt' H.
  - injection H; intros _ _ <-. reflexivity.
  - change (f_data (mark_unmatched f0)) with (f_data f0) in H.
    destruct (p_moving p (f_data f0) || negb (p_visible p v (f_data f0))).
    + destruct (match_loop p v adv add dets m fl mt) as [[[r fl1] mt1]| |] eqn:E; cbn in H; try discriminate.
      injection H; intros _ _ <-. cbn. f_equal. now apply IH in E.
    + destruct (p_find p v adv add dets (mark_unmatched f0) fl) as [idx pushed].
      destruct idx as [|i0 idx].
      * destruct (match_loop p v adv add dets m fl (mt ++ pushed)) as [[[r fl1] mt1]| |] eqn:E; cbn in H; try discriminate.
        injection H; intros _ _ <-. cbn. f_equal. now apply IH in E.
      * destruct (set_flags (i0 :: idx) true fl) as [fl1| |] eqn:EF; cbn [bind] in H; try discriminate.
        destruct (match_loop p v adv add dets m fl1 (mt ++ pushed)) as [[[r fl2] mt2]| |] eqn:E; cbn in H; try discriminate.
        injection H; intros _ _ <-. cbn. f_equal. now apply IH in E.
Qed.

Lemma get_matches_pass_ages p v adv n dets mt s s' mt' :
  get_matches_pass p v adv n dets mt s = Ret (s', mt') -> s_active s' = s_active s /\ ages (s_local s') = ages (s_local s).
Proof.
  unfold get_matches_pass. destruct (s_active s) eqn:Ac; cbn.
  - destruct (match_loop p v adv true dets (s_local s) (repeat false (length dets)) []) as [[[loc fl1] mt1]| |] eqn:E1;
      cbn; try discriminate.
    destruct (match_loop p v adv _ dets (s_staged s) fl1 mt1) as [[[stg fl2] mt2]| |] eqn:E2; cbn; try discriminate.
    intros H. injection H; intros _ <-. cbn. apply match_loop_ages in E1. auto.
  - intros H. injection H; intros _ <-. auto.
Qed.

Lemma get_matches_ages p v n dets s s' mt' :
  get_matches p v n dets s = Ret (s', mt') -> s_active s' = s_active s /\ ages (s_local s') = ages (s_local s).
Proof.
  unfold get_matches.
  destruct (get_matches_pass p v false n dets [] s) as [[s1 mt1]| |] eqn:E1; cbn [bind]; try discriminate.
  apply get_matches_pass_ages in E1. destruct E1 as [A B].
  destruct (length mt1 <? n)%nat.
  - intros H. apply get_matches_pass_ages in H. destruct H. split; congruence.
  - intros H. injection H; intros _ <-. auto.
Qed.

Definition same_ages (x y : policy D Det Ctx View Mt U * fstate D) : Prop :=
  fst y = fst x /\ s_active (snd y) = s_active (snd x) /\ ages (s_local (snd y)) = ages (s_local (snd x)).

Lemma lm_find_ages v dets (ms ms' : lmaps D Det Ctx View Mt U) mt :
  lm_find v dets ms = Ret (ms', mt) -> Forall2 same_ages ms ms'.
Proof.
  revert ms' mt. induction ms as [|[p s] ms IH]; cbn [lm_find]; intros ms' mt H.
  - injection H; intros _ <-. constructor.
  - destruct (get_matches p v (p_min_features p) (dets (p_kind p)) s) as [[s1 mt1]| |] eqn:E; cbn [bind] in H; try discriminate.
    destruct (lm_find v dets ms) as [[r mt2]| |]; cbn [bind] in H; try discriminate.
    injection H; intros _ <-. apply get_matches_ages in E. constructor; [|eapply IH; eauto]. unfold same_ages. cbn. tauto.
Qed.

Lemma local_no_tracking_ages p m g :
  ages (fst (update_local_no_tracking p m g)) = filter (fun e => negb (p_is_lost p (snd e))) (map (fun e => (fst e, snd e + 1)) (ages m)).
Proof.
  revert g. induction m as [|[k f] m IH]; intros g; [reflexivity|]. cbn [update_local_no_tracking ages map filter fst snd].
  change (f_failed (update_unmatched f)) with (f_failed f + 1).
  destruct (p_is_lost p (f_failed f + 1)); cbn [negb]; [apply IH|].
  specialize (IH g). destruct (update_local_no_tracking p m g) as [r g']. cbn [fst] in *. unfold ages in *. cbn [map fst snd]. f_equal. exact IH.
Qed.

Lemma lm_no_pose_ages (ms : lmaps D Det Ctx View Mt U) g :
  Forall2 (missed (U := U)) ms (fst (lm_update_no_pose ms g)).
Proof.
  revert g. induction ms as [|[p s] ms IH]; intros g; cbn [lm_update_no_pose].
  - constructor.
  - destruct (update_with_no_tracking p s g) as [s1 g1] eqn:E. specialize (IH g1).
    destruct (lm_update_no_pose ms g1) as [r g2]. cbn [fst] in *. constructor; auto.
    unfold missed. cbn [fst snd]. unfold update_with_no_tracking in E.
    destruct (s_active s) eqn:Ac; cbn [negb] in E.
    + pose proof (local_no_tracking_ages p (s_local s) g) as L.
      destruct (update_local_no_tracking p (s_local s) g) as [loc g3]. injection E; intros _ <-. cbn in *. auto.
    + injection E; intros _ <-. auto.
Qed.

Lemma lm_add_loop_ages c dets (ms : lmaps D Det Ctx View Mt U) g :
  Forall2 same_ages ms (fst (lm_add_loop c dets ms g)).
Proof.
  revert g. induction ms as [|[p s] ms IH]; intros g; cbn [lm_add_loop].
  - constructor.
  - assert (R : forall m : lmaps D Det Ctx View Mt U, Forall2 same_ages m m).
    { clear. induction m; constructor; auto. unfold same_ages. auto. }
    unfold add_all_features_to_staged_map, add_features_to_staged_map. cbn [negb].
    destruct (s_active s) eqn:Ac; cbn [negb].
    + destruct (add_features p c 0 (dets (p_kind p)) [] (s_staged s) g) as [stg g1].
      specialize (IH g1). destruct (lm_add_loop c dets ms g1) as [r g2]. cbn [fst] in *. constructor; auto.
      unfold same_ages. cbn. auto.
    + specialize (IH g). destruct (lm_add_loop c dets ms g) as [r g2]. cbn [fst] in *. constructor; auto.
      unfold same_ages. cbn. auto.
Qed.

Lemma missed_between (x x' y y' : policy D Det Ctx View Mt U * fstate D) :
  same_ages x x' -> missed x' y' -> same_ages y' y -> missed x y.
Proof.
  unfold same_ages, missed. intros (A & B & C) (A' & B' & C') (A2 & B2 & C2).
  rewrite A2, A', A. split; [reflexivity|]. split; [congruence|].
  rewrite C2, C', C, B, A. reflexivity.
Qed.
Lemma Forall2_between (a b c d : lmaps D Det Ctx View Mt U) :
  Forall2 same_ages a b -> Forall2 (missed (U := U)) b c -> Forall2 same_ages c d -> Forall2 (missed (U := U)) a d.
Proof.
  intros F. revert c d. induction F as [|x x' a b X F IH]; intros c d G H; inversion G; subst; inversion H; subst; constructor.
  - eapply missed_between; eauto.
  - eapply IH; eauto.
Qed.
End Failed.

(** A frame without a pose (the first one, or a failed optimisation) counts as
    one failure for every local feature of every active map. *)
Theorem C52_failed_frame_counts_a_miss :
  forall (D Det Ctx View Mt U P : Type) (ops : pose_ops Ctx View P) (f : frame D Det Ctx View Mt U P) s s' a,
  sl_step ops f s = Ret (Done s' a) -> optimised_pose ops f s = None ->
  Forall2 missed (sl_maps s) (sl_maps s').
Proof.
  intros D Det Ctx View Mt U P ops f s s' a E O. unfold sl_step in E.
  destruct (negb (po_cov_valid ops (sl_pose s))); [discriminate|].
  change (fr_detect f (sl_pose s) (sl_maps s) (sl_lost s || (sl_count s mod keypointRefreshFrequency + 1 =? 1))) with (frame_detections f s) in E.
  unfold optimised_pose, frame_matches in O.
  destruct (lm_find (po_view ops (sl_pose s)) (frame_detections f s) (sl_maps s)) as [[ms mt]| |] eqn:E1; cbn [bind] in E; try discriminate.
  assert (N : (if sl_first s then None else fr_optimise f (sl_pose s) mt) = None).
  { destruct (sl_first s); auto. destruct (fr_optimise f (sl_pose s) mt) as [[q o]|]; [discriminate|reflexivity]. }
  rewrite N in E. apply lm_find_ages in E1.
  pose proof (lm_no_pose_ages ms (sl_shared s)) as M.
  destruct (lm_update_no_pose ms (sl_shared s)) as [ms1 g1] eqn:E3. cbn [fst] in M.
  destruct (if sl_lost s && po_pos_cov_valid ops (sl_pose s) then _ else _) as [ms2 g2] eqn:E4.
  injection E; intros _ <-. cbn [sl_maps]. refine (Forall2_between _ _ _ _ E1 M _).
  destruct (sl_lost s && po_pos_cov_valid ops (sl_pose s)).
  - unfold lm_add_all in E4. cbn [negb] in E4.
    pose proof (lm_add_loop_ages (po_ctx ops (sl_pose s)) (frame_detections f s) ms1 g1) as A.
    destruct (lm_add_loop _ _ ms1 g1) as [r g3]. cbn in E4, A. injection E4; intros _ <-. exact A.
  - injection E4; intros _ <-. clear. induction ms1; constructor; auto. unfold same_ages. auto.
Qed.
Print Assumptions C52_failed_frame_counts_a_miss.

(** ** Examples *)
(** poses are numbers; one map of points; frames that succeed give pose [n] *)
Definition exs_points : policy nat nat unit unit nat nat :=
  mkPolicy point_should_add point_should_remove point_is_lost (fun _ => false) (fun _ _ => true)
    (fun _ _ _ dets f flags => match flags with false :: _ => ([0%nat], [0%nat]) | _ => ([], []) end)
    (fun _ d _ => (d, true)) (fun _ => true) (fun _ d => COk d) (fun d => Some d)
    (fun _ _ => None) 0 1 (fun u => Some (COk u)).
Definition exs_ops : pose_ops unit unit nat := mkPoseOps (fun _ => true) (fun p => negb (Nat.eqb p 99)) (fun _ => tt) (fun _ => tt).
Definition exs_frame (answer : option nat) : frame nat nat unit unit nat nat nat :=
  mkFrame (fun _ _ _ _ => [7%nat]) (fun _ _ => match answer with Some p => Some (p, []) | None => None end) 20.
Fixpoint exs_run (l : list (option nat)) (s : slam nat nat unit unit nat nat nat) (evs : list (event (P := nat)))
  : option (slam nat nat unit unit nat nat nat * list (event (P := nat))) :=
  match l with
  | [] => Some (s, evs)
  | x :: l' =>
    match sl_step exs_ops (exs_frame x) s with
    | Ret (Done s' a) => exs_run l' s' (evs ++ [mkEvent (optimised_pose exs_ops (exs_frame x) s) (frame_success exs_ops (exs_frame x) s) a])
    | _ => None
    end
  end.
Lemma exs_run_session l s evs s' evs' :
  session exs_ops [exs_points] 5%nat evs s -> exs_run l s evs = Some (s', evs') -> session exs_ops [exs_points] 5%nat evs' s'.
Proof.
  revert s evs. induction l as [|x l IH]; cbn [exs_run]; intros s evs R H.
  - injection H as <- <-. exact R.
  - destruct (sl_step exs_ops (exs_frame x) s) as [[s1 a|]| |] eqn:E; try discriminate.
    eapply IH; [|exact H]. now apply session_frame.
Qed.
(** Ten frames: the first gives no pose; poses 1 and 2; four failures, the third
    of which because the pose has an invalid covariance (99: the pose moves but
    the map is not updated); lost; then a success. *)
Definition exs_answers : list (option nat) :=
  [Some 3; Some 1; Some 2; None; None; Some 99; None; None; Some 6]%nat.
(** what is observed of a run: the events and the final lost flag *)
Definition exs_seen (l : list (option nat)) : option (list (event (P := nat)) * bool) :=
  match exs_run l (sl_init [exs_points] 5%nat) [] with Some (s, evs) => Some (evs, sl_lost s) | None => None end.
Lemma exs_seen_session l evs b :
  exs_seen l = Some (evs, b) -> exists s, session exs_ops [exs_points] 5%nat evs s /\ sl_lost s = b.
Proof.
  unfold exs_seen. intros H. destruct (exs_run l (sl_init [exs_points] 5%nat) []) as [[s evs']|] eqn:E; [|discriminate].
  injection H as -> <-. exists s. split; [|reflexivity]. exact (exs_run_session _ _ _ _ _ (session_start _ _ _) E).
Qed.
Definition exs_events : list (event (P := nat)) :=
  Eval vm_compute in match exs_seen exs_answers with Some (evs, _) => evs | None => [] end.
Lemma exs_seen_eq : exs_seen exs_answers = Some (exs_events, false).
Proof. vm_cast_no_check (eq_refl (Some (exs_events, false))). Qed.

Example C10_example : exists s evs,
  session exs_ops [exs_points] 5%nat evs s /\
  map (fun e => an_pose (ev_answer e)) evs = [5; 1; 2; 2; 2; 99; 99; 99; 6]%nat /\
  map ev_success evs = [false; true; true; false; false; false; false; false; true] /\
  map (fun e => an_redetect (ev_answer e)) evs = [true; true; false; false; false; true; false; true; true] /\
  map lost_after (map (fun n => firstn n evs) (seq 0 10)) = [true; true; false; false; false; false; false; true; true; false] /\
  sl_lost s = false.
Proof.
  destruct (exs_seen_session _ _ _ exs_seen_eq) as (s & R & L).
  exists s, exs_events. split; [exact R|]. repeat split; try exact L; vm_compute; reflexivity.
Qed.

(** Families of feature maps: identifiers and output over whole executions, and
    the operations of [Local_Map] as sequences of feature map operations. *)
From Coq Require Import Permutation ZifyBool ZifyNat ZifyN.
From Verif Require Import FeatureMapModel FeatureMapSpec FeatureMapProofs FeatureMapHistory LocalMapModel.
Local Open Scope N_scope.
Local Arguments size_t_mod : simpl never.

Section LProofs.
Context {D Det Ctx View Mt U : Type}.
Notation pol_t := (policy D Det Ctx View Mt U).
Notation feat := (feat D).
Notation fmap := (fmap D).
Notation fstate := (fstate D).
Notation fop := (fop Det Ctx View U).
Notation maps := (list (pol_t * fstate)).
Implicit Types (ms pre post : maps) (s : fstate) (g : shared) (x y z : maps * shared).

(** ** Invariant of a family *)
Record sys_inv (ms : maps) (g : shared) : Prop := mkSysInv {
  si_g : wf_shared g;
  si_keyed : Forall (fun ps => keyed (s_local (snd ps)) /\ keyed (s_staged (snd ps))) ms;
  si_nd : NoDup (all_ids ms ++ g_out g);
  si_range : forall i, In i (all_ids ms ++ g_out g) -> 0 < i <= g_alloc g
}.

Lemma all_ids_app ms1 ms2 : all_ids (ms1 ++ ms2) = all_ids ms1 ++ all_ids ms2.
Proof. unfold all_ids. apply flat_map_app. Qed.

Lemma all_ids_mid pre p s post : all_ids (pre ++ (p, s) :: post) = all_ids pre ++ ids s ++ all_ids post.
Proof. rewrite all_ids_app. reflexivity. Qed.

Lemma sys_inv_wf pre p s post g : sys_inv (pre ++ (p, s) :: post) g -> wf s g.
Proof.
  intros [A B ND R]. rewrite Forall_app in B. destruct B as [_ B].
  inversion B as [|? ? [B1 B2] _]; subst. cbn in B1, B2.
  rewrite all_ids_mid in ND, R. constructor; auto.
  - apply NoDup_app_l in ND. apply NoDup_app_r in ND. now apply NoDup_app_l in ND.
  - intros i Hi. apply R. rewrite !in_app_iff. auto.
Qed.

Lemma NoDup_app_intro (A : Type) (a b : list A) :
  NoDup a -> NoDup b -> (forall e : A, In e a -> In e b -> False) -> NoDup (a ++ b).
Proof.
  induction a as [|e a IH]; cbn; intros Ha Hb D0; auto. inversion Ha; subst. constructor.
  - rewrite in_app_iff. intros [H|H]; eauto.
  - apply IH; eauto.
Qed.

Lemma sys_inv_step x y : sys_step x y -> no_wrap (snd y) -> sys_inv (fst x) (snd x) -> sys_inv (fst y) (snd y).
Proof.
  intros S. destruct S as [pre p s s' post g g' fuel o E|pre p s s' post g SC]; cbn; intros NW I.
  - pose proof (sys_inv_wf _ _ _ _ _ I) as W.
    pose proof (fexec_delta p _ _ _ _ _ _ W E NW) as (news & ws & rest & P & O & W' & L & Nn & In' & K1 & K2).
    destruct I as [A B ND R].
    assert (NDn : NoDup ((all_ids (pre ++ (p, s) :: post) ++ g_out g) ++ news)).
    { apply NoDup_app_intro; auto. intros i H1 H2. apply R in H1. apply In' in H2. lia. }
    assert (PP : Permutation ((all_ids (pre ++ (p, s) :: post) ++ g_out g) ++ news)
                             ((all_ids (pre ++ (p, s') :: post) ++ g_out g') ++ rest)).
    { rewrite !all_ids_mid, O. perm. }
    constructor; auto.
    + rewrite Forall_app in *. destruct B as [B1 B2]. split; auto.
      inversion B2; subst. constructor; auto.
    + eapply Permutation_NoDup in PP; auto. now apply NoDup_app_l in PP.
    + intros i Hi. assert (X : In i ((all_ids (pre ++ (p, s) :: post) ++ g_out g) ++ news)).
      { eapply Permutation_in; [symmetry; exact PP|]. apply in_or_app. auto. }
      apply in_app_or in X. destruct X as [X|X]; [apply R in X|apply In' in X]; lia.
  - destruct I as [A B ND R]. destruct SC as (_ & _ & P1 & P2).
    assert (P : Permutation (ids s) (ids s')).
    { unfold ids, keys. apply Permutation_app; now apply Permutation_map. }
    assert (PP : Permutation (all_ids (pre ++ (p, s) :: post) ++ g_out g) (all_ids (pre ++ (p, s') :: post) ++ g_out g)).
    { rewrite !all_ids_mid. perm. }
    constructor; auto.
    + rewrite Forall_app in *. destruct B as [B1 B2]. split; auto.
      inversion B2 as [|? ? [X1 X2] X3]; subst. constructor; auto. cbn in *. split.
      * unfold keyed in *. now rewrite <- P1.
      * unfold keyed in *. now rewrite <- P2.
    + now rewrite <- PP.
    + intros i Hi. apply R. now rewrite PP.
Qed.

Lemma sys_mono x y : sys_step x y -> g_allocs (snd x) <= g_allocs (snd y).
Proof.
  intros [pre p s s' post g g' fuel o E|pre p s s' post g SC]; cbn; [|lia].
  eapply fexec_mono; eauto.
Qed.

Lemma sys_inv_init pols : sys_inv (fst (sys_init pols : maps * shared)) (snd (sys_init pols : maps * shared)).
Proof.
  cbn. assert (E : all_ids (map (fun p => (p, init)) pols : maps) = []).
  { induction pols; auto. }
  constructor; rewrite ?E; cbn.
  - reflexivity.
  - induction pols; constructor; auto. split; constructor.
  - constructor.
  - intros i [].
Qed.

Lemma sys_reach_inv pols x : sys_reachable pols x -> no_wrap (snd x) -> sys_inv (fst x) (snd x).
Proof.
  unfold sys_reachable. intros R. remember (sys_init pols) as x0 eqn:E0.
  induction R as [|x y z R IH S]; intros NW; subst.
  - apply sys_inv_init.
  - eapply sys_inv_step; eauto. apply IH; auto. apply sys_mono in S. unfold no_wrap in *. lia.
Qed.

Lemma sys_steps_trans x y z : sys_steps (U:=U) (Mt:=Mt) (View:=View) (Ctx:=Ctx) (Det:=Det) (D:=D) x y -> sys_steps y z -> sys_steps x z.
Proof. intros A B. induction B as [|y1 y2 y3 B1 IH S]; auto. econstructor; [apply IH; exact A|exact S]. Qed.

Lemma sys_steps_one x y : sys_step (U:=U) (Mt:=Mt) (View:=View) (Ctx:=Ctx) (Det:=Det) (D:=D) x y -> sys_steps x y.
Proof. intros S. econstructor; [constructor|exact S]. Qed.

(** ** Destruction *)
Lemma destroy_out s g :
  keyed (s_local s) ->
  g_alloc (destroy s g) = g_alloc g /\
  g_out (destroy s g) = g_out g ++ (if s_active s then keys (s_local s) else []).
Proof.
  intros K. unfold destroy. destruct (s_active s); cbn; [|now rewrite app_nil_r].
  revert g. induction (s_local s) as [|[k f] m IH]; intros g; cbn; [now rewrite app_nil_r|].
  inversion K as [|? ? Hk K']; subst. cbn in Hk. destruct (IH K' (write (f_id f) g)) as [A B].
  rewrite A, B. split; auto. cbn. rewrite <- app_assoc. cbn. now rewrite Hk.
Qed.

Definition local_ids (ms : maps) : list N :=
  flat_map (fun ps => if s_active (snd ps) then keys (s_local (snd ps)) else []) ms.

Lemma lm_destroy_out ms g :
  Forall (fun ps => keyed (s_local (snd ps)) /\ keyed (s_staged (snd ps))) ms ->
  g_out (lm_destroy ms g) = g_out g ++ local_ids ms.
Proof.
  revert g. induction ms as [|[p s] ms IH]; intros g K; cbn; [now rewrite app_nil_r|].
  inversion K as [|? ? [K1 K2] K']; subst. cbn in K1.
  unfold lm_destroy in IH. rewrite IH by assumption.
  destruct (destroy_out s g K1) as [_ ->]. now rewrite <- app_assoc.
Qed.

Lemma local_ids_sub ms : exists rest, Permutation (all_ids ms) (local_ids ms ++ rest).
Proof.
  induction ms as [|[p s] ms [rest IH]].
  - exists []. constructor.
  - change (all_ids ((p, s) :: ms)) with ((keys (s_local s) ++ keys (s_staged s)) ++ all_ids ms).
    change (local_ids ((p, s) :: ms)) with ((if s_active s then keys (s_local s) else []) ++ local_ids ms).
    destruct (s_active s).
    + exists (keys (s_staged s) ++ rest). perm.
    + exists (keys (s_local s) ++ keys (s_staged s) ++ rest). cbn [app]. perm.
Qed.

Lemma destroy_written_once ms g :
  sys_inv ms g -> NoDup (g_out (lm_destroy ms g)) /\
  (forall p s i, In (p, s) ms -> s_active s = true -> In i (keys (s_local s)) -> In i (g_out (lm_destroy ms g))).
Proof.
  intros [A B ND R]. rewrite lm_destroy_out by assumption. split.
  - destruct (local_ids_sub ms) as [rest P].
    assert (PP : Permutation (all_ids ms ++ g_out g) ((g_out g ++ local_ids ms) ++ rest)) by perm.
    eapply Permutation_NoDup in PP; auto. now apply NoDup_app_l in PP.
  - intros p s i Hin Ac Hi. apply in_or_app. right. unfold local_ids. apply in_flat_map.
    exists (p, s). split; auto. cbn. now rewrite Ac.
Qed.

(** ** [Local_Map] operations are sequences of feature map operations *)

Lemma step_at pre p s s' post g g' fuel o :
  fexec p fuel o s g = Ret (s', g') ->
  sys_steps (pre ++ (p, s) :: post, g) (pre ++ (p, s') :: post, g').
Proof. intros E. apply sys_steps_one. eapply sys_op; eauto. Qed.

Lemma lm_find_steps v dets ms ms' mt pre g :
  lm_find v dets ms = Ret (ms', mt) -> sys_steps (pre ++ ms, g) (pre ++ ms', g).
Proof.
  revert ms' mt pre. induction ms as [|[p s] ms IH]; cbn; intros ms' mt pre H.
  - injection H as <- <-. constructor.
  - destruct (get_matches p v (p_min_features p) (dets (p_kind p)) s) as [[s1 mt1]| |] eqn:E; cbn in H; try discriminate.
    destruct (lm_find v dets ms) as [[r mt']| |] eqn:E2; cbn in H; try discriminate.
    injection H as <- <-.
    eapply sys_steps_trans.
    + apply (step_at pre p s s1 ms g g 0 (FMatch v (dets (p_kind p)))). cbn. now rewrite E.
    + specialize (IH _ _ (pre ++ [(p, s1)]) eq_refl). rewrite <- !app_assoc in IH. exact IH.
Qed.

Lemma lm_mark_steps outl ms ms' pre g :
  lm_mark outl ms = Ret ms' -> sys_steps (pre ++ ms, g) (pre ++ ms', g).
Proof.
  revert ms' pre. induction ms as [|[p s] ms IH]; cbn; intros ms' pre H.
  - injection H as <-. constructor.
  - destruct (mark_outliers _ s) as [s1| |] eqn:E; cbn in H; try discriminate.
    destruct (lm_mark outl ms) as [r| |] eqn:E2; cbn in H; try discriminate.
    injection H as <-.
    eapply sys_steps_trans.
    + apply (step_at pre p s s1 ms g g 0 (FOutliers (map snd (filter (fun o => Nat.eqb (fst o) (p_kind p)) outl)))). cbn [fexec]. rewrite E. reflexivity.
    + specialize (IH _ (pre ++ [(p, s1)]) eq_refl). rewrite <- !app_assoc in IH. exact IH.
Qed.

Lemma lm_update_maps_steps fuel c dets ms ms' pre g g' :
  lm_update_maps fuel c dets ms g = Ret (ms', g') -> sys_steps (pre ++ ms, g) (pre ++ ms', g').
Proof.
  revert ms' pre g g'. induction ms as [|[p s] ms IH]; cbn; intros ms' pre g g' H.
  - injection H as <- <-. constructor.
  - destruct (update_map p fuel c true (dets (p_kind p)) s g) as [[s1 g1 used|]| |] eqn:E; cbn in H; try discriminate.
    2: { injection H as <- <-. constructor. }
    assert (S1 : sys_steps (pre ++ (p, s) :: ms, g) (pre ++ (p, s1) :: ms, g1)).
    { apply (step_at pre p s s1 ms g g1 fuel (FUpdate c true (dets (p_kind p)))). cbn [fexec]. now rewrite E. }
    destruct (add_features_to_staged_map p c true (dets (p_kind p)) used s1 g1) as [[s2 g2]|] eqn:E1.
    2: { injection H as <- <-. exact S1. }
    destruct (lm_update_maps fuel c dets ms g2) as [[r g3]| |] eqn:E2; cbn in H; try discriminate.
    injection H as <- <-.
    eapply sys_steps_trans; [exact S1|]. eapply sys_steps_trans.
    + apply (step_at pre p s1 s2 ms g1 g2 0 (FAdd c true (dets (p_kind p)) used)). cbn [fexec]. now rewrite E1.
    + specialize (IH _ (pre ++ [(p, s2)]) _ _ E2). rewrite <- !app_assoc in IH. exact IH.
Qed.

Lemma lm_add_upgraded_steps us ms ms' pre g g' b :
  lm_add_upgraded us ms g = (ms', g', b) -> sys_steps (pre ++ ms, g) (pre ++ ms', g').
Proof.
  revert ms' pre g g' b. induction ms as [|[p s] ms IH]; cbn; intros ms' pre g g' b H.
  - injection H as <- <- <-. constructor.
  - destruct (add_upgraded_features p us s g) as [[s1 g1] b1] eqn:E.
    assert (S1 : sys_steps (pre ++ (p, s) :: ms, g) (pre ++ (p, s1) :: ms, g1)).
    { apply (step_at pre p s s1 ms g g1 0 (FUpgradeIn us)). cbn [fexec]. now rewrite E. }
    destruct b1.
    + injection H as <- <- <-. exact S1.
    + destruct (lm_add_upgraded us ms g1) as [[r g2] b2] eqn:E2. injection H as <- <- <-.
      eapply sys_steps_trans; [exact S1|].
      specialize (IH _ (pre ++ [(p, s1)]) _ _ _ E2). rewrite <- !app_assoc in IH. exact IH.
Qed.

Lemma lm_upgrade_steps n i c ms ms' g g' b :
  lm_upgrade n i c ms g = (ms', g', b) -> sys_steps (ms, g) (ms', g').
Proof.
  revert i ms ms' g g' b. induction n as [|n IH]; cbn -[skipn]; intros i ms ms' g g' b H.
  - injection H as <- <- <-. constructor.
  - destruct (nth_error ms i) as [[p s]|] eqn:En; [|injection H as <- <- <-; constructor].
    destruct (get_upgraded_features p c s) as [s1 us] eqn:E1.
    destruct (lm_add_upgraded us (firstn i ms ++ (p, s1) :: skipn (S i) ms) g) as [[ms2 g2] b2] eqn:E2.
    assert (S0 : ms = firstn i ms ++ (p, s) :: skipn (S i) ms).
    { clear -En. revert i En. induction ms as [|x ms IH]; intros [|i] En; cbn in *; try discriminate.
      - congruence.
      - f_equal. apply IH. exact En. }
    assert (S1 : sys_steps (ms, g) (firstn i ms ++ (p, s1) :: skipn (S i) ms, g)).
    { rewrite S0 at 1. apply (step_at _ p s s1 _ g g 0 (FUpgradeOut c)). cbn [fexec]. now rewrite E1. }
    apply (lm_add_upgraded_steps _ _ _ []) in E2. cbn [app] in E2.
    destruct b2.
    + injection H as <- <- <-. eapply sys_steps_trans; eauto.
    + eapply sys_steps_trans; [exact S1|]. eapply sys_steps_trans; [exact E2|]. eauto.
Qed.

Lemma lm_update_steps fuel c covOk dets outl ms g r :
  lm_update fuel c covOk dets outl ms g = Ret r -> sys_steps (ms, g) (result_state r).
Proof.
  unfold lm_update. destruct covOk; cbn [negb].
  2: { intros H. injection H as <-. constructor. }
  destruct (lm_mark outl ms) as [ms1| |] eqn:E1; cbn [bind]; try discriminate.
  destruct (lm_update_maps fuel c dets ms1 g) as [[ms2 g2]| |] eqn:E2; cbn [bind]; try discriminate.
  destruct (lm_upgrade (length ms2) 0 c ms2 g2) as [[ms3 g3] b] eqn:E3.
  intros H. injection H as <-.
  apply (lm_mark_steps _ _ _ [] g) in E1. apply (lm_update_maps_steps _ _ _ _ _ []) in E2.
  apply lm_upgrade_steps in E3. cbn in E1, E2.
  eapply sys_steps_trans; [exact E1|]. eapply sys_steps_trans; [exact E2|]. destruct b; exact E3.
Qed.

Lemma lm_no_pose_steps ms ms' pre g g' :
  lm_update_no_pose ms g = (ms', g') -> sys_steps (pre ++ ms, g) (pre ++ ms', g').
Proof.
  revert ms' pre g g'. induction ms as [|[p s] ms IH]; cbn; intros ms' pre g g' H.
  - injection H as <- <-. constructor.
  - destruct (update_with_no_tracking p s g) as [s1 g1] eqn:E.
    destruct (lm_update_no_pose ms g1) as [r g2] eqn:E2. injection H as <- <-.
    eapply sys_steps_trans.
    + apply (step_at pre p s s1 ms g g1 0 FNoTracking). cbn [fexec]. now rewrite E.
    + specialize (IH _ (pre ++ [(p, s1)]) _ _ E2). rewrite <- !app_assoc in IH. exact IH.
Qed.

Lemma lm_add_loop_steps c dets ms ms' pre g g' :
  lm_add_loop c dets ms g = (ms', g') -> sys_steps (pre ++ ms, g) (pre ++ ms', g').
Proof.
  revert ms' pre g g'. induction ms as [|[p s] ms IH]; cbn; intros ms' pre g g' H.
  - injection H as <- <-. constructor.
  - destruct (add_all_features_to_staged_map p c true (dets (p_kind p)) s g) as [[s1 g1]|] eqn:E.
    2: { injection H as <- <-. constructor. }
    destruct (lm_add_loop c dets ms g1) as [r g2] eqn:E2. injection H as <- <-.
    eapply sys_steps_trans.
    + apply (step_at pre p s s1 ms g g1 0 (FAdd c true (dets (p_kind p)) [])). cbn [fexec].
      unfold add_all_features_to_staged_map in E. now rewrite E.
    + specialize (IH _ (pre ++ [(p, s1)]) _ _ E2). rewrite <- !app_assoc in IH. exact IH.
Qed.

Lemma lm_add_all_steps c covOk dets ms g :
  sys_steps (ms, g) (result_state (lm_add_all c covOk dets ms g)).
Proof.
  unfold lm_add_all. destruct covOk; cbn [negb]; [|constructor].
  destruct (lm_add_loop c dets ms g) as [ms' g'] eqn:E.
  apply (lm_add_loop_steps _ _ _ _ [] _ _ E).
Qed.

Lemma lm_reset_steps ms pre g : sys_steps (pre ++ ms, g) (pre ++ lm_reset ms, g).
Proof.
  revert pre. induction ms as [|[p s] ms IH]; intros pre; cbn; [constructor|].
  eapply sys_steps_trans.
  - apply (step_at pre p s (reset s) ms g g 0 FReset). reflexivity.
  - specialize (IH (pre ++ [(p, reset s)])). rewrite <- !app_assoc in IH. exact IH.
Qed.

(** executions of a [Local_Map], with changes of iteration order *)
Inductive lreach (pols : list pol_t) : maps * shared -> Prop :=
| lreach_init : lreach pols (sys_init pols)
| lreach_op : forall x o fuel y, lreach pols x -> lexec fuel o x = Ret y -> lreach pols y
| lreach_rehash : forall pre p s s' post g,
    lreach pols (pre ++ (p, s) :: post, g) -> same_content s s' -> lreach pols (pre ++ (p, s') :: post, g).

Lemma lexec_steps x o fuel y : lexec fuel o x = Ret y -> sys_steps x y.
Proof.
  destruct x as [ms g]. destruct o; cbn [lexec].
  - destruct (lm_find v dets ms) as [[ms' mt]| |] eqn:E; cbn; intros H; try discriminate. injection H as <-.
    apply (lm_find_steps _ _ _ _ _ [] g E).
  - destruct (lm_update fuel c covOk dets outl ms g) as [r| |] eqn:E; cbn; intros H; try discriminate. injection H as <-.
    eapply lm_update_steps; eauto.
  - intros H. injection H as <-. destruct (lm_update_no_pose ms g) as [ms' g'] eqn:E.
    apply (lm_no_pose_steps _ _ [] _ _ E).
  - intros H. injection H as <-. apply lm_add_all_steps.
  - intros H. injection H as <-. apply (lm_reset_steps ms []).
Qed.

Lemma lreach_sys pols x : lreach pols x -> sys_reachable pols x.
Proof.
  intros R. induction R as [|x o fuel y R IH E|pre p s s' post g R IH SC].
  - constructor.
  - eapply sys_steps_trans; [exact IH|]. eapply lexec_steps; eauto.
  - econstructor; [exact IH|]. now apply sys_rehash.
Qed.

End LProofs.

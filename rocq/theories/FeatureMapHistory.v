(** Histories of one feature map: the counters of a feature are functions of
    what happened to it, and every removal and promotion has its cause. *)
From Coq Require Import Permutation ZifyBool ZifyNat ZifyN.
From Verif Require Import FeatureMapModel FeatureMapSpec FeatureMapProofs.
Local Open Scope N_scope.
Local Arguments size_t_mod : simpl never.

Section History.
Context {D Det Ctx View Mt U : Type}.
Notation pol_t := (policy D Det Ctx View Mt U).
Notation feat := (feat D).
Notation fmap := (fmap D).
Notation fstate := (fstate D).
Notation fop := (fop Det Ctx View U).
Variable p : pol_t.
Implicit Types (m loc stg : fmap) (f : feat) (s : fstate) (o : fop).

Lemma wf_nd_local s g : wf s g -> NoDup (keys (s_local s)).
Proof. intros W. apply wf_nd in W. unfold ids in W. now apply NoDup_app_l in W. Qed.
Lemma wf_nd_staged s g : wf s g -> NoDup (keys (s_staged s)).
Proof. intros W. apply wf_nd in W. unfold ids in W. now apply NoDup_app_r in W. Qed.

Lemma NoDup_app_disj (A : Type) (a b : list A) x : NoDup (a ++ b) -> In x a -> In x b -> False.
Proof.
  induction a as [|y a IH]; cbn; intros ND Ha Hb; [tauto|]. inversion ND as [|? ? Hn ND']; subst.
  destruct Ha as [->|Ha]; [|auto]. apply Hn. apply in_or_app. auto.
Qed.

Lemma wf_disjoint s g i : wf s g -> In i (keys (s_local s)) -> In i (keys (s_staged s)) -> False.
Proof. intros W. apply wf_nd in W. unfold ids in W. eapply NoDup_app_disj; eauto. Qed.

Lemma wf_op fuel o s g s' g' : wf s g -> fexec p fuel o s g = Ret (s', g') -> no_wrap g' -> wf s' g'.
Proof. intros W H NW. eapply delta_wf; [exact W|]. eapply fexec_delta; eauto. Qed.

Lemma wf_same_content s s' g : wf s g -> same_content s s' -> wf s' g.
Proof.
  intros [A B C ND Bl] (_ & _ & P1 & P2).
  assert (P : Permutation (ids s) (ids s')).
  { unfold ids, keys. apply Permutation_app; now apply Permutation_map. }
  constructor; auto.
  - unfold keyed in *. now rewrite <- P1.
  - unfold keyed in *. now rewrite <- P2.
  - now rewrite <- P.
  - intros i Hi. apply Bl. now rewrite P.
Qed.

Lemma wf_init g : wf_shared g -> wf (init : fstate) g.
Proof. intros W. constructor; auto; try constructor. intros i []. Qed.

Lemma wf_env s g g' : wf s g -> wf_shared g' -> g_allocs g <= g_allocs g' -> wf s g'.
Proof.
  intros [A B C ND Bl] W' L. constructor; auto. intros i Hi. apply Bl in Hi.
  unfold wf_shared in *. lia.
Qed.

Lemma run_wf h s g : run p h s g -> no_wrap g -> wf s g.
Proof.
  intros R. induction R as [g W|h s g fuel o s' g' R IH E|h s g s' R IH E|h s g g' R IH W L]; intros NW.
  - now apply wf_init.
  - eapply wf_op; eauto. apply IH. apply fexec_mono in E. unfold no_wrap in *. lia.
  - eapply wf_same_content; eauto.
  - eapply wf_env; eauto. apply IH. unfold no_wrap in *. lia.
Qed.

Lemma lookup_perm m m' i : NoDup (keys m) -> Permutation m m' -> lookup i m' = lookup i m.
Proof.
  intros ND P. assert (ND' : NoDup (keys m')) by (unfold keys; now rewrite <- P).
  destruct (lookup i m) as [f|] eqn:E.
  - apply in_lookup; auto. rewrite <- P. now apply lookup_in.
  - apply lookup_none. apply lookup_none in E. unfold keys in *. now rewrite <- P.
Qed.

(** new failed / success counts *)
Definition next_failed (x : fate) (n : N) : N := match x with Hit => 0 | Miss => n + 1 | Untouched => n end.
Definition next_succ (x : fate) (n : Z) : Z := match x with Hit => n + 1 | Miss => n - 1 | Untouched => n end.

Lemma sbm_lookup m m' i f' :
  NoDup (keys m) -> same_but_matches m m' -> lookup i m' = Some f' ->
  exists f, lookup i m = Some f /\ f_failed f' = f_failed f /\ f_succ f' = f_succ f.
Proof.
  intros ND [_ B] H. apply lookup_in in H. apply B in H. destruct H as (f & ms & H & ->).
  exists f. split; [now apply in_lookup|]. split; reflexivity.
Qed.

Lemma sbm_lookup_none m m' i : same_but_matches m m' -> (lookup i m' = None <-> lookup i m = None).
Proof. intros [A _]. rewrite !lookup_none. now rewrite A. Qed.

(** the local container after the staged loop, constructors throwing or not *)
Lemma update_staged_map_loc fuel c dets m loc m' loc' us :
  keyed m -> NoDup (keys loc ++ keys m) ->
  update_staged_map p fuel c dets m loc = Ret (m', loc', us) ->
  (forall k f, In (k, f) loc -> In (k, f) loc') /\
  (forall k f, In (k, f) loc' -> In (k, f) loc \/ (In k (keys m) /\ f_failed f = 0)).
Proof.
  revert m loc m' loc' us. induction fuel as [|fuel IH]; intros m loc m' loc' us K ND H.
  - destruct m as [|[k f] m]; cbn in H; [|discriminate]. injection H as <- <- <-. auto.
  - destruct m as [|[k0 f0] m]; cbn in H.
    { injection H as <- <- <-. auto. }
    inversion K as [|? ? Hk K']; subst. cbn in Hk.
    destruct (update_one p c dets f0) as [[f1 used]| |] eqn:E; cbn in H; try discriminate.
    pose proof (update_one_id _ _ _ _ _ _ E) as Hid.
    cbn in ND.
    assert (ND' : NoDup (keys loc ++ keys m)) by (eapply NoDup_remove_1; eauto).
    assert (Nin : ~ In k0 (keys loc ++ keys m)) by (eapply NoDup_remove_2; eauto).
    cbn.
    destruct (p_should_add p (f_failed f1) (f_succ f1)) eqn:SA.
    + destruct (p_mk_local p (f_data f1)) as [d|] eqn:ML.
      * rewrite emplace_new in H.
        2: { intros Hin. apply Nin. apply in_or_app. left. congruence. }
        destruct (update_staged_map p fuel c dets m _) as [[[r loc1] us1]| |] eqn:E2; cbn in H; try discriminate.
        injection H as <- <- <-.
        apply IH in E2; auto.
        2: { rewrite keys_app. cbn. rewrite <- app_assoc. cbn. replace (f_id f1) with k0 by congruence. auto. }
        destruct E2 as [A B]. split; intros k f Hin.
        -- apply A. apply in_or_app. auto.
        -- apply B in Hin. destruct Hin as [Hin|[H1 H2]]; [|tauto].
           apply in_app_or in Hin. destruct Hin as [Hin|[Hin|[]]]; auto.
           injection Hin as <- <-. right. split; [left; congruence|reflexivity].
      * destruct (update_staged_map p fuel c dets _ loc) as [[[r loc1] us1]| |] eqn:E2; cbn in H; try discriminate.
        injection H as <- <- <-. apply IH in E2; auto. constructor; auto. cbn. congruence.
    + destruct (p_should_remove p (f_failed f1) (f_succ f1));
        (destruct (update_staged_map p fuel c dets m _) as [[[r loc1] us1]| |] eqn:E2; cbn in H; try discriminate;
         injection H as <- <- <-; apply IH in E2; auto; destruct E2 as [A B]; split; auto;
         intros k f Hin; apply B in Hin; tauto).
Qed.

Lemma update_local_nd c dets s g loc us g1 :
  wf s g -> update_local_map p c dets (s_local s) g = Ret (loc, us, g1) ->
  NoDup (keys loc ++ keys (s_staged s)).
Proof.
  intros W E. apply update_local_map_keys in E; [|apply W].
  destruct E as (_ & ws & rest & _ & P). pose proof (wf_nd _ _ W) as ND. unfold ids in ND.
  eapply Permutation_NoDup in ND.
  2: { apply Permutation_app_tail. exact P. }
  assert (Q : Permutation ((keys loc ++ ws ++ rest) ++ keys (s_staged s)) ((keys loc ++ keys (s_staged s)) ++ ws ++ rest)) by perm.
  eapply Permutation_NoDup in Q; [|exact ND]. now apply NoDup_app_l in Q.
Qed.

(** what an operation does to the failure count of a local feature *)
Lemma fexec_local fuel o s g s' g' :
  wf s g -> fexec p fuel o s g = Ret (s', g') -> no_wrap g' ->
  forall i f', lookup i (s_local s') = Some f' ->
  match lookup i (s_local s) with
  | Some f => f_failed f' = next_failed (fate_of p o s f) (f_failed f)
  | None => f_failed f' = 0
  end.
Proof.
  intros W H NW i f' L'.
  pose proof (wf_nd_local _ _ W) as NDl.
  assert (Same : forall s1, s_local s1 = s_local s -> (forall f, fate_of p o s f = Untouched) -> s' = s1 ->
    match lookup i (s_local s) with
    | Some f => f_failed f' = next_failed (fate_of p o s f) (f_failed f)
    | None => f_failed f' = 0 end).
  { intros s1 E F ->. rewrite E in L'. rewrite L'. now rewrite F. }
  destruct o; cbn [fexec] in H.
  - destruct (get_matches p v (p_min_features p) dets s) as [[s1 mt]| |] eqn:E; cbn in H; try discriminate.
    injection H as <- <-. apply get_matches_inv in E. destruct E as (_ & E & _).
    destruct (sbm_lookup _ _ _ _ NDl E L') as (f & -> & -> & _).
    unfold fate_of. now destruct (negb (s_active s)).
  - unfold update_map in H. destruct (s_active s) eqn:Ac; cbn in H.
    2: { injection H as <- <-. rewrite L'. unfold fate_of. now rewrite Ac. }
    destruct covOk; cbn in H.
    2: { injection H as <- <-. rewrite L'. unfold fate_of. now rewrite Ac. }
    destruct (update_local_map p c dets (s_local s) g) as [[[loc us] g1]| |] eqn:E; cbn in H; try discriminate.
    destruct (update_staged_map p fuel c dets (s_staged s) loc) as [[[stg loc'] us2]| |] eqn:E2; cbn in H; try discriminate.
    injection H as <- <-. cbn in L'.
    pose proof (update_local_nd _ _ _ _ _ _ _ W E) as ND2.
    apply update_staged_map_loc in E2; auto; [|apply W]. destruct E2 as [_ B].
    apply lookup_in in L'. apply B in L'. destruct L' as [L'|[L1 L2]].
    + apply (update_local_map_in _ _ _ _ _ _ _ _ E) in L'. destruct L' as (f0 & u & H0 & H1 & H2).
      rewrite (in_lookup _ _ _ NDl H0). apply update_one_inv in H1. destruct H1 as (_ & H1 & _).
      unfold fate_of. rewrite Ac. cbn. destruct (any_success p c dets (f_matches f0) (f_data f0)); cbn; tauto.
    + assert (lookup i (s_local s) = None) as ->.
      { apply lookup_none. intros Hin. eapply wf_disjoint; eauto. }
      exact L2.
  - unfold update_with_no_tracking in H. destruct (s_active s) eqn:Ac; cbn in H.
    2: { injection H as <- <-. rewrite L'. unfold fate_of. now rewrite Ac. }
    destruct (update_local_no_tracking p (s_local s) g) as [loc g1] eqn:E. injection H as <- <-. cbn in L'.
    apply lookup_in in L'. apply (update_local_no_tracking_in _ _ _ _ _ E) in L'.
    destruct L' as (f0 & H0 & -> & _). rewrite (in_lookup _ _ _ NDl H0).
    unfold fate_of. rewrite Ac. reflexivity.
  - unfold add_features_to_staged_map in H.
    assert (F : forall f, fate_of p (FAdd c covOk dets used) s f = Untouched) by (intros f; unfold fate_of; now destruct (negb (s_active s))).
    destruct (s_active s) eqn:Ac; cbn in H; [|injection H as <- <-; eapply Same; eauto].
    destruct covOk; cbn in H; [|injection H as <- <-; eapply Same; eauto].
    destruct (add_features p c 0 dets used (s_staged s) g) as [stg g1] eqn:E. injection H as <- <-.
    cbn in L'. rewrite L'. now rewrite F.
  - destruct (mark_outliers outl s) as [s1| |] eqn:E; cbn in H; try discriminate.
    injection H as <- <-. apply mark_outliers_inv in E. destruct E as (_ & E & _).
    destruct (sbm_lookup _ _ _ _ NDl E L') as (f & -> & -> & _).
    unfold fate_of. now destruct (negb (s_active s)).
  - injection H as <- <-. unfold get_upgraded_features in L'.
    destruct (upgrade_loop p c (s_local s)) as [loc u1] eqn:E1.
    destruct (upgrade_loop p c (s_staged s)) as [stg u2] eqn:E2. cbn in L'.
    apply lookup_in in L'. apply (upgrade_loop_in _ _ _ _ _ E1) in L'. destruct L' as [L' _].
    rewrite (in_lookup _ _ _ NDl L'). unfold fate_of. now destruct (negb (s_active s)).
  - destruct (add_upgraded_features p us s g) as [[s1 g1] b] eqn:E. injection H as <- <-.
    apply add_upgraded_ok in E; [|apply W| |exact NW].
    2: { intros j Hj. apply (wf_below _ _ W). unfold ids. apply in_or_app. auto. }
    destruct E as (news & (_ & _ & _ & _ & A5) & -> & F). cbn in L'.
    apply lookup_in in L'. apply in_app_or in L'. destruct L' as [L'|L'].
    + rewrite (in_lookup _ _ _ NDl L'). unfold fate_of. now destruct (negb (s_active s)).
    + assert (lookup i (s_local s) = None) as ->.
      { apply lookup_none. intros Hin.
        assert (X : i <= g_alloc g) by (apply (wf_below _ _ W); unfold ids; apply in_or_app; auto).
        assert (Y : In i (keys news)) by (apply in_keys; eauto). apply A5 in Y. lia. }
      apply F in L'. destruct L' as (d & ms & ->). reflexivity.
  - injection H as <- <-. unfold reset in L'. destruct (s_active s) eqn:Ac; cbn in L'; [discriminate|].
    rewrite L'. unfold fate_of. now rewrite Ac.
  - injection H as <- <-. cbn in L'. rewrite L'. unfold fate_of. now destruct (negb (s_active s)).
Qed.

Lemma misses_snoc i h e : misses p i (h ++ [e]) = misses_step p i (misses p i h) e.
Proof. unfold misses. now rewrite fold_left_app. Qed.
Lemma staged_misses_snoc i h e : staged_misses p i (h ++ [e]) = staged_misses_step p i (staged_misses p i h) e.
Proof. unfold staged_misses. now rewrite fold_left_app. Qed.
Lemma net_hits_snoc i h e : net_hits p i (h ++ [e]) = net_hits_step p i (net_hits p i h) e.
Proof. unfold net_hits. now rewrite fold_left_app. Qed.

Lemma run_mono_op fuel o s g s' g' : fexec p fuel o s g = Ret (s', g') -> no_wrap g' -> no_wrap g.
Proof. intros E NW. apply fexec_mono in E. unfold no_wrap in *. lia. Qed.

(** The failure count of a local feature is the number of its last consecutive
    misses. *)
Lemma run_failed h s g :
  run p h s g -> no_wrap g -> forall i f, lookup i (s_local s) = Some f -> f_failed f = misses p i h.
Proof.
  intros R. induction R as [g W|h s g fuel o s' g' R IH E|h s g s' R IH E|h s g g' R IH W L]; intros NW i f Lk.
  - discriminate.
  - pose proof (run_mono_op _ _ _ _ _ _ E NW) as NW0.
    pose proof (run_wf _ _ _ R NW0) as Wf.
    pose proof (fexec_local _ _ _ _ _ _ Wf E NW i f Lk) as X.
    rewrite misses_snoc. unfold misses_step. cbn.
    destruct (lookup i (s_local s)) as [f0|] eqn:L0; auto.
    rewrite X. rewrite (IH NW0 _ _ L0). reflexivity.
  - pose proof (run_wf _ _ _ R NW) as Wf. apply IH; auto.
    destruct E as (_ & _ & P & _). rewrite <- Lk. symmetry. apply lookup_perm; auto. eapply wf_nd_local; eauto.
  - apply IH; auto. unfold no_wrap in *. lia.
Qed.

(** what removes a local feature *)
Definition local_removal_cause (o : fop) (s : fstate) (f : feat) : Prop :=
  match o with
  | FReset => s_active s = true
  | FUpgradeOut c => p_upgrade p c f <> None
  | _ => fate_of p o s f <> Untouched /\
         p_is_lost p (next_failed (fate_of p o s f) (f_failed f)) = true
  end.

Lemma fexec_local_removed fuel o s g s' g' :
  wf s g -> fexec p fuel o s g = Ret (s', g') -> no_wrap g' ->
  forall i f, lookup i (s_local s) = Some f ->
  (lookup i (s_local s') = None <-> local_removal_cause o s f).
Proof.
  intros W H NW i f L.
  pose proof (wf_nd_local _ _ W) as NDl.
  assert (Keep : forall x : bool, (lookup i (s_local s) = None <->
     (if x then Untouched else Untouched) <> Untouched /\ p_is_lost p (f_failed f) = true)).
  { intros x. rewrite L. split; [discriminate|]. intros [X _]. now destruct x. }
  destruct o; cbn [fexec] in H.
  - destruct (get_matches p v (p_min_features p) dets s) as [[s1 mt]| |] eqn:E; cbn in H; try discriminate.
    injection H as <- <-. apply get_matches_inv in E. destruct E as (_ & E & _).
    rewrite (sbm_lookup_none _ _ _ E). unfold local_removal_cause, fate_of.
    destruct (negb (s_active s)); rewrite L; split; try discriminate; tauto.
  - unfold update_map in H. unfold local_removal_cause, fate_of. destruct (s_active s) eqn:Ac; cbn in H.
    2: { injection H as <- <-. cbn. rewrite L. split; [discriminate|]. tauto. }
    destruct covOk; cbn in H.
    2: { injection H as <- <-. cbn. rewrite L. split; [discriminate|]. tauto. }
    destruct (update_local_map p c dets (s_local s) g) as [[[loc us] g1]| |] eqn:E; cbn in H; try discriminate.
    destruct (update_staged_map p fuel c dets (s_staged s) loc) as [[[stg loc'] us2]| |] eqn:E2; cbn in H; try discriminate.
    injection H as <- <-. cbn.
    pose proof (update_local_nd _ _ _ _ _ _ _ W E) as ND2.
    apply update_staged_map_loc in E2; auto; [|apply W]. destruct E2 as [A B].
    apply lookup_in in L.
    destruct (update_local_map_ret _ _ _ _ _ _ E _ _ L) as (f1 & u & H1).
    pose proof (update_one_inv _ _ _ _ _ _ H1) as (_ & C & _).
    assert (F1 : f_failed f1 = next_failed (if any_success p c dets (f_matches f) (f_data f) then Hit else Miss) (f_failed f)).
    { destruct (any_success p c dets (f_matches f) (f_data f)); apply C. }
    rewrite <- F1. split.
    + intros Ln. split; [now destruct (any_success p c dets (f_matches f) (f_data f))|].
      destruct (p_is_lost p (f_failed f1)) eqn:Lo; auto. exfalso.
      assert (X : In (i, f1) loc).
      { apply (update_local_map_in _ _ _ _ _ _ _ _ E). exists f, u. auto. }
      apply A in X. apply lookup_none in Ln. apply Ln. apply in_keys. eauto.
    + intros [_ Lo]. apply lookup_none. intros Hin. apply in_keys in Hin. destruct Hin as [f2 Hin].
      apply B in Hin. destruct Hin as [Hin|[Hin _]].
      * apply (update_local_map_in _ _ _ _ _ _ _ _ E) in Hin. destruct Hin as (f3 & u3 & X1 & X2 & X3).
        assert (f3 = f).
        { apply (in_lookup _ _ _ NDl) in X1. apply (in_lookup _ _ _ NDl) in L. congruence. }
        subst f3. rewrite H1 in X2. injection X2 as <- _. congruence.
      * eapply wf_disjoint; eauto. apply in_keys. eauto.
  - unfold update_with_no_tracking in H. unfold local_removal_cause, fate_of. destruct (s_active s) eqn:Ac; cbn in H.
    2: { injection H as <- <-. cbn. rewrite L. split; [discriminate|]. tauto. }
    destruct (update_local_no_tracking p (s_local s) g) as [loc g1] eqn:E. injection H as <- <-. cbn.
    apply lookup_in in L. pose proof (update_local_no_tracking_in _ _ _ _ _ E) as X. split.
    + intros Ln. split; [discriminate|]. destruct (p_is_lost p (f_failed f + 1)) eqn:Lo; auto. exfalso.
      assert (Y : In (i, update_unmatched f) loc) by (apply X; exists f; auto).
      apply lookup_none in Ln. apply Ln. apply in_keys. eauto.
    + intros [_ Lo]. apply lookup_none. intros Hin. apply in_keys in Hin. destruct Hin as [f2 Hin].
      apply X in Hin. destruct Hin as (f3 & X1 & -> & X3). 
      assert (f3 = f).
      { apply (in_lookup _ _ _ NDl) in X1. apply (in_lookup _ _ _ NDl) in L. congruence. }
      subst f3. cbn in X3. congruence.
  - unfold add_features_to_staged_map in H. unfold local_removal_cause, fate_of.
    destruct (s_active s) eqn:Ac; cbn in H; [|injection H as <- <-; cbn; rewrite L; split; [discriminate|]; tauto].
    destruct covOk; cbn in H; [|injection H as <- <-; cbn; rewrite L; split; [discriminate|]; tauto].
    destruct (add_features p c 0 dets used (s_staged s) g) as [stg g1] eqn:E. injection H as <- <-. cbn.
    rewrite L; split; [discriminate|]; tauto.
  - destruct (mark_outliers outl s) as [s1| |] eqn:E; cbn in H; try discriminate.
    injection H as <- <-. apply mark_outliers_inv in E. destruct E as (_ & E & _).
    rewrite (sbm_lookup_none _ _ _ E). unfold local_removal_cause, fate_of.
    destruct (negb (s_active s)); rewrite L; split; try discriminate; tauto.
  - injection H as <- <-. unfold get_upgraded_features.
    destruct (upgrade_loop p c (s_local s)) as [loc u1] eqn:E1.
    destruct (upgrade_loop p c (s_staged s)) as [stg u2] eqn:E2. cbn.
    pose proof (upgrade_loop_in _ _ _ _ _ E1) as X. apply lookup_in in L. split.
    + intros Ln Un. apply lookup_none in Ln. apply Ln. apply in_keys. exists f. apply X. auto.
    + intros Un. apply lookup_none. intros Hin. apply in_keys in Hin. destruct Hin as [f2 Hin].
      apply X in Hin. destruct Hin as [X1 X2].
      assert (f2 = f).
      { apply (in_lookup _ _ _ NDl) in X1. apply (in_lookup _ _ _ NDl) in L. congruence. }
      congruence.
  - destruct (add_upgraded_features p us s g) as [[s1 g1] b] eqn:E. injection H as <- <-.
    apply add_upgraded_ok in E; [|apply W| |exact NW].
    2: { intros j Hj. apply (wf_below _ _ W). unfold ids. apply in_or_app. auto. }
    destruct E as (news & _ & -> & F). cbn. unfold fate_of.
    split; [|now destruct (negb (s_active s))]. intros Ln. apply lookup_none in Ln. exfalso. apply Ln.
    apply lookup_in in L. rewrite keys_app. apply in_or_app. left. apply in_keys. eauto.
  - injection H as <- <-. unfold reset. cbn. destruct (s_active s) eqn:Ac; cbn; [tauto|].
    rewrite L. split; discriminate.
  - injection H as <- <-. cbn. unfold fate_of.
    split; [|now destruct (negb (s_active s))]. rewrite L. discriminate.
Qed.

(** ** Staged features *)

Lemma fexec_staged fuel o s g s' g' :
  never_throws p ->
  wf s g -> fexec p fuel o s g = Ret (s', g') -> no_wrap g' ->
  forall i f', lookup i (s_staged s') = Some f' ->
  match lookup i (s_staged s) with
  | Some f => f_failed f' = next_failed (fate_of p o s f) (f_failed f) /\
              f_succ f' = next_succ (fate_of p o s f) (f_succ f)
  | None => f_failed f' = 0 /\ f_succ f' = 0%Z
  end.
Proof.
  intros NT W H NW i f' L'.
  pose proof (wf_nd_staged _ _ W) as NDs.
  destruct o; cbn [fexec] in H.
  - destruct (get_matches p v (p_min_features p) dets s) as [[s1 mt]| |] eqn:E; cbn in H; try discriminate.
    injection H as <- <-. apply get_matches_inv in E. destruct E as (_ & _ & E & _).
    destruct (sbm_lookup _ _ _ _ NDs E L') as (f & -> & -> & ->).
    unfold fate_of. now destruct (negb (s_active s)).
  - unfold update_map in H. destruct (s_active s) eqn:Ac; cbn in H.
    2: { injection H as <- <-. rewrite L'. unfold fate_of. now rewrite Ac. }
    destruct covOk; cbn in H.
    2: { injection H as <- <-. rewrite L'. unfold fate_of. now rewrite Ac. }
    destruct (update_local_map p c dets (s_local s) g) as [[[loc us] g1]| |] eqn:E; cbn in H; try discriminate.
    destruct (update_staged_map p fuel c dets (s_staged s) loc) as [[[stg loc'] us2]| |] eqn:E2; cbn in H; try discriminate.
    injection H as <- <-. cbn in L'.
    pose proof (update_local_nd _ _ _ _ _ _ _ W E) as ND2.
    apply update_staged_map_in in E2; auto; [|apply W]. destruct E2 as [A _].
    apply lookup_in in L'. apply A in L'. destruct L' as (f0 & u & H0 & H1 & _).
    rewrite (in_lookup _ _ _ NDs H0). apply update_one_inv in H1. destruct H1 as (_ & H1 & _).
    unfold fate_of. rewrite Ac. cbn. destruct (any_success p c dets (f_matches f0) (f_data f0)); cbn; tauto.
  - unfold update_with_no_tracking in H. destruct (s_active s) eqn:Ac; cbn in H.
    2: { injection H as <- <-. rewrite L'. unfold fate_of. now rewrite Ac. }
    destruct (update_local_no_tracking p (s_local s) g) as [loc g1] eqn:E. injection H as <- <-. cbn in L'.
    apply lookup_in in L'. apply update_staged_no_tracking_in in L'.
    destruct L' as (f0 & H0 & -> & _). rewrite (in_lookup _ _ _ NDs H0).
    unfold fate_of. rewrite Ac. split; reflexivity.
  - unfold add_features_to_staged_map in H.
    destruct (s_active s) eqn:Ac; cbn in H; [|injection H as <- <-; rewrite L'; unfold fate_of; now rewrite Ac].
    destruct covOk; cbn in H; [|injection H as <- <-; rewrite L'; unfold fate_of; now rewrite Ac].
    destruct (add_features p c 0 dets used (s_staged s) g) as [stg g1] eqn:E. injection H as <- <-.
    cbn in L'.
    apply add_features_ok in E; [|apply W| |exact NW].
    2: { intros j Hj. apply (wf_below _ _ W). unfold ids. apply in_or_app. auto. }
    destruct E as (news & (_ & _ & _ & _ & A5) & -> & F).
    apply lookup_in in L'. apply in_app_or in L'. destruct L' as [L'|L'].
    + rewrite (in_lookup _ _ _ NDs L'). unfold fate_of. rewrite Ac. split; reflexivity.
    + assert (lookup i (s_staged s) = None) as ->.
      { apply lookup_none. intros Hin.
        assert (X : i <= g_alloc g) by (apply (wf_below _ _ W); unfold ids; apply in_or_app; auto).
        assert (Y : In i (keys news)) by (apply in_keys; eauto). apply A5 in Y. lia. }
      apply F in L'. destruct L' as (d & ->). split; reflexivity.
  - destruct (mark_outliers outl s) as [s1| |] eqn:E; cbn in H; try discriminate.
    injection H as <- <-. apply mark_outliers_inv in E. destruct E as (_ & _ & E).
    destruct (sbm_lookup _ _ _ _ NDs E L') as (f & -> & -> & ->).
    unfold fate_of. now destruct (negb (s_active s)).
  - injection H as <- <-. unfold get_upgraded_features in L'.
    destruct (upgrade_loop p c (s_local s)) as [loc u1] eqn:E1.
    destruct (upgrade_loop p c (s_staged s)) as [stg u2] eqn:E2. cbn in L'.
    apply lookup_in in L'. apply (upgrade_loop_in _ _ _ _ _ E2) in L'. destruct L' as [L' _].
    rewrite (in_lookup _ _ _ NDs L'). unfold fate_of. now destruct (negb (s_active s)).
  - destruct (add_upgraded_features p us s g) as [[s1 g1] b] eqn:E. injection H as <- <-.
    apply add_upgraded_ok in E; [|apply W| |exact NW].
    2: { intros j Hj. apply (wf_below _ _ W). unfold ids. apply in_or_app. auto. }
    destruct E as (news & _ & -> & F). cbn in L'. rewrite L'. unfold fate_of. now destruct (negb (s_active s)).
  - injection H as <- <-. unfold reset in L'. destruct (s_active s) eqn:Ac; cbn in L'; [discriminate|].
    rewrite L'. unfold fate_of. now rewrite Ac.
  - injection H as <- <-. cbn in L'. rewrite L'. unfold fate_of. now destruct (negb (s_active s)).
Qed.

Lemma run_staged h s g :
  never_throws p -> run p h s g -> no_wrap g ->
  forall i f, lookup i (s_staged s) = Some f ->
  f_failed f = staged_misses p i h /\ f_succ f = net_hits p i h.
Proof.
  intros NT R. induction R as [g W|h s g fuel o s' g' R IH E|h s g s' R IH E|h s g g' R IH W L]; intros NW i f Lk.
  - discriminate.
  - pose proof (run_mono_op _ _ _ _ _ _ E NW) as NW0.
    pose proof (run_wf _ _ _ R NW0) as Wf.
    pose proof (fexec_staged _ _ _ _ _ _ NT Wf E NW i f Lk) as X.
    rewrite staged_misses_snoc, net_hits_snoc. unfold staged_misses_step, net_hits_step. cbn.
    destruct (lookup i (s_staged s)) as [f0|] eqn:L0; auto.
    destruct (IH NW0 _ _ L0) as [-> ->] in X. exact X.
  - pose proof (run_wf _ _ _ R NW) as Wf. apply IH; auto.
    destruct E as (_ & _ & _ & P). rewrite <- Lk. symmetry. apply lookup_perm; auto. eapply wf_nd_staged; eauto.
  - apply IH; auto. unfold no_wrap in *. lia.
Qed.

(** a feature enters the local map *)
Lemma fexec_enters_local fuel o s g s' g' :
  never_throws p ->
  wf s g -> fexec p fuel o s g = Ret (s', g') -> no_wrap g' ->
  forall i f', lookup i (s_local s) = None -> lookup i (s_local s') = Some f' ->
  (exists us, o = FUpgradeIn us /\ lookup i (s_staged s) = None) \/
  (exists c dets f, o = FUpdate c true dets /\ s_active s = true /\ lookup i (s_staged s) = Some f /\
     p_should_add p (next_failed (fate_of p o s f) (f_failed f)) (next_succ (fate_of p o s f) (f_succ f)) = true).
Proof.
  intros NT W H NW i f' L L'.
  destruct o; cbn [fexec] in H.
  - destruct (get_matches p v (p_min_features p) dets s) as [[s1 mt]| |] eqn:E; cbn in H; try discriminate.
    injection H as <- <-. apply get_matches_inv in E. destruct E as (_ & E & _).
    apply (sbm_lookup_none _ _ i E) in L. congruence.
  - unfold update_map in H. destruct (s_active s) eqn:Ac; cbn in H.
    2: { injection H as <- <-. congruence. }
    destruct covOk; cbn in H.
    2: { injection H as <- <-. congruence. }
    destruct (update_local_map p c dets (s_local s) g) as [[[loc us] g1]| |] eqn:E; cbn in H; try discriminate.
    destruct (update_staged_map p fuel c dets (s_staged s) loc) as [[[stg loc'] us2]| |] eqn:E2; cbn in H; try discriminate.
    injection H as <- <-. cbn in L'.
    pose proof (update_local_nd _ _ _ _ _ _ _ W E) as ND2.
    apply update_staged_map_in in E2; auto; [|apply W]. destruct E2 as [_ B].
    apply lookup_in in L'. apply B in L'. destruct L' as [L'|(f0 & f1 & u & d & X1 & X2 & X3 & X4 & X5)].
    + apply (update_local_map_in _ _ _ _ _ _ _ _ E) in L'. destruct L' as (f0 & u & H0 & _).
      exfalso. apply lookup_none in L. apply L. apply in_keys. eauto.
    + right. exists c, dets, f0. repeat split; auto.
      * apply in_lookup; auto. eapply wf_nd_staged; eauto.
      * apply update_one_inv in X2. destruct X2 as (_ & C & _). unfold fate_of. rewrite Ac. cbn.
        destruct (any_success p c dets (f_matches f0) (f_data f0)); cbn; destruct C as (-> & -> & _) in X3; exact X3.
  - unfold update_with_no_tracking in H. destruct (s_active s) eqn:Ac; cbn in H.
    2: { injection H as <- <-. congruence. }
    destruct (update_local_no_tracking p (s_local s) g) as [loc g1] eqn:E. injection H as <- <-. cbn in L'.
    apply lookup_in in L'. apply (update_local_no_tracking_in _ _ _ _ _ E) in L'. destruct L' as (f0 & X & _).
    exfalso. apply lookup_none in L. apply L. apply in_keys. eauto.
  - unfold add_features_to_staged_map in H.
    destruct (s_active s) eqn:Ac; cbn in H; [|injection H as <- <-; congruence].
    destruct covOk; cbn in H; [|injection H as <- <-; congruence].
    destruct (add_features p c 0 dets used (s_staged s) g) as [stg g1] eqn:E. injection H as <- <-. cbn in L'. congruence.
  - destruct (mark_outliers outl s) as [s1| |] eqn:E; cbn in H; try discriminate.
    injection H as <- <-. apply mark_outliers_inv in E. destruct E as (_ & E & _).
    apply (sbm_lookup_none _ _ i E) in L. congruence.
  - injection H as <- <-. unfold get_upgraded_features in L'.
    destruct (upgrade_loop p c (s_local s)) as [loc u1] eqn:E1.
    destruct (upgrade_loop p c (s_staged s)) as [stg u2] eqn:E2. cbn in L'.
    apply lookup_in in L'. apply (upgrade_loop_in _ _ _ _ _ E1) in L'. destruct L' as [L' _].
    exfalso. apply lookup_none in L. apply L. apply in_keys. eauto.
  - destruct (add_upgraded_features p us s g) as [[s1 g1] b] eqn:E. injection H as <- <-.
    apply add_upgraded_ok in E; [|apply W| |exact NW].
    2: { intros j Hj. apply (wf_below _ _ W). unfold ids. apply in_or_app. auto. }
    destruct E as (news & (_ & _ & _ & _ & A5) & -> & F). cbn in L'.
    left. exists us. split; auto. apply lookup_none. intros Hin.
    apply lookup_in in L'. apply in_app_or in L'. destruct L' as [L'|L'].
    + apply lookup_none in L. apply L. apply in_keys. eauto.
    + assert (Y : In i (keys news)) by (apply in_keys; eauto). apply A5 in Y.
      assert (X : i <= g_alloc g) by (apply (wf_below _ _ W); unfold ids; apply in_or_app; auto). lia.
  - injection H as <- <-. unfold reset in L'. destruct (s_active s) eqn:Ac; cbn in L'; [discriminate|congruence].
  - injection H as <- <-. cbn in L'. congruence.
Qed.

(** what an update does to a staged feature *)
Lemma update_staged_fate fuel c dets s g s' g' :
  never_throws p ->
  wf s g -> fexec p fuel (FUpdate c true dets) s g = Ret (s', g') -> s_active s = true -> no_wrap g' ->
  forall i f, lookup i (s_staged s) = Some f ->
  let x := fate_of p (FUpdate c true dets) s f in
  let nf := next_failed x (f_failed f) in
  let ns := next_succ x (f_succ f) in
  (if p_should_add p nf ns then lookup i (s_local s') <> None /\ lookup i (s_staged s') = None
   else if p_should_remove p nf ns then lookup i (s_local s') = None /\ lookup i (s_staged s') = None
   else lookup i (s_local s') = None /\ lookup i (s_staged s') <> None).
Proof.
  intros NT W H Ac NW i f L x nf ns.
  pose proof (wf_op _ _ _ _ _ _ W H NW) as W'.
  pose proof (wf_nd_staged _ _ W) as NDs.
  cbn [fexec] in H. unfold update_map in H. rewrite Ac in H. cbn in H.
  destruct (update_local_map p c dets (s_local s) g) as [[[loc us] g1]| |] eqn:E; cbn in H; try discriminate.
  destruct (update_staged_map p fuel c dets (s_staged s) loc) as [[[stg loc'] us2]| |] eqn:E2; cbn in H; try discriminate.
  injection H as <- <-. cbn.
  pose proof (update_local_nd _ _ _ _ _ _ _ W E) as ND2.
  apply lookup_in in L.
  destruct (update_staged_map_ret _ _ _ _ _ _ _ E2 _ _ L) as (f1 & u & X1).
  apply update_staged_map_in in E2; auto; [|apply W]. destruct E2 as [A B].
  pose proof (update_one_inv _ _ _ _ _ _ X1) as (_ & C & _).
  assert (F : f_failed f1 = nf /\ f_succ f1 = ns).
  { unfold nf, ns, x, fate_of. rewrite Ac. cbn.
    destruct (any_success p c dets (f_matches f) (f_data f)); cbn; tauto. }
  destruct F as [F1 F2].
  assert (Uniq : forall f0, In (i, f0) (s_staged s) -> f0 = f).
  { intros f0 H0. apply (in_lookup _ _ _ NDs) in H0. apply (in_lookup _ _ _ NDs) in L. congruence. }
  assert (NL : ~ In i (keys loc)).
  { intros Hin. eapply NoDup_app_disj; [exact ND2|exact Hin|]. apply in_keys. eauto. }
  destruct (p_should_add p nf ns) eqn:SA.
  - destruct (p_mk_local p (f_data f1)) as [d|] eqn:ML; [|exfalso; eapply NT; eauto].
    assert (In (i, promoted f1 d) loc').
    { apply B. right. exists f, f1, u, d. rewrite F1, F2. auto. }
    split.
    + intros Ln. apply lookup_none in Ln. apply Ln. apply in_keys. eauto.
    + apply lookup_none. intros Hin. eapply (wf_disjoint _ _ i W'); cbn; auto. apply in_keys. eauto.
  - assert (NL' : lookup i loc' = None).
    { apply lookup_none. intros Hin. apply in_keys in Hin. destruct Hin as [f2 Hin]. apply B in Hin.
      destruct Hin as [Hin|(f3 & f4 & u2 & d & Y1 & Y2 & Y3 & _)].
      - apply NL. apply in_keys. eauto.
      - apply Uniq in Y1. subst f3. rewrite X1 in Y2. injection Y2 as <- _. congruence. }
    destruct (p_should_remove p nf ns) eqn:SR; split; auto.
    + apply lookup_none. intros Hin. apply in_keys in Hin. destruct Hin as [f2 Hin]. apply A in Hin.
      destruct Hin as (f3 & u2 & Y1 & Y2 & Y3 & Y4). apply Uniq in Y1. subst f3.
      rewrite X1 in Y2. injection Y2 as <- _. congruence.
    + intros Ln. apply lookup_none in Ln. apply Ln. apply in_keys. exists f1. apply A.
      exists f, u. rewrite F1, F2. auto.
Qed.

(** without a pose *)
Lemma no_tracking_staged_fate fuel s g s' g' :
  wf s g -> fexec p fuel FNoTracking s g = Ret (s', g') -> s_active s = true ->
  forall i f, lookup i (s_staged s) = Some f ->
  (lookup i (s_staged s') = None <-> p_should_remove p (f_failed f + 1) (f_succ f - 1) = true).
Proof.
  intros W H Ac i f L. pose proof (wf_nd_staged _ _ W) as NDs.
  cbn in H. unfold update_with_no_tracking in H. rewrite Ac in H. cbn in H.
  destruct (update_local_no_tracking p (s_local s) g) as [loc g1] eqn:E. injection H as <- <-. cbn.
  apply lookup_in in L. split.
  - intros Ln. destruct (p_should_remove p (f_failed f + 1) (f_succ f - 1)) eqn:Lo; auto. exfalso.
    apply lookup_none in Ln. apply Ln. apply in_keys. exists (update_unmatched f).
    apply update_staged_no_tracking_in. exists f. auto.
  - intros Lo. apply lookup_none. intros Hin. apply in_keys in Hin. destruct Hin as [f2 Hin].
    apply update_staged_no_tracking_in in Hin. destruct Hin as (f3 & X1 & -> & X3).
    assert (f3 = f).
    { apply (in_lookup _ _ _ NDs) in X1. apply (in_lookup _ _ _ NDs) in L. congruence. }
    subst f3. cbn in X3. congruence.
Qed.

(** ** History level statements *)

Lemma removal_has_cause h s g fuel o s' g' i f :
  run p h s g -> fexec p fuel o s g = Ret (s', g') -> no_wrap g' ->
  lookup i (s_local s) = Some f ->
  (lookup i (s_local s') = None <->
   (o = FReset /\ s_active s = true) \/
   (exists c, o = FUpgradeOut c /\ p_upgrade p c f <> None) \/
   (fate_of p o s f <> Untouched /\ p_is_lost p (misses p i (h ++ [(o, s)])) = true)).
Proof.
  intros R E NW L. pose proof (run_mono_op _ _ _ _ _ _ E NW) as NW0. pose proof (run_wf _ _ _ R NW0) as Wf.
  rewrite (fexec_local_removed _ _ _ _ _ _ Wf E NW i f L).
  rewrite misses_snoc. unfold misses_step. cbn [fst snd]. rewrite L. rewrite <- (run_failed _ _ _ R NW0 _ _ L).
  unfold local_removal_cause.
  destruct o; try (split; [intros X; right; right; exact X|intros [[X _]|[[c' [X _]]|X]]; [discriminate|discriminate|exact X]]).
  - split.
    + intros X. right. left. eauto.
    + intros [[X _]|[[c' [X Y]]|[X _]]]; [discriminate|congruence|].
      exfalso. apply X. unfold fate_of. now destruct (negb (s_active s)).
  - split.
    + intros X. left. auto.
    + intros [[_ X]|[[c' [X Y]]|[X _]]]; [auto|congruence|].
      exfalso. apply X. unfold fate_of. now destruct (negb (s_active s)).
Qed.

End History.

(** Proofs about the feature map model. *)
From Coq Require Import Permutation ZifyBool ZifyNat ZifyN.
From Verif Require Import FeatureMapModel FeatureMapSpec.
Local Open Scope N_scope.
Local Arguments size_t_mod : simpl never.

(** permutations of lists of identifiers, by counting occurrences *)
Ltac perm :=
  unfold keys in *;
  repeat match goal with H : Permutation _ _ |- _ => rewrite (Permutation_count_occ N.eq_dec) in H end;
  rewrite (Permutation_count_occ N.eq_dec);
  let x := fresh "x" in intro x;
  repeat match goal with H : forall y : N, count_occ _ _ y = count_occ _ _ y |- _ => specialize (H x) end;
  rewrite ?count_occ_app in *; cbn [count_occ] in *;
  repeat match goal with |- context [N.eq_dec ?a ?b] => destruct (N.eq_dec a b) end;
  lia.

Section Proofs.
Context {D Det Ctx View Mt U : Type}.
Notation pol_t := (policy D Det Ctx View Mt U).
Notation feat := (feat D).
Notation fmap := (fmap D).
Notation fstate := (fstate D).
Notation fop := (fop Det Ctx View U).
Variable p : pol_t.
Implicit Types (m loc stg : fmap) (f : feat) (s : fstate) (o : fop).

(** ** Containers *)
Definition keyed (m : fmap) : Prop := Forall (fun kf => fst kf = f_id (snd kf)) m.

Lemma lookup_in k m f : lookup k m = Some f -> In (k, f) m.
Proof.
  induction m as [|[k' f'] m IH]; cbn; [discriminate|].
  destruct (N.eqb_spec k k'); intros H.
  - left. congruence.
  - right. auto.
Qed.

Lemma lookup_none k (m : fmap) : lookup k m = None <-> ~ In k (keys m).
Proof.
  induction m as [|[k' f'] m IH]; cbn; [tauto|].
  destruct (N.eqb_spec k k'); split; intros H.
  - discriminate.
  - subst. tauto.
  - intros [E|E]; [congruence|]. now apply IH.
  - apply IH. tauto.
Qed.

Lemma in_keys k (m : fmap) : In k (keys m) <-> exists f, In (k, f) m.
Proof.
  unfold keys. rewrite in_map_iff. split.
  - intros [[k' f] [E H]]. cbn in E. subst. eauto.
  - intros [f H]. exists (k, f). auto.
Qed.

Lemma in_lookup k m f : NoDup (keys m) -> In (k, f) m -> lookup k m = Some f.
Proof.
  induction m as [|[k' f'] m IH]; cbn; [tauto|].
  intros ND H. inversion ND as [|? ? Hn ND']; subst.
  destruct (N.eqb_spec k k').
  - subst. destruct H as [E|E]; [congruence|]. exfalso. apply Hn. apply in_keys. eauto.
  - destruct H as [E|E]; [congruence|]. auto.
Qed.

Lemma lookup_iff k m f : NoDup (keys m) -> (lookup k m = Some f <-> In (k, f) m).
Proof. intros ND. split; [apply lookup_in | now apply in_lookup]. Qed.

Lemma keys_app (a b : fmap) : keys (a ++ b) = keys a ++ keys b.
Proof. apply map_app. Qed.

Lemma keyed_in m k f : keyed m -> In (k, f) m -> k = f_id f.
Proof. intros K H. unfold keyed in K. rewrite Forall_forall in K. apply (K (k, f) H). Qed.

Lemma emplace_new k f (m : fmap) : ~ In k (keys m) -> emplace k f m = m ++ [(k, f)].
Proof. intros H. unfold emplace. now apply lookup_none in H; rewrite H. Qed.

Lemma modify_keys k g (m : fmap) : keys (modify k g m) = keys m.
Proof.
  induction m as [|[k' f'] m IH]; cbn; auto.
  destruct (N.eqb k k'); cbn; auto. now f_equal.
Qed.

Lemma modify_in k g (m : fmap) k1 f1 :
  NoDup (keys m) ->
  (In (k1, f1) (modify k g m) <->
   (k1 <> k /\ In (k1, f1) m) \/ (k1 = k /\ exists f, In (k, f) m /\ f1 = g f)).
Proof.
  induction m as [|[k' f'] m IH]; cbn; intros ND.
  - split; [tauto|]. intros [[_ []]|[_ [f [[] _]]]].
  - inversion ND as [|? ? Hn ND']; subst.
    destruct (N.eqb_spec k k').
    + subst k'. cbn. split.
      * intros [E|E].
        -- injection E as <- <-. right. split; auto. exists f'. auto.
        -- destruct (N.eq_dec k1 k).
           ++ subst. exfalso. apply Hn. apply in_keys. eauto.
           ++ left. auto.
      * intros [[Ne [E|E]]|[-> [f [[E|E] ->]]]].
        -- congruence.
        -- auto.
        -- injection E as <-. auto.
        -- exfalso. apply Hn. apply in_keys. eauto.
    + cbn. rewrite IH by assumption. split.
      * intros [E|[[Ne E]|[-> [f [E ->]]]]].
        -- injection E as <- <-. left. auto.
        -- left. auto.
        -- right. split; auto. exists f. auto.
      * intros [[Ne [E|E]]|[-> [f [[E|E] ->]]]].
        -- left. congruence.
        -- right. left. auto.
        -- congruence.
        -- right. right. split; auto. exists f. auto.
Qed.

Lemma modify_lookup k g (m : fmap) k1 :
  lookup k1 (modify k g m) = if N.eqb k1 k then option_map g (lookup k1 m) else lookup k1 m.
Proof.
  induction m as [|[k' f'] m IH]; cbn.
  - now destruct (N.eqb k1 k).
  - destruct (N.eqb_spec k k') as [E|Hk]; cbn.
    + rewrite E. destruct (N.eqb_spec k1 k') as [E1|H1]; cbn; auto.
    + destruct (N.eqb_spec k1 k') as [E1|H1]; cbn; auto.
      destruct (N.eqb_spec k1 k); congruence.
Qed.

(** ** Features *)
Lemma is_matched_true f : is_matched (D:=D) f = true <-> f_matches f <> [].
Proof. unfold is_matched. destruct (f_matches f); split; congruence. Qed.

(** ** [apply_matches] and [update_one] *)
Lemma apply_matches_ok c dets is d ok used d' ok' used' :
  apply_matches p c dets is d ok used = Ret (d', ok', used') ->
  ok' = ok || any_success p c dets is d.
Proof.
  revert d ok used. induction is as [|i is IH]; cbn; intros d ok used H.
  - injection H as <- <- <-. now rewrite orb_false_r.
  - destruct (nth_error dets i) as [det|]; [|discriminate].
    destruct (p_update p c d det) as [d1 r]. apply IH in H. now rewrite H, orb_assoc.
Qed.

Lemma apply_matches_range c dets is d ok used r :
  apply_matches p c dets is d ok used = Ret r -> forall i, In i is -> (i < length dets)%nat.
Proof.
  revert d ok used. induction is as [|i is IH]; cbn; intros d ok used H j Hj; [tauto|].
  destruct (nth_error dets i) as [det|] eqn:E; [|discriminate].
  destruct (p_update p c d det) as [d1 rr].
  destruct Hj as [->|Hj]; [|eauto].
  apply nth_error_Some. congruence.
Qed.

Lemma apply_matches_used c dets is d ok used d' ok' used' :
  apply_matches p c dets is d ok used = Ret (d', ok', used') ->
  forall i, In i used' -> In i used \/ In i is.
Proof.
  revert d ok used. induction is as [|i is IH]; cbn; intros d ok used H j Hj.
  - injection H as <- <- <-. auto.
  - destruct (nth_error dets i) as [det|] eqn:E; [|discriminate].
    destruct (p_update p c d det) as [d1 rr].
    destruct (IH _ _ _ H j Hj) as [Hu|Hi]; auto.
    destruct rr; auto. apply in_app_or in Hu. cbn in Hu. intuition.
Qed.

Lemma update_one_inv c dets f0 f used :
  update_one p c dets f0 = Ret (f, used) ->
  f_id f = f_id f0 /\
  (if any_success p c dets (f_matches f0) (f_data f0)
   then f_failed f = 0 /\ f_succ f = (f_succ f0 + 1)%Z /\ f_matches f = f_matches f0
   else f_failed f = f_failed f0 + 1 /\ f_succ f = (f_succ f0 - 1)%Z /\ f_matches f = []) /\
  (forall i, In i (f_matches f0) -> (i < length dets)%nat) /\
  (forall i, In i used -> In i (f_matches f0)).
Proof.
  unfold update_one. destruct (apply_matches p c dets (f_matches f0) (f_data f0) false []) as [[[d ok] us]| |] eqn:E;
    cbn; try discriminate.
  intros H. injection H as <- <-.
  pose proof (apply_matches_ok _ _ _ _ _ _ _ _ _ E) as Hok. cbn in Hok. subst ok.
  split; [now destruct (any_success _ _ _ _ _)|].
  split; [now destruct (any_success _ _ _ _ _)|].
  split; [eapply apply_matches_range; eauto|].
  intros i Hi. destruct (apply_matches_used _ _ _ _ _ _ _ _ _ E i Hi) as [[]|]; auto.
Qed.

Lemma update_one_id c dets f0 f used : update_one p c dets f0 = Ret (f, used) -> f_id f = f_id f0.
Proof. intros H. apply update_one_inv in H. tauto. Qed.

(** ** Shared state *)
Definition wf_shared (g : shared) : Prop := g_alloc g = g_allocs g.
Definition no_wrap (g : shared) : Prop := g_allocs g < size_t_mod.

Lemma get_new_id_no_wrap a : a + 1 < size_t_mod -> get_new_id a = a + 1.
Proof. intros H. unfold get_new_id. rewrite N.mod_small by assumption. lia. Qed.

Lemma get_new_id_pos a : get_new_id a <> invalidId.
Proof. unfold get_new_id, invalidId. lia. Qed.

(** [g'] is [g] after some writes of [ws] *)
Definition wrote (g : shared) (ws : list N) (g' : shared) : Prop :=
  g_alloc g' = g_alloc g /\ g_allocs g' = g_allocs g /\ g_out g' = g_out g ++ ws.

Lemma wrote_nil g : wrote g [] g.
Proof. repeat split. now rewrite app_nil_r. Qed.

Lemma wrote_cons i ws g g' : wrote (write i g) ws g' -> wrote g (i :: ws) g'.
Proof. intros (A & B & C). repeat split; auto. cbn in C. rewrite C, <- app_assoc. auto. Qed.

(** ** [update_local_map] *)
Lemma update_local_map_keys c dets m g m' us g' :
  keyed m ->
  update_local_map p c dets m g = Ret (m', us, g') ->
  keyed m' /\ exists ws rest, wrote g ws g' /\ Permutation (keys m) (keys m' ++ ws ++ rest).
Proof.
  revert g m' us g'. induction m as [|[k f0] m IH]; cbn; intros g m' us g' K H.
  - injection H as <- <- <-. split; [constructor|]. exists [], []. split; [apply wrote_nil|constructor].
  - inversion K as [|? ? Hk K']; subst. cbn in Hk.
    destruct (update_one p c dets f0) as [[f used]| |] eqn:E; cbn in H; try discriminate.
    pose proof (update_one_id _ _ _ _ _ E) as Hid.
    destruct (p_is_lost p (f_failed f)) eqn:L.
    + destruct (update_local_map p c dets m _) as [[[r us'] g'']| |] eqn:E2; cbn in H; try discriminate.
      injection H as <- <- <-.
      apply IH in E2; auto. destruct E2 as [K2 (ws & rest & W & P)]. split; auto.
      destruct (p_moving p (f_data f)).
      * exists ws, (k :: rest). split; auto.
        cbn. rewrite P. rewrite !app_assoc. apply Permutation_middle.
      * exists (k :: ws), rest. split.
        -- replace k with (f_id f) by congruence. now apply wrote_cons.
        -- cbn. rewrite P. apply Permutation_middle.
    + destruct (update_local_map p c dets m _) as [[[r us'] g'']| |] eqn:E2; cbn in H; try discriminate.
      injection H as <- <- <-.
      apply IH in E2; auto. destruct E2 as [K2 (ws & rest & W & P)]. split.
      * constructor; auto. cbn. congruence.
      * exists ws, rest. split; auto. cbn. now constructor.
Qed.

Lemma update_local_map_in c dets m g m' us g' :
  update_local_map p c dets m g = Ret (m', us, g') ->
  forall k f, In (k, f) m' <->
    exists f0 u, In (k, f0) m /\ update_one p c dets f0 = Ret (f, u) /\ p_is_lost p (f_failed f) = false.
Proof.
  revert g m' us g'. induction m as [|[k0 f0] m IH]; cbn; intros g m' us g' H k f.
  - injection H as <- <- <-. split; [intros []|intros (? & ? & [] & _)].
  - destruct (update_one p c dets f0) as [[f1 used]| |] eqn:E; cbn in H; try discriminate.
    destruct (p_is_lost p (f_failed f1)) eqn:L.
    + destruct (update_local_map p c dets m _) as [[[r us'] g'']| |] eqn:E2; cbn in H; try discriminate.
      injection H as <- <- <-. rewrite (IH _ _ _ _ E2 k f). split.
      * intros (x & u & A & B & C). exists x, u. auto.
      * intros (x & u & [A|A] & B & C).
        -- injection A as -> ->. congruence.
        -- exists x, u. auto.
    + destruct (update_local_map p c dets m _) as [[[r us'] g'']| |] eqn:E2; cbn in H; try discriminate.
      injection H as <- <- <-. cbn. rewrite (IH _ _ _ _ E2 k f). split.
      * intros [A|(x & u & A & B & C)].
        -- injection A as <- <-. exists f0, used. auto.
        -- exists x, u. auto.
      * intros (x & u & [A|A] & B & C).
        -- injection A as <- <-. left. congruence.
        -- right. exists x, u. auto.
Qed.

Lemma update_local_map_ret c dets m g r :
  update_local_map p c dets m g = Ret r ->
  forall k f0, In (k, f0) m -> exists f u, update_one p c dets f0 = Ret (f, u).
Proof.
  revert g r. induction m as [|[k0 f0] m IH]; cbn; intros g r H k f Hin; [tauto|].
  destruct (update_one p c dets f0) as [[f1 used]| |] eqn:E; cbn in H; try discriminate.
  destruct Hin as [A|A].
  - injection A as <- <-. eauto.
  - destruct (p_is_lost p (f_failed f1)).
    + destruct (update_local_map p c dets m _) as [x| |] eqn:E2; cbn in H; try discriminate. eauto.
    + destruct (update_local_map p c dets m _) as [x| |] eqn:E2; cbn in H; try discriminate. eauto.
Qed.

(** ** [update_staged_map] *)
Lemma update_staged_map_keys fuel c dets m loc m' loc' us :
  keyed m -> keyed loc -> NoDup (keys loc ++ keys m) ->
  update_staged_map p fuel c dets m loc = Ret (m', loc', us) ->
  keyed m' /\ keyed loc' /\ exists rest, Permutation (keys loc ++ keys m) (keys loc' ++ keys m' ++ rest).
Proof.
  revert m loc m' loc' us. induction fuel as [|fuel IH]; intros m loc m' loc' us K Kl ND H.
  - destruct m as [|[k f] m]; cbn in H; [|discriminate]. injection H as <- <- <-.
    split; auto. split; auto. exists []. cbn. rewrite ?app_nil_r. reflexivity.
  - destruct m as [|[k f0] m]; cbn in H.
    { injection H as <- <- <-. split; auto. split; auto. exists []. cbn. rewrite ?app_nil_r. reflexivity. }
    inversion K as [|? ? Hk K']; subst. cbn in Hk.
    destruct (update_one p c dets f0) as [[f used]| |] eqn:E; cbn in H; try discriminate.
    pose proof (update_one_id _ _ _ _ _ E) as Hid.
    cbn in ND.
    assert (ND' : NoDup (keys loc ++ keys m)) by (eapply NoDup_remove_1; eauto).
    assert (Nin : ~ In k (keys loc ++ keys m)) by (eapply NoDup_remove_2; eauto).
    destruct (p_should_add p (f_failed f) (f_succ f)).
    + destruct (p_mk_local p (f_data f)) as [d|].
      * rewrite emplace_new in H.
        2: { intros Hin. apply Nin. apply in_or_app. left. congruence. }
        destruct (update_staged_map p fuel c dets m _) as [[[r loc1] us1]| |] eqn:E2; cbn in H; try discriminate.
        injection H as <- <- <-.
        apply IH in E2; auto.
        -- destruct E2 as (A & B & rest & P). split; auto. split; auto. exists rest.
           rewrite <- P. rewrite keys_app. cbn. rewrite <- app_assoc. cbn.
           replace (f_id f) with k by congruence. reflexivity.
        -- apply Forall_app. split; auto.
        -- rewrite keys_app. cbn. rewrite <- app_assoc. cbn. replace (f_id f) with k by congruence. auto.
      * destruct (update_staged_map p fuel c dets _ loc) as [[[r loc1] us1]| |] eqn:E2; cbn in H; try discriminate.
        injection H as <- <- <-.
        apply IH in E2; auto. constructor; auto. cbn. congruence.
    + destruct (p_should_remove p (f_failed f) (f_succ f)).
      * destruct (update_staged_map p fuel c dets _ loc) as [[[r loc1] us1]| |] eqn:E2; cbn in H; try discriminate.
        injection H as <- <- <-.
        apply IH in E2; auto. destruct E2 as (A & B & rest & P). split; auto. split; auto.
        exists (k :: rest). cbn. rewrite <- Permutation_middle. rewrite P.
        rewrite !app_assoc. apply Permutation_middle.
      * destruct (update_staged_map p fuel c dets _ loc) as [[[r loc1] us1]| |] eqn:E2; cbn in H; try discriminate.
        injection H as <- <- <-.
        apply IH in E2; auto. destruct E2 as (A & B & rest & P).
        split; [constructor; auto; cbn; congruence|]. split; auto.
        exists rest. cbn. rewrite <- Permutation_middle. rewrite P. apply Permutation_middle.
Qed.

Lemma update_staged_map_in fuel c dets m loc m' loc' us :
  never_throws p -> keyed m -> NoDup (keys loc ++ keys m) ->
  update_staged_map p fuel c dets m loc = Ret (m', loc', us) ->
  (forall k f, In (k, f) m' <->
    exists f0 u, In (k, f0) m /\ update_one p c dets f0 = Ret (f, u) /\
                 p_should_add p (f_failed f) (f_succ f) = false /\
                 p_should_remove p (f_failed f) (f_succ f) = false) /\
  (forall k f, In (k, f) loc' <->
    In (k, f) loc \/
    exists f0 f1 u d, In (k, f0) m /\ update_one p c dets f0 = Ret (f1, u) /\
                 p_should_add p (f_failed f1) (f_succ f1) = true /\
                 p_mk_local p (f_data f1) = Some d /\ f = promoted f1 d).
Proof.
  intros NT. revert m loc m' loc' us. induction fuel as [|fuel IH]; intros m loc m' loc' us K ND H.
  - destruct m as [|[k f] m]; cbn in H; [|discriminate]. injection H as <- <- <-.
    split; intros k f; split.
    + intros [].
    + intros (? & ? & [] & _).
    + auto.
    + intros [A|(? & ? & ? & ? & [] & _)]. auto.
  - destruct m as [|[k0 f0] m]; cbn in H.
    { injection H as <- <- <-. split; intros k f; split.
      + intros [].
      + intros (? & ? & [] & _).
      + auto.
      + intros [A|(? & ? & ? & ? & [] & _)]. auto. }
    inversion K as [|? ? Hk K']; subst. cbn in Hk.
    destruct (update_one p c dets f0) as [[f1 used]| |] eqn:E; cbn in H; try discriminate.
    pose proof (update_one_id _ _ _ _ _ E) as Hid.
    cbn in ND.
    assert (ND' : NoDup (keys loc ++ keys m)) by (eapply NoDup_remove_1; eauto).
    assert (Nin : ~ In k0 (keys loc ++ keys m)) by (eapply NoDup_remove_2; eauto).
    destruct (p_should_add p (f_failed f1) (f_succ f1)) eqn:SA.
    + destruct (p_mk_local p (f_data f1)) as [d|] eqn:ML; [|exfalso; eapply NT; eauto].
      rewrite emplace_new in H.
      2: { intros Hin. apply Nin. apply in_or_app. left. congruence. }
      destruct (update_staged_map p fuel c dets m _) as [[[r loc1] us1]| |] eqn:E2; cbn in H; try discriminate.
      injection H as <- <- <-.
      apply IH in E2; auto.
      2: { rewrite keys_app. cbn. rewrite <- app_assoc. cbn. replace (f_id f1) with k0 by congruence. auto. }
      destruct E2 as [A B]. split; intros k f; cbn [In].
      * rewrite A. split.
        -- intros (x & u & C & X). exists x, u. auto.
        -- intros (x & u & [C|C] & X1 & X2 & X3).
           ++ injection C as <- <-. congruence.
           ++ exists x, u. auto.
      * rewrite B. split.
        -- intros [C|(x & y & u & d' & C & X)].
           ++ apply in_app_or in C. destruct C as [C|[C|[]]]; auto.
              injection C as <- <-. right. exists f0, f1, used, d.
              repeat split; auto. left. congruence.
           ++ right. exists x, y, u, d'. intuition.
        -- intros [C|(x & y & u & d' & [C|C] & X1 & X2 & X3 & X4)].
           ++ left. apply in_or_app. auto.
           ++ injection C as <- <-. left. apply in_or_app. right. left.
              assert (f1 = y) by congruence. subst y. assert (d = d') by congruence. subst.
              f_equal. congruence.
           ++ right. exists x, y, u, d'. auto.
    + destruct (p_should_remove p (f_failed f1) (f_succ f1)) eqn:SR.
      * destruct (update_staged_map p fuel c dets _ loc) as [[[r loc1] us1]| |] eqn:E2; cbn in H; try discriminate.
        injection H as <- <- <-.
        apply IH in E2; auto. destruct E2 as [A B]. split; intros k f; cbn [In].
        -- rewrite A. split.
           ++ intros (x & u & C & X). exists x, u. auto.
           ++ intros (x & u & [C|C] & X1 & X2 & X3).
              ** injection C as <- <-. congruence.
              ** exists x, u. auto.
        -- rewrite B. split.
           ++ intros [C|(x & y & u & d' & C & X)]; auto. right. exists x, y, u, d'. intuition.
           ++ intros [C|(x & y & u & d' & [C|C] & X1 & X2 & X3 & X4)]; auto.
              ** injection C as <- <-. congruence.
              ** right. exists x, y, u, d'. auto.
      * destruct (update_staged_map p fuel c dets _ loc) as [[[r loc1] us1]| |] eqn:E2; cbn in H; try discriminate.
        injection H as <- <- <-.
        apply IH in E2; auto. destruct E2 as [A B]. split; intros k f; cbn [In].
        -- cbn. rewrite A. split.
           ++ intros [C|(x & u & C & X)].
              ** injection C as <- <-. exists f0, used. auto.
              ** exists x, u. auto.
           ++ intros (x & u & [C|C] & X1 & X2 & X3).
              ** injection C as <- <-. left. congruence.
              ** right. exists x, u. auto.
        -- rewrite B. split.
           ++ intros [C|(x & y & u & d' & C & X)]; auto. right. exists x, y, u, d'. intuition.
           ++ intros [C|(x & y & u & d' & [C|C] & X1 & X2 & X3 & X4)]; auto.
              ** injection C as <- <-. congruence.
              ** right. exists x, y, u, d'. auto.
Qed.

Lemma update_staged_map_ret fuel c dets m loc r :
  update_staged_map p fuel c dets m loc = Ret r ->
  forall k f0, In (k, f0) m -> exists f u, update_one p c dets f0 = Ret (f, u).
Proof.
  revert m loc r. induction fuel as [|fuel IH]; intros m loc r H k f Hin.
  - destruct m as [|[k0 f0] m]; [destruct Hin|discriminate].
  - destruct m as [|[k0 f0] m]; [destruct Hin|]. cbn in H.
    destruct (update_one p c dets f0) as [[f1 used]| |] eqn:E; cbn in H; try discriminate.
    destruct Hin as [A|A]; [injection A as <- <-; eauto|].
    destruct (p_should_add p (f_failed f1) (f_succ f1)).
    + destruct (p_mk_local p (f_data f1)).
      * destruct (update_staged_map p fuel c dets m _) as [x| |] eqn:E2; cbn in H; try discriminate. eauto.
      * destruct (update_staged_map p fuel c dets _ loc) as [x| |] eqn:E2; cbn in H; try discriminate.
        eapply (IH _ _ _ E2). right. exact A.
    + destruct (p_should_remove p (f_failed f1) (f_succ f1));
        (destruct (update_staged_map p fuel c dets m _) as [x| |] eqn:E2; cbn in H; try discriminate; eauto).
Qed.

(** ** Without tracking *)
Lemma update_local_no_tracking_keys m g m' g' :
  keyed m -> update_local_no_tracking p m g = (m', g') ->
  keyed m' /\ exists ws, wrote g ws g' /\ Permutation (keys m) (keys m' ++ ws).
Proof.
  revert g m' g'. induction m as [|[k f0] m IH]; cbn; intros g m' g' K H.
  - injection H as <- <-. split; [constructor|]. exists []. split; [apply wrote_nil|constructor].
  - inversion K as [|? ? Hk K']; subst. cbn in Hk.
    destruct (p_is_lost p (f_failed f0 + 1)) eqn:L.
    + apply IH in H; auto. destruct H as [A (ws & W & P)]. split; auto.
      exists (k :: ws). split.
      * subst k. now apply wrote_cons.
      * rewrite P. apply Permutation_middle.
    + destruct (update_local_no_tracking p m g) as [r g1] eqn:E. injection H as <- <-.
      apply IH in E; auto. destruct E as [A (ws & W & P)]. split.
      * constructor; auto.
      * exists ws. split; auto. cbn. now constructor.
Qed.

Lemma update_local_no_tracking_in m g m' g' :
  update_local_no_tracking p m g = (m', g') ->
  forall k f, In (k, f) m' <->
    exists f0, In (k, f0) m /\ f = update_unmatched f0 /\ p_is_lost p (f_failed f) = false.
Proof.
  revert g m' g'. induction m as [|[k0 f0] m IH]; cbn; intros g m' g' H k f.
  - injection H as <- <-. split; [intros []|intros (? & [] & _)].
  - destruct (p_is_lost p (f_failed f0 + 1)) eqn:L.
    + rewrite (IH _ _ _ H). split.
      * intros (x & A & B). exists x. auto.
      * intros (x & [A|A] & -> & C).
        -- injection A as <- <-. cbn in C. congruence.
        -- exists x. auto.
    + destruct (update_local_no_tracking p m g) as [r g1] eqn:E. injection H as <- <-.
      cbn. rewrite (IH _ _ _ E). split.
      * intros [A|(x & A & B)].
        -- injection A as <- <-. exists f0. auto.
        -- exists x. auto.
      * intros (x & [A|A] & -> & C).
        -- injection A as <- <-. left. auto.
        -- right. exists x. auto.
Qed.

Lemma update_staged_no_tracking_keys m :
  keyed m -> keyed (update_staged_no_tracking p m) /\
  exists rest, Permutation (keys m) (keys (update_staged_no_tracking p m) ++ rest).
Proof.
  induction m as [|[k f0] m IH]; cbn; intros K.
  - split; [constructor|]. exists []. constructor.
  - inversion K as [|? ? Hk K']; subst. cbn in Hk. destruct (IH K') as [A [rest P]].
    destruct (p_should_remove p (f_failed f0 + 1) (f_succ f0 - 1)).
    + split; auto. exists (k :: rest). rewrite P. apply Permutation_middle.
    + split; [constructor; auto|]. exists rest. cbn. now constructor.
Qed.

Lemma update_staged_no_tracking_in m k f :
  In (k, f) (update_staged_no_tracking p m) <->
  exists f0, In (k, f0) m /\ f = update_unmatched f0 /\ p_should_remove p (f_failed f) (f_succ f) = false.
Proof.
  induction m as [|[k0 f0] m IH]; cbn.
  - split; [intros []|intros (? & [] & _)].
  - destruct (p_should_remove p (f_failed f0 + 1) (f_succ f0 - 1)) eqn:L.
    + rewrite IH. split.
      * intros (x & A & B). exists x. auto.
      * intros (x & [A|A] & -> & C).
        -- injection A as <- <-. cbn in C. congruence.
        -- exists x. auto.
    + cbn. rewrite IH. split.
      * intros [A|(x & A & B)].
        -- injection A as <- <-. exists f0. auto.
        -- exists x. auto.
      * intros (x & [A|A] & -> & C).
        -- injection A as <- <-. left. auto.
        -- right. exists x. auto.
Qed.

(** ** Upgrades *)
Lemma upgrade_loop_keys c m m' us :
  keyed m -> upgrade_loop p c m = (m', us) ->
  keyed m' /\ exists rest, Permutation (keys m) (keys m' ++ rest).
Proof.
  revert m' us. induction m as [|[k f0] m IH]; cbn; intros m' us K H.
  - injection H as <- <-. split; [constructor|]. exists []. constructor.
  - inversion K as [|? ? Hk K']; subst. cbn in Hk.
    destruct (upgrade_loop p c m) as [r us0] eqn:E. destruct (IH _ _ K' eq_refl) as [A [rest P]].
    destruct (p_upgrade p c f0); injection H as <- <-.
    + split; auto. exists (k :: rest). rewrite P. apply Permutation_middle.
    + split; [constructor; auto|]. exists rest. cbn. now constructor.
Qed.

Lemma upgrade_loop_in c m m' us :
  upgrade_loop p c m = (m', us) ->
  forall k f, In (k, f) m' <-> In (k, f) m /\ p_upgrade p c f = None.
Proof.
  revert m' us. induction m as [|[k0 f0] m IH]; cbn; intros m' us H k f.
  - injection H as <- <-. cbn. tauto.
  - destruct (upgrade_loop p c m) as [r us0] eqn:E.
    destruct (p_upgrade p c f0) eqn:EU; injection H as <- <-; cbn; rewrite (IH _ _ eq_refl); intuition; try congruence.
Qed.

(** ** Matching *)
Lemma match_loop_in v adv add dets m fl mt m' fl' mt' :
  match_loop p v adv add dets m fl mt = Ret (m', fl', mt') ->
  keys m' = keys m /\
  length fl' = length fl /\
  forall k f, In (k, f) m' -> exists f0 ms, In (k, f0) m /\ f = set_matches ms f0.
Proof.
  assert (SF : forall i b l l', set_flag i b l = Some l' -> length l' = length l).
  { intros i b l. revert i. induction l as [|x l IH]; intros [|i] l' H; cbn in H; try discriminate.
    - injection H as <-. reflexivity.
    - destruct (set_flag i b l) eqn:E; [|discriminate]. injection H as <-. cbn. f_equal. eauto. }
  assert (SFS : forall is b l l', set_flags is b l = Ret l' -> length l' = length l).
  { induction is as [|i is IH]; cbn; intros b l l' H.
    - injection H as <-. reflexivity.
    - destruct (set_flag i b l) eqn:E; [|discriminate]. apply SF in E. apply IH in H. congruence. }
  revert fl mt m' fl' mt'. induction m as [|[k0 f0] m IH]; cbn; intros fl mt m' fl' mt' H.
  - injection H as <- <- <-. repeat split. intros k f [].
  - assert (G : forall fl1 mt1 f1 r fl2 mt2,
        match_loop p v adv add dets m fl1 mt1 = Ret (r, fl2, mt2) ->
        length fl1 = length fl -> (exists ms, f1 = set_matches ms f0) ->
        keys ((k0, f1) :: r) = k0 :: keys m /\ length fl2 = length fl /\
        forall k f, In (k, f) ((k0, f1) :: r) -> exists f2 ms, ((k0, f0) = (k, f2) \/ In (k, f2) m) /\ f = set_matches ms f2).
    { intros fl1 mt1 f1 r fl2 mt2 H1 L1 (ms & ->). apply IH in H1. destruct H1 as (A & B & C).
      unfold keys in *. cbn. rewrite A. repeat split; [congruence|].
      intros k f [X|X].
      - injection X as <- <-. exists f0, ms. auto.
      - apply C in X. destruct X as (f2 & ms2 & X1 & X2). exists f2, ms2. auto. }
    destruct (p_moving p (f_data f0) || negb (p_visible p v (f_data f0))).
    + destruct (match_loop p v adv add dets m fl mt) as [[[r fl1] mt1]| |] eqn:E; cbn in H; try discriminate.
      injection H as <- <- <-. eapply G; eauto. exists []. reflexivity.
    + destruct (p_find p v adv add dets (mark_unmatched f0) fl) as [idx pushed].
      destruct idx as [|i0 idx].
      * destruct (match_loop p v adv add dets m fl (mt ++ pushed)) as [[[r fl1] mt1]| |] eqn:E; cbn in H; try discriminate.
        injection H as <- <- <-. eapply G; eauto. exists []. reflexivity.
      * destruct (set_flags (i0 :: idx) true fl) as [fl1| |] eqn:EF; cbn [bind] in H; try discriminate.
        destruct (match_loop p v adv add dets m fl1 (mt ++ pushed)) as [[[r fl2] mt2]| |] eqn:E; cbn in H; try discriminate.
        injection H as <- <- <-. eapply G; eauto. exists (i0 :: idx). reflexivity.
Qed.

(** same features up to their matches *)
Definition same_but_matches (m m' : fmap) : Prop :=
  keys m' = keys m /\
  forall k f, In (k, f) m' -> exists f0 ms, In (k, f0) m /\ f = set_matches ms f0.

Lemma sbm_refl m : same_but_matches m m.
Proof. split; auto. intros k f H. exists f, (f_matches f). split; auto. now destruct f. Qed.

Lemma sbm_trans m1 m2 m3 : same_but_matches m1 m2 -> same_but_matches m2 m3 -> same_but_matches m1 m3.
Proof.
  intros [A1 B1] [A2 B2]. split; [congruence|]. intros k f H.
  apply B2 in H. destruct H as (f1 & ms & H & ->). apply B1 in H. destruct H as (f2 & ms2 & H & ->).
  exists f2, ms. auto.
Qed.

Lemma sbm_keyed m m' : keyed m -> same_but_matches m m' -> keyed m'.
Proof.
  intros K [_ B]. apply Forall_forall. intros [k f] H. cbn.
  apply B in H. destruct H as (f0 & ms & H & ->). cbn. now apply (keyed_in m).
Qed.

Lemma get_matches_pass_inv v adv n dets mt s s' mt' :
  get_matches_pass p v adv n dets mt s = Ret (s', mt') ->
  s_active s' = s_active s /\
  same_but_matches (s_local s) (s_local s') /\ same_but_matches (s_staged s) (s_staged s') /\
  (s_active s = true -> length (s_flags s') = length dets).
Proof.
  unfold get_matches_pass. destruct (s_active s) eqn:Ac; cbn.
  - destruct (match_loop p v adv true dets (s_local s) (repeat false (length dets)) []) as [[[loc fl1] mt1]| |] eqn:E1;
      cbn; try discriminate.
    destruct (match_loop p v adv _ dets (s_staged s) fl1 mt1) as [[[stg fl2] mt2]| |] eqn:E2; cbn; try discriminate.
    intros H. injection H as <- <-. cbn.
    apply match_loop_in in E1. apply match_loop_in in E2.
    destruct E1 as (A1 & B1 & C1), E2 as (A2 & B2 & C2).
    repeat split; auto. intros _. rewrite B2, B1. apply repeat_length.
  - intros H. injection H as <- <-. repeat split; auto using sbm_refl; try discriminate; apply sbm_refl.
Qed.

Lemma get_matches_inv v n dets s s' mt' :
  get_matches p v n dets s = Ret (s', mt') ->
  s_active s' = s_active s /\
  same_but_matches (s_local s) (s_local s') /\ same_but_matches (s_staged s) (s_staged s') /\
  (s_active s = true -> length (s_flags s') = length dets).
Proof.
  unfold get_matches.
  destruct (get_matches_pass p v false n dets [] s) as [[s1 mt1]| |] eqn:E1; cbn [bind]; try discriminate.
  apply get_matches_pass_inv in E1. destruct E1 as (A & B & C & X).
  destruct (length mt1 <? n)%nat.
  - intros H. apply get_matches_pass_inv in H. destruct H as (A' & B' & C' & X').
    repeat split; try congruence.
    + eapply sbm_trans; eauto.
    + eapply sbm_trans; eauto.
    + eapply sbm_trans; eauto.
    + eapply sbm_trans; eauto.
    + rewrite A in X'. auto.
  - intros H. injection H as <- <-. auto.
Qed.

(** ** Outliers *)
Lemma modify_sbm k g m :
  (forall f, exists ms, g f = set_matches ms f) -> same_but_matches m (modify k g m).
Proof.
  intros G. split; [apply modify_keys|].
  induction m as [|[k0 f0] m IH]; cbn; intros k1 f1 H; [tauto|].
  destruct (N.eqb k k0).
  - destruct H as [H|H].
    + injection H as <- <-. destruct (G f0) as [ms E]. exists f0, ms. rewrite E. auto.
    + exists f1, (f_matches f1). split; auto. now destruct f1.
  - destruct H as [H|H].
    + injection H as <- <-. exists f0, (f_matches f0). split; auto. now destruct f0.
    + apply IH in H. destruct H as (f2 & ms & A & B). exists f2, ms. auto.
Qed.

Lemma mark_feature_inv id det s s' b :
  mark_feature_with_id_as_unmatched id det s = Ret (s', b) ->
  s_active s' = s_active s /\
  same_but_matches (s_local s) (s_local s') /\ same_but_matches (s_staged s) (s_staged s').
Proof.
  assert (G : forall f : feat, exists ms, mark_unmatched_id det f = set_matches ms f) by (intros f; eexists; reflexivity).
  unfold mark_feature_with_id_as_unmatched.
  destruct (s_active s) eqn:Ac; cbn;
    [|intros H; injection H as <- <-; auto using sbm_refl].
  destruct (N.eqb id invalidId); [intros H; injection H as <- <-; auto using sbm_refl|].
  destruct (lookup id (s_local s)) as [f|].
  - destruct (is_matched f); [|intros H; injection H as <- <-; auto using sbm_refl].
    destruct (set_flag det false (s_flags s)) as [fl|]; cbn; try discriminate.
    intros H; injection H as <- <-. cbn. auto using sbm_refl, modify_sbm.
  - destruct (lookup id (s_staged s)) as [f|]; [|intros H; injection H as <- <-; auto using sbm_refl].
    destruct (is_matched f); [|intros H; injection H as <- <-; auto using sbm_refl].
    destruct (set_flag det false (s_flags s)) as [fl|]; cbn; try discriminate.
    intros H; injection H as <- <-. cbn. auto using sbm_refl, modify_sbm.
Qed.

Lemma mark_outliers_inv outl s s' :
  mark_outliers outl s = Ret s' ->
  s_active s' = s_active s /\
  same_but_matches (s_local s) (s_local s') /\ same_but_matches (s_staged s) (s_staged s').
Proof.
  revert s. induction outl as [|[id det] outl IH]; cbn; intros s H.
  - injection H as <-. auto using sbm_refl.
  - destruct (mark_feature_with_id_as_unmatched id det s) as [[s1 b]| |] eqn:E; cbn in H; try discriminate.
    apply mark_feature_inv in E. apply IH in H.
    destruct E as (A & B & C), H as (A' & B' & C').
    split; [congruence|]. split; eapply sbm_trans; eauto.
Qed.

(** ** Additions *)
(** [g'] is [g] after drawing identifiers; every identifier of [news] was drawn *)
Definition drew (g : shared) (news : list N) (g' : shared) : Prop :=
  wf_shared g' /\ g_out g' = g_out g /\ g_alloc g <= g_alloc g' /\
  NoDup news /\ forall i, In i news -> g_alloc g < i <= g_alloc g'.

Lemma draw_id_ok g i g' :
  wf_shared g -> draw_id g = (i, g') -> no_wrap g' -> drew g [i] g' /\ i = g_alloc g + 1.
Proof.
  unfold draw_id, wf_shared, no_wrap. intros W H NW. injection H as <- <-. cbn in *.
  assert (E : get_new_id (g_alloc g) = g_alloc g + 1) by (apply get_new_id_no_wrap; lia).
  unfold drew, wf_shared. cbn. rewrite E. repeat split; auto; try lia.
  - repeat constructor. intros [].
Qed.

Lemma draw_id_mono g i g' : draw_id g = (i, g') -> g_allocs g' = g_allocs g + 1.
Proof. unfold draw_id. intros H. injection H as <- <-. reflexivity. Qed.

Lemma drew_refl g : wf_shared g -> drew g [] g.
Proof. intros W. repeat split; auto; try lia; [constructor|destruct H|destruct H]. Qed.

Lemma drew_app g1 n1 g2 n2 g3 : drew g1 n1 g2 -> drew g2 n2 g3 -> drew g1 (n1 ++ n2) g3.
Proof.
  intros (W1 & O1 & L1 & N1 & I1) (W2 & O2 & L2 & N2 & I2).
  repeat split; try congruence; try lia.
  - clear -N1 N2 I1 I2. induction n1 as [|x n1 IH]; cbn; auto.
    inversion N1 as [|? ? A B]; subst. constructor.
    + rewrite in_app_iff. intros [H|H]; [auto|].
      pose proof (I1 x (or_introl eq_refl)). pose proof (I2 x H). lia.
    + apply IH; auto. intros i Hi. apply I1. now right.
  - apply in_app_or in H. destruct H as [H|H]; [apply I1 in H|apply I2 in H]; lia.
  - apply in_app_or in H. destruct H as [H|H]; [apply I1 in H|apply I2 in H]; lia.
Qed.

Definition below (g : shared) (l : list N) : Prop := forall i, In i l -> i <= g_alloc g.

Lemma add_detected_ok c det stg g stg' g' :
  wf_shared g -> below g (keys stg) ->
  add_detected p c det stg g = (stg', g') -> no_wrap g' ->
  exists news, drew g (keys news) g' /\ stg' = stg ++ news /\
    (forall k f, In (k, f) news -> exists d, f = fresh_feat k d).
Proof.
  intros W B H NW. unfold add_detected in H.
  assert (T : forall b, (if b : bool then snd (draw_id g) else g) = g' -> drew g [] g').
  { intros [] E.
    - destruct (draw_id g) as [i g1] eqn:E1. cbn in E. subst g1.
      destruct (draw_id_ok _ _ _ W E1 NW) as [(A & B' & C & X & Y) _].
      repeat split; auto; [constructor|destruct H0|destruct H0].
    - subst. now apply drew_refl. }
  destruct (p_can_add p det).
  - destruct (p_mk_staged p c det) as [d|[]].
    + destruct (draw_id g) as [i g1] eqn:E1. injection H as <- <-.
      destruct (draw_id_ok _ _ _ W E1 NW) as [Dr Ei].
      exists [(i, fresh_feat i d)]. split; auto. split.
      * apply emplace_new. intros Hin. apply B in Hin. lia.
      * intros k f [X|[]]. injection X as <- <-. eauto.
    + destruct (draw_id g) as [i g1] eqn:E1. injection H as <- <-.
      exists []. rewrite app_nil_r. split; [apply (T true); reflexivity|]. split; auto. intros k f [].
    + injection H as <- <-. exists []. rewrite app_nil_r. split; [apply (T false); reflexivity|]. split; auto. intros k f [].
  - injection H as <- <-. exists []. rewrite app_nil_r. split; [apply (T false); reflexivity|]. split; auto. intros k f [].
Qed.

Lemma add_detected_mono c det stg g stg' g' :
  add_detected p c det stg g = (stg', g') -> g_allocs g <= g_allocs g'.
Proof.
  unfold add_detected, draw_id. destruct (p_can_add p det); [destruct (p_mk_staged p c det) as [d|[]]|];
    intros H; injection H as <- <-; cbn; lia.
Qed.

Lemma add_features_mono c i dets used stg g stg' g' :
  add_features p c i dets used stg g = (stg', g') -> g_allocs g <= g_allocs g'.
Proof.
  revert i stg g. induction dets as [|det dets IH]; cbn; intros i stg g H.
  - injection H as <- <-. lia.
  - destruct (existsb (Nat.eqb i) used); [eauto|].
    destruct (add_detected p c det stg g) as [s1 g1] eqn:E.
    apply add_detected_mono in E. apply IH in H. lia.
Qed.

Lemma add_features_ok c i dets used stg g stg' g' :
  wf_shared g -> below g (keys stg) ->
  add_features p c i dets used stg g = (stg', g') -> no_wrap g' ->
  exists news, drew g (keys news) g' /\ stg' = stg ++ news /\
    (forall k f, In (k, f) news -> exists d, f = fresh_feat k d).
Proof.
  revert i stg g. induction dets as [|det dets IH]; cbn; intros i stg g W B H NW.
  - injection H as <- <-. exists []. rewrite app_nil_r. split; [now apply drew_refl|]. split; auto. intros k f [].
  - destruct (existsb (Nat.eqb i) used); [eauto|].
    destruct (add_detected p c det stg g) as [s1 g1] eqn:E.
    pose proof (add_features_mono _ _ _ _ _ _ _ _ H) as M.
    apply add_detected_ok in E; auto; [|unfold no_wrap in *; lia].
    destruct E as (n1 & D1 & -> & F1).
    apply IH in H; auto.
    + destruct H as (n2 & D2 & -> & F2). exists (n1 ++ n2). split.
      * rewrite keys_app. eapply drew_app; eauto.
      * split; [now rewrite app_assoc|]. intros k f X. apply in_app_or in X. destruct X; eauto.
    + apply D1.
    + intros k X. rewrite keys_app in X. apply in_app_or in X.
      destruct D1 as (_ & _ & L & _ & I). destruct X as [X|X]; [apply B in X|apply I in X]; lia.
Qed.

Lemma add_upgraded_mono us s g s' g' b :
  add_upgraded_features p us s g = (s', g', b) -> g_allocs g <= g_allocs g'.
Proof.
  revert s g. induction us as [|[u m] us IH]; cbn; intros s g H.
  - injection H as <- <- <-. lia.
  - destruct (p_mk_upgraded p u) as [[d|[]]|].
    + apply IH in H. cbn in H. lia.
    + injection H as <- <- <-. cbn. lia.
    + injection H as <- <- <-. lia.
    + eauto.
Qed.

Lemma add_upgraded_ok us s g s' g' b :
  wf_shared g -> below g (keys (s_local s)) ->
  add_upgraded_features p us s g = (s', g', b) -> no_wrap g' ->
  exists news, drew g (keys news) g' /\
    s' = mkFState (s_active s) (s_local s ++ news) (s_staged s) (s_flags s) /\
    (forall k f, In (k, f) news -> exists d (ms : list nat), f = mkFeat k 0 1 ms d).
Proof.
  revert s g. induction us as [|[u m] us IH]; intros s g W B H NW.
  - cbn in H. injection H as <- <- <-. exists []. rewrite app_nil_r. split; [now apply drew_refl|].
    split; [now destruct s|]. intros k f [].
  - cbn [add_upgraded_features] in H. destruct (p_mk_upgraded p u) as [[d|[]]|].
    + destruct (draw_id g) as [i g1] eqn:E1.
      pose proof (add_upgraded_mono _ _ _ _ _ _ H) as M.
      destruct (draw_id_ok _ _ _ W E1) as [Dr Ei]; [unfold no_wrap in *; lia|].
      assert (Nin : ~ In i (keys (s_local s))) by (intros Hin; apply B in Hin; lia).
      apply IH in H; auto.
      * destruct H as (n2 & D2 & -> & F2). cbn in *.
        unfold add_to_local_map. cbn. apply lookup_none in Nin. rewrite Nin.
        exists ((i, mkFeat i 0 1 m d) :: n2). split.
        -- change (keys ((i, mkFeat i 0 1 m d) :: n2)) with ([i] ++ keys n2). eapply drew_app; eauto.
        -- split; [now rewrite <- app_assoc|]. intros k f [X|X]; [|eauto]. injection X as <- <-. eauto.
      * apply Dr.
      * cbn. unfold add_to_local_map. cbn. apply lookup_none in Nin. rewrite Nin.
        intros k X. unfold keys in X; rewrite map_app in X. apply in_app_or in X. destruct Dr as (_ & _ & L & _ & I).
        destruct X as [X|[X|[]]]; [apply B in X; lia|]. cbn in X. subst k. specialize (I i (or_introl eq_refl)). lia.
    + destruct (draw_id g) as [i g1] eqn:E1. cbn [snd] in H. injection H as <- <- <-.
      destruct (draw_id_ok _ _ _ W E1 NW) as [(A & B' & C & X & Y) _].
      exists []. rewrite app_nil_r. split; [repeat split; auto; [constructor|destruct H|destruct H]|].
      split; [now destruct s|]. intros k f [].
    + injection H as <- <- <-. exists []. rewrite app_nil_r. split; [now apply drew_refl|].
      split; [now destruct s|]. intros k f [].
    + eauto.
Qed.

(** ** What one operation does to identifiers *)
Record wf (s : fstate) (g : shared) : Prop := mkWf {
  wf_g : wf_shared g;
  wf_kl : keyed (s_local s);
  wf_ks : keyed (s_staged s);
  wf_nd : NoDup (ids s);
  wf_below : below g (ids s)
}.

(** identifiers drawn by the step, written by the step, and lost by the step *)
Definition delta (s : fstate) (g : shared) (s' : fstate) (g' : shared) : Prop :=
  exists news written rest,
    Permutation (ids s ++ news) (ids s' ++ written ++ rest) /\
    g_out g' = g_out g ++ written /\
    wf_shared g' /\ g_alloc g <= g_alloc g' /\
    NoDup news /\ (forall i, In i news -> g_alloc g < i <= g_alloc g') /\
    keyed (s_local s') /\ keyed (s_staged s').

Lemma sbm_delta s g s' :
  wf s g -> same_but_matches (s_local s) (s_local s') -> same_but_matches (s_staged s) (s_staged s') ->
  delta s g s' g.
Proof.
  intros W A B. pose proof (sbm_keyed _ _ (wf_kl _ _ W) A) as K1.
  pose proof (sbm_keyed _ _ (wf_ks _ _ W) B) as K2.
  exists [], [], []. unfold ids. destruct A as [A A'], B as [B B'].
  rewrite A, B, !app_nil_r. split; [reflexivity|]. split; [reflexivity|]. split; [apply W|].
  split; [lia|]. split; [constructor|]. split; [intros i []|]. auto.
Qed.

Lemma delta_refl s g : wf s g -> delta s g s g.
Proof. intros W. apply sbm_delta; auto using sbm_refl. Qed.

Lemma NoDup_app_l (A : Type) (a b : list A) : NoDup (a ++ b) -> NoDup a.
Proof. induction a; cbn; intros H; [constructor|]. inversion H; subst. constructor; auto. rewrite in_app_iff in *. tauto. Qed.

Lemma NoDup_app_r (A : Type) (a b : list A) : NoDup (a ++ b) -> NoDup b.
Proof. induction a; cbn; intros H; auto. inversion H; subst. auto. Qed.

Lemma fexec_mono fuel o s g s' g' : fexec p fuel o s g = Ret (s', g') -> g_allocs g <= g_allocs g'.
Proof.
  destruct o; cbn [fexec].
  - destruct (get_matches p v (p_min_features p) dets s) as [[s1 mt]| |]; cbn; intros H; try discriminate. injection H as <- <-. lia.
  - unfold update_map. destruct (negb (s_active s)); [cbn; intros H; injection H as <- <-; lia|].
    destruct covOk; [|cbn; intros H; injection H as <- <-; lia]. cbn.
    destruct (update_local_map p c dets (s_local s) g) as [[[loc us] g1]| |] eqn:E; cbn; try discriminate.
    destruct (update_staged_map p fuel c dets (s_staged s) loc) as [[[stg loc'] us2]| |] eqn:E2; cbn; try discriminate.
    intros H. injection H as <- <-.
    assert (X : forall m g m' us g', update_local_map p c dets m g = Ret (m', us, g') -> g_allocs g' = g_allocs g).
    { clear. induction m as [|[k f0] m IH]; cbn; intros g m' us g' H.
      - injection H as <- <- <-. reflexivity.
      - destruct (update_one p c dets f0) as [[f u]| |]; cbn in H; try discriminate.
        destruct (p_is_lost p (f_failed f)).
        + destruct (update_local_map p c dets m _) as [[[r us'] g'']| |] eqn:E; cbn in H; try discriminate.
          injection H as <- <- <-. apply IH in E. rewrite E. now destruct (p_moving p (f_data f)).
        + destruct (update_local_map p c dets m _) as [[[r us'] g'']| |] eqn:E; cbn in H; try discriminate.
          injection H as <- <- <-. eauto. }
    apply X in E. lia.
  - unfold update_with_no_tracking. destruct (negb (s_active s)); [intros H; injection H as <- <-; lia|].
    destruct (update_local_no_tracking p (s_local s) g) as [loc g1] eqn:E. intros H. injection H as <- <-.
    assert (X : forall m g m' g', update_local_no_tracking p m g = (m', g') -> g_allocs g' = g_allocs g).
    { clear. induction m as [|[k f0] m IH]; cbn; intros g m' g' H.
      - injection H as <- <-. reflexivity.
      - destruct (p_is_lost p (f_failed f0 + 1)).
        + apply IH in H. auto.
        + destruct (update_local_no_tracking p m g) as [r g1] eqn:E. injection H as <- <-. eauto. }
    apply X in E. lia.
  - unfold add_features_to_staged_map. destruct (negb (s_active s)); [intros H; injection H as <- <-; lia|].
    destruct covOk; [|cbn; intros H; injection H as <- <-; lia]. cbn.
    destruct (add_features p c 0 dets used (s_staged s) g) as [stg g1] eqn:E. intros H. injection H as <- <-.
    eapply add_features_mono; eauto.
  - destruct (mark_outliers outl s) as [s1| |]; cbn; intros H; try discriminate. injection H as <- <-. lia.
  - intros H. injection H as <- <-. lia.
  - destruct (add_upgraded_features p us s g) as [[s1 g1] b] eqn:E. intros H. injection H as <- <-.
    eapply add_upgraded_mono; eauto.
  - intros H. injection H as <- <-. lia.
  - intros H. injection H as <- <-. lia.
Qed.

Lemma fexec_delta fuel o s g s' g' :
  wf s g -> fexec p fuel o s g = Ret (s', g') -> no_wrap g' -> delta s g s' g'.
Proof.
  intros W H NW. pose proof W as [Wg Kl Ks ND Bl]. unfold ids in ND, Bl.
  destruct o; cbn [fexec] in H.
  - destruct (get_matches p v (p_min_features p) dets s) as [[s1 mt]| |] eqn:E; cbn in H; try discriminate.
    injection H as <- <-. apply get_matches_inv in E. apply sbm_delta; tauto.
  - unfold update_map in H. destruct (s_active s) eqn:Ac; cbn in H; [|injection H as <- <-; now apply delta_refl].
    destruct covOk; cbn in H; [|injection H as <- <-; now apply delta_refl].
    destruct (update_local_map p c dets (s_local s) g) as [[[loc us] g1]| |] eqn:E; cbn in H; try discriminate.
    destruct (update_staged_map p fuel c dets (s_staged s) loc) as [[[stg loc'] us2]| |] eqn:E2; cbn in H; try discriminate.
    injection H as <- <-.
    apply update_local_map_keys in E; auto. destruct E as [K1 (ws & rest & (Wa & Wb & Wc) & P1)].
    assert (ND2 : NoDup (keys loc ++ keys (s_staged s))).
    { pose proof (Permutation_NoDup (Permutation_app_tail _ P1) ND) as X.
      rewrite <- !app_assoc in X.
      eapply Permutation_NoDup in X; [|rewrite (app_assoc ws rest), (Permutation_app_comm (ws ++ rest)), app_assoc; reflexivity].
      now apply NoDup_app_l in X. }
    apply update_staged_map_keys in E2; auto. destruct E2 as (K2 & K3 & rest2 & P2).
    exists [], ws, (rest ++ rest2). unfold ids. cbn. rewrite !app_nil_r.
    repeat split; auto; try constructor; try (destruct H; fail).
    + perm.
    + unfold wf_shared in *. congruence.
    + lia.
  - unfold update_with_no_tracking in H. destruct (s_active s) eqn:Ac; cbn in H; [|injection H as <- <-; now apply delta_refl].
    destruct (update_local_no_tracking p (s_local s) g) as [loc g1] eqn:E. injection H as <- <-.
    apply update_local_no_tracking_keys in E; auto. destruct E as [K1 (ws & (Wa & Wb & Wc) & P1)].
    destruct (update_staged_no_tracking_keys _ Ks) as [K2 (rest & P2)].
    exists [], ws, rest. unfold ids. cbn. rewrite !app_nil_r.
    repeat split; auto; try constructor; try (destruct H; fail).
    + perm.
    + unfold wf_shared in *. congruence.
    + lia.
  - unfold add_features_to_staged_map in H. destruct (s_active s) eqn:Ac; cbn in H; [|injection H as <- <-; now apply delta_refl].
    destruct covOk; cbn in H; [|injection H as <- <-; now apply delta_refl].
    destruct (add_features p c 0 dets used (s_staged s) g) as [stg g1] eqn:E. injection H as <- <-.
    apply add_features_ok in E; auto.
    2: { intros i Hi. apply Bl. apply in_or_app. auto. }
    destruct E as (news & (A1 & A2 & A3 & A4 & A5) & -> & F).
    exists (keys news), [], []. unfold ids. cbn. unfold keys in *. rewrite map_app, !app_nil_r.
    repeat split; auto; try apply A5; auto.
    + now rewrite <- app_assoc.
    + apply Forall_app. split; auto. apply Forall_forall. intros [k f] Hin. apply F in Hin. destruct Hin as [d ->]. reflexivity.
  - destruct (mark_outliers outl s) as [s1| |] eqn:E; cbn in H; try discriminate.
    injection H as <- <-. apply mark_outliers_inv in E. apply sbm_delta; tauto.
  - injection H as <- <-. unfold get_upgraded_features.
    destruct (upgrade_loop p c (s_local s)) as [loc u1] eqn:E1.
    destruct (upgrade_loop p c (s_staged s)) as [stg u2] eqn:E2.
    apply upgrade_loop_keys in E1; auto. apply upgrade_loop_keys in E2; auto.
    destruct E1 as [K1 (r1 & P1)], E2 as [K2 (r2 & P2)].
    exists [], [], (r1 ++ r2). unfold ids. cbn. rewrite !app_nil_r.
    repeat split; auto; try constructor; try (destruct H; fail).
    + perm.
    + lia.
  - destruct (add_upgraded_features p us s g) as [[s1 g1] b] eqn:E. injection H as <- <-.
    apply add_upgraded_ok in E; auto.
    2: { intros i Hi. apply Bl. apply in_or_app. auto. }
    destruct E as (news & (A1 & A2 & A3 & A4 & A5) & -> & F).
    exists (keys news), [], []. unfold ids. cbn. unfold keys in *. rewrite map_app, !app_nil_r.
    repeat split; auto; try apply A5; auto.
    + rewrite <- !app_assoc. apply Permutation_app_head. apply Permutation_app_comm.
    + apply Forall_app. split; auto. apply Forall_forall. intros [k f] Hin. apply F in Hin. destruct Hin as (d & m & ->). reflexivity.
  - unfold reset in H. destruct (s_active s) eqn:Ac; cbn in H; [|injection H as <- <-; now apply delta_refl].
    injection H as <- <-. exists [], [], (ids s). cbn. rewrite !app_nil_r.
    repeat split; auto; try constructor; try (destruct H; fail). lia.
  - injection H as <- <-. unfold deactivate. apply sbm_delta; auto using sbm_refl.
Qed.

Lemma delta_wf s g s' g' : wf s g -> delta s g s' g' -> wf s' g'.
Proof.
  intros [Wg Kl Ks ND Bl] (news & ws & rest & P & O & W' & L & N & I & K1 & K2).
  assert (ND1 : NoDup (ids s ++ news)).
  { clear -ND N Bl I. induction (ids s) as [|x l IH]; cbn; auto.
    inversion ND; subst. constructor.
    - rewrite in_app_iff. intros [H|H]; auto. apply I in H. specialize (Bl x (or_introl eq_refl)). lia.
    - apply IH; auto. intros i Hi. apply Bl. now right. }
  constructor; auto.
  - eapply Permutation_NoDup in P; auto. now apply NoDup_app_l in P.
  - intros i Hi. assert (X : In i (ids s ++ news)).
    { eapply Permutation_in; [symmetry; exact P|]. apply in_or_app. auto. }
    apply in_app_or in X. destruct X as [X|X]; [apply Bl in X|apply I in X]; lia.
Qed.

End Proofs.

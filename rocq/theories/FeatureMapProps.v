(** Properties C01-C05, C07-C09 of the feature maps. *)
From Coq Require Import Permutation.
From Verif Require Import FeatureMapModel FeatureMapSpec FeatureMapProofs FeatureMapHistory
  LocalMapModel LocalMapProofs FeatureMapMore.
Local Open Scope N_scope.

(** ** Concrete kinds used in the examples
    Features and detections are numbers; a detection matches the feature of the
    same value; detection 13 can never become a local feature in [ex_throwing]. *)
Fixpoint ex_index (x : nat) (i : nat) (dets : list nat) (flags : list bool) : list nat :=
  match dets, flags with
  | d :: dets', b :: flags' => if Nat.eqb x d && negb b then [i] else ex_index x (S i) dets' flags'
  | _, _ => []
  end.
Definition ex_points : policy nat nat unit unit nat nat :=
  mkPolicy point_should_add point_should_remove point_is_lost
    (fun d => Nat.eqb d 66) (fun _ _ => true)
    (fun _ _ _ dets f flags => let r := ex_index (f_data f) 0 dets flags in (r, r))
    (fun _ d _ => (d, true)) (fun _ => true) (fun _ d => COk d) (fun d => Some d)
    (fun _ _ => None) 0 1 (fun u => Some (COk u)).
Definition ex_planes : policy nat nat unit unit nat nat :=
  mkPolicy plane_should_add plane_should_remove plane_is_lost
    (fun d => Nat.eqb d 66) (fun _ _ => true)
    (fun _ _ _ dets f flags => let r := ex_index (f_data f) 0 dets flags in (r, r))
    (fun _ d _ => (d, true)) (fun _ => true) (fun _ d => COk d) (fun d => Some d)
    (fun _ _ => None) 2 1 (fun _ => None).
(** 2D points: a payload above 99 is upgraded to a point *)
Definition ex_points2d : policy nat nat unit unit nat nat :=
  mkPolicy point_should_add point_should_remove point_is_lost
    (fun d => Nat.eqb d 66) (fun _ _ => true)
    (fun _ _ _ dets f flags => let r := ex_index (f_data f) 0 dets flags in (r, r))
    (fun _ d _ => (d, true)) (fun _ => true) (fun _ d => COk d) (fun d => Some d)
    (fun _ f => if Nat.ltb 99 (f_data f) then Some (f_data f) else None) 1 1 (fun _ => None).
Definition ex_throwing : policy nat nat unit unit nat nat :=
  mkPolicy point_should_add point_should_remove point_is_lost
    (fun _ => false) (fun _ _ => true)
    (fun _ _ _ dets f flags => let r := ex_index (f_data f) 0 dets flags in (r, r))
    (fun _ d _ => (d, true)) (fun _ => true) (fun _ d => COk d) (fun _ => None)
    (fun _ _ => None) 0 1 (fun u => Some (COk u)).

Notation ex_op := (fop nat unit unit nat).

(** running a list of operations *)
Fixpoint ex_exec (p : policy nat nat unit unit nat nat) (os : list ex_op)
         (h : history) (s : fstate nat) (g : shared) : option (history * fstate nat * shared) :=
  match os with
  | [] => Some (h, s, g)
  | o :: os' =>
    match fexec p 50 o s g with
    | Ret (s', g') => ex_exec p os' (h ++ [(o, s)]) s' g'
    | _ => None
    end
  end.
Lemma ex_exec_run p os h s g h' s' g' :
  run p h s g -> ex_exec p os h s g = Some (h', s', g') -> run p h' s' g'.
Proof.
  revert h s g. induction os as [|o os IH]; cbn; intros h s g R E.
  - injection E as <- <- <-. exact R.
  - destruct (fexec p 50 o s g) as [[s1 g1]| |] eqn:E1; try discriminate.
    eapply IH; [|exact E]. eapply run_op; eauto.
Qed.
Lemma ex_run p os h s g :
  ex_exec p os [] init init_shared = Some (h, s, g) -> run p h s g.
Proof. apply ex_exec_run. now apply run_init. Qed.

(** one frame seeing the detections [ds] *)
Definition ex_frame (ds : list nat) : list ex_op := [FMatch tt ds; FUpdate tt true ds].
Definition ex_hist (k : nat) (ds : list nat) : list ex_op := FAdd tt true ds [] :: concat (repeat (ex_frame ds) k).

(** ** C01 — identifiers *)

(** At every moment of every execution of a family of maps (any kinds, any
    operations in any order, any iteration order of the containers) that
    allocated fewer than 2^64 identifiers: stored identifiers are pairwise
    distinct across all maps, both staged and local, are not zero, and the key
    of a stored feature is its own identifier. *)
Theorem C01_ids_unique_nonzero :
  forall (D Det Ctx View Mt U : Type) (pols : list (policy D Det Ctx View Mt U)) ms g,
  sys_reachable pols (ms, g) -> g_allocs g < 2 ^ 64 ->
  NoDup (all_ids ms) /\
  (forall i, In i (all_ids ms) -> i <> 0) /\
  (forall p s, In (p, s) ms -> forall k f, In (k, f) (s_local s ++ s_staged s) -> k = f_id f).
Proof.
  intros D Det Ctx View Mt U pols ms g R NW.
  destruct (sys_reach_inv pols (ms, g) R NW) as [A B ND Rg]. cbn [fst snd] in *.
  split; [now apply NoDup_app_l in ND|]. split.
  - intros i Hi. assert (0 < i <= g_alloc g) by (apply Rg; apply in_or_app; auto). lia.
  - intros p s Hin k f Hk. rewrite Forall_forall in B. apply B in Hin. destruct Hin as [B1 B2].
    cbn in B1, B2. apply in_app_or in Hk. destruct Hk as [Hk|Hk]; [exact (keyed_in _ _ _ B1 Hk)|exact (keyed_in _ _ _ B2 Hk)].
Qed.
Print Assumptions C01_ids_unique_nonzero.

(** An identifier that left the maps is never given to another feature. *)
Theorem C01_ids_never_reused :
  forall (D Det Ctx View Mt U : Type) (pols : list (policy D Det Ctx View Mt U)) x y z i,
  sys_reachable pols x -> sys_steps x y -> sys_steps y z -> g_allocs (snd z) < 2 ^ 64 ->
  In i (all_ids (fst x)) -> ~ In i (all_ids (fst y)) -> ~ In i (all_ids (fst z)).
Proof. intros. eapply never_back; eauto. Qed.
Print Assumptions C01_ids_never_reused.

(** Every execution of a [Local_Map] (matching, update with its outliers,
    additions and upgrades, update without pose, addition of all features,
    reset) is such an execution. *)
Theorem C01_local_map_runs_are_covered :
  forall (D Det Ctx View Mt U : Type) (pols : list (policy D Det Ctx View Mt U)) x,
  lreach pols x -> sys_reachable pols x.
Proof. intros. now apply lreach_sys. Qed.
Print Assumptions C01_local_map_runs_are_covered.

(** When the staged map promotes a feature, the local feature that appears has
    the identifier it had as a staged one. *)
Theorem C01_promotion_keeps_id :
  forall (D Det Ctx View Mt U : Type) (p : policy D Det Ctx View Mt U) h s g fuel c dets s' g' i,
  never_throws p -> run p h s g -> fexec p fuel (FUpdate c true dets) s g = Ret (s', g') -> g_allocs g' < 2 ^ 64 ->
  in_local i s' -> ~ in_local i s -> in_staged i s /\ ~ in_staged i s'.
Proof.
  intros D Det Ctx View Mt U p h s g fuel c dets s' g' i NT R E NW H1 H2.
  assert (NW0 : no_wrap g) by (eapply run_mono_op; eauto).
  pose proof (run_wf _ _ _ _ R NW0) as W. pose proof (wf_op _ _ _ _ _ _ _ W E NW) as W'.
  apply in_keys in H1. destruct H1 as [f' H1]. apply (in_lookup _ _ _ (wf_nd_local _ _ W')) in H1.
  apply lookup_none in H2.
  destruct (fexec_enters_local _ _ _ _ _ _ _ NT W E NW _ _ H2 H1) as [(us & X & _)|(c' & d' & f & _ & _ & X & _)]; [discriminate|].
  split.
  - apply in_keys. exists f. now apply lookup_in.
  - intros Hs. eapply (wf_disjoint _ _ i W'); [|exact Hs]. apply in_keys. exists f'. now apply lookup_in.
Qed.
Print Assumptions C01_promotion_keeps_id.

(** 2^64 is the exact limit: the allocator restarts at 1. *)
Example C01_wrap : get_new_id (2 ^ 64 - 1) = 1. Proof. reflexivity. Qed.

(** Non-vacuity: two detections are added, confirmed three times and promoted. *)
Example C01_example : exists h s g,
  run ex_points h s g /\ keys (s_local s) = [1; 2] /\ s_staged s = [] /\ g_allocs g = 2.
Proof.
  destruct (ex_exec ex_points (ex_hist 3 [7; 8]%nat) [] init init_shared) as [[[h s] g]|] eqn:E; [|vm_compute in E; discriminate].
  exists h, s, g. split; [now apply (ex_run _ (ex_hist 3 [7; 8]%nat))|].
  vm_compute in E. injection E as _ <- <-. repeat split.
Qed.
(** ... and a family of three kinds in which a 2D point is upgraded. *)
Definition ex_dets (k : nat) : list nat := match k with 0%nat => [7] | 1%nat => [100; 5] | _ => [3] end%nat.
Example C01_family_example : exists ms g,
  lreach [ex_points; ex_points2d; ex_planes] (ms, g) /\ all_ids ms = [5; 1; 3; 4] /\ NoDup (all_ids ms).
Proof.
  destruct (lexec 10 (LAddAll tt true ex_dets) (sys_init [ex_points; ex_points2d; ex_planes])) as [x| |] eqn:E1;
    try (vm_compute in E1; discriminate).
  destruct (lexec 10 (LFind tt ex_dets) x) as [y| |] eqn:E2;
    try (vm_compute in E1; injection E1 as <-; vm_compute in E2; discriminate).
  destruct (lexec 10 (LUpdate tt true ex_dets []) y) as [[ms g]| |] eqn:E3;
    try (vm_compute in E1; injection E1 as <-; vm_compute in E2; injection E2 as <-; vm_compute in E3; discriminate).
  exists ms, g. split.
  - eapply lreach_op; [|exact E3]. eapply lreach_op; [|exact E2]. eapply lreach_op; [|exact E1]. apply lreach_init.
  - vm_compute in E1; injection E1 as <-; vm_compute in E2; injection E2 as <-; vm_compute in E3.
    injection E3 as <- <-. split; [reflexivity|]. vm_compute.
    repeat (constructor; [cbn; intros H; repeat destruct H as [H|H]; try discriminate; auto|]). constructor.
Qed.

(** ** C02 — survival of local features *)

(** Over every execution of a map of points (3D or 2D), a local feature leaves
    the local map at an operation exactly when: the map is reset; or it is
    upgraded to another kind; or the operation is an update (with or without a
    pose) that ends a series of more than 10 consecutive updates that missed
    it. [misses] counts the updates that missed the feature since its last
    match or since it entered the local map. *)
Theorem C02_point_survival :
  forall (D Det Ctx View Mt U : Type) (p : policy D Det Ctx View Mt U),
  (forall n, p_is_lost p n = point_is_lost n) ->
  forall h s g fuel o s' g' i f,
  run p h s g -> fexec p fuel o s g = Ret (s', g') -> g_allocs g' < 2 ^ 64 ->
  lookup i (s_local s) = Some f ->
  (lookup i (s_local s') = None <->
   (o = FReset /\ s_active s = true) \/
   (exists c, o = FUpgradeOut c /\ p_upgrade p c f <> None) \/
   (fate_of p o s f = Miss /\ 10 < misses p i (h ++ [(o, s)]))).
Proof.
  intros D Det Ctx View Mt U p Hl h s g fuel o s' g' i f R E NW L.
  rewrite (removal_has_cause p h s g fuel o s' g' i f R E NW L). rewrite Hl.
  assert (X : fate_of p o s f <> Untouched /\ point_is_lost (misses p i (h ++ [(o, s)])) = true <->
              fate_of p o s f = Miss /\ 10 < misses p i (h ++ [(o, s)])).
  { unfold point_is_lost, pointUnmatchedCountToLoose. rewrite N.ltb_lt. split; intros [A B]; split; auto; try congruence.
    destruct (fate_of p o s f) eqn:F; try congruence. exfalso.
    rewrite misses_snoc in B. unfold misses_step in B. cbn [fst snd] in B. rewrite L, F in B. lia. }
  rewrite X. reflexivity.
Qed.
Print Assumptions C02_point_survival.

(** Same for planes, with at least 10 consecutive misses. *)
Theorem C02_plane_survival :
  forall (D Det Ctx View Mt U : Type) (p : policy D Det Ctx View Mt U),
  (forall n, p_is_lost p n = plane_is_lost n) ->
  forall h s g fuel o s' g' i f,
  run p h s g -> fexec p fuel o s g = Ret (s', g') -> g_allocs g' < 2 ^ 64 ->
  lookup i (s_local s) = Some f ->
  (lookup i (s_local s') = None <->
   (o = FReset /\ s_active s = true) \/
   (exists c, o = FUpgradeOut c /\ p_upgrade p c f <> None) \/
   (fate_of p o s f = Miss /\ 10 <= misses p i (h ++ [(o, s)]))).
Proof.
  intros D Det Ctx View Mt U p Hl h s g fuel o s' g' i f R E NW L.
  rewrite (removal_has_cause p h s g fuel o s' g' i f R E NW L). rewrite Hl.
  assert (X : fate_of p o s f <> Untouched /\ plane_is_lost (misses p i (h ++ [(o, s)])) = true <->
              fate_of p o s f = Miss /\ 10 <= misses p i (h ++ [(o, s)])).
  { unfold plane_is_lost, planeUnmatchedCountToLoose. rewrite N.leb_le. split; intros [A B]; split; auto; try congruence.
    destruct (fate_of p o s f) eqn:F; try congruence. exfalso.
    rewrite misses_snoc in B. unfold misses_step in B. cbn [fst snd] in B. rewrite L, F in B. lia. }
  rewrite X. reflexivity.
Qed.
Print Assumptions C02_plane_survival.

(** Non-vacuity: after 10 misses the point is still there, the 11th removes it;
    the 10th removes a plane. *)
Example C02_point_example :
  (exists h s g, run ex_points h s g /\ keys (s_local s) = [1] /\ misses ex_points 1 h = 10) /\
  (exists h s g, run ex_points h s g /\ keys (s_local s) = [] /\ g_out g = [1]).
Proof.
  split.
  - destruct (ex_exec ex_points (ex_hist 3 [7]%nat ++ repeat FNoTracking 10) [] init init_shared) as [[[h s] g]|] eqn:E;
      [|vm_compute in E; discriminate].
    exists h, s, g. split; [eapply ex_run; exact E|]. vm_compute in E. injection E as <- <- _. split; reflexivity.
  - destruct (ex_exec ex_points (ex_hist 3 [7]%nat ++ repeat FNoTracking 11) [] init init_shared) as [[[h s] g]|] eqn:E;
      [|vm_compute in E; discriminate].
    exists h, s, g. split; [eapply ex_run; exact E|]. vm_compute in E. injection E as <- <- <-. split; reflexivity.
Qed.
Example C02_plane_example :
  (exists h s g, run ex_planes h s g /\ keys (s_local s) = [1] /\ misses ex_planes 1 h = 9) /\
  (exists h s g, run ex_planes h s g /\ keys (s_local s) = []).
Proof.
  split.
  - destruct (ex_exec ex_planes (ex_hist 4 [7]%nat ++ repeat FNoTracking 9) [] init init_shared) as [[[h s] g]|] eqn:E;
      [|vm_compute in E; discriminate].
    exists h, s, g. split; [eapply ex_run; exact E|]. vm_compute in E. injection E as <- <- _. split; reflexivity.
  - destruct (ex_exec ex_planes (ex_hist 4 [7]%nat ++ repeat FNoTracking 10) [] init init_shared) as [[[h s] g]|] eqn:E;
      [|vm_compute in E; discriminate].
    exists h, s, g. split; [eapply ex_run; exact E|]. vm_compute in E. injection E as <- <- _. reflexivity.
Qed.

(** ** C03 — promotion *)

Lemma staged_counts (D Det Ctx View Mt U : Type) (p : policy D Det Ctx View Mt U) h s g o i f :
  never_throws p -> run p h s g -> no_wrap g -> lookup i (s_staged s) = Some f ->
  next_failed (fate_of p o s f) (f_failed f) = staged_misses p i (h ++ [(o, s)]) /\
  next_succ (fate_of p o s f) (f_succ f) = net_hits p i (h ++ [(o, s)]).
Proof.
  intros NT R NW L. destruct (run_staged p h s g NT R NW i f L) as [-> ->].
  rewrite staged_misses_snoc, net_hits_snoc. unfold staged_misses_step, net_hits_step. cbn [fst snd]. rewrite L.
  destruct (fate_of p o s f); split; reflexivity.
Qed.

(** A staged point at an update with a pose: [net_hits] is the number of updates
    that matched it minus the number of updates that missed it since it was
    staged, this one included. At 3 or more it moves to the local map, at 0 or
    less it is dropped, in between it stays staged. *)
Theorem C03_point_update :
  forall (D Det Ctx View Mt U : Type) (p : policy D Det Ctx View Mt U),
  (forall a b, p_should_add p a b = point_should_add a b) ->
  (forall a b, p_should_remove p a b = point_should_remove a b) -> never_throws p ->
  forall h s g fuel c dets s' g' i,
  run p h s g -> fexec p fuel (FUpdate c true dets) s g = Ret (s', g') -> s_active s = true -> g_allocs g' < 2 ^ 64 ->
  in_staged i s ->
  let n := net_hits p i (h ++ [(FUpdate c true dets, s)]) in
  ((3 <= n)%Z -> in_local i s' /\ ~ in_staged i s') /\
  ((n <= 0)%Z -> ~ in_local i s' /\ ~ in_staged i s') /\
  ((0 < n < 3)%Z -> ~ in_local i s' /\ in_staged i s').
Proof.
  intros D Det Ctx View Mt U p HA HR NT h s g fuel c dets s' g' i R E Ac NW Hi n.
  assert (NW0 : no_wrap g) by (eapply run_mono_op; eauto).
  pose proof (run_wf _ _ _ _ R NW0) as W.
  apply in_keys in Hi. destruct Hi as [f Hi]. apply (in_lookup _ _ _ (wf_nd_staged _ _ W)) in Hi.
  pose proof (update_staged_fate p fuel c dets s g s' g' NT W E Ac NW i f Hi) as X. cbn zeta in X.
  destruct (staged_counts _ _ _ _ _ _ p h s g (FUpdate c true dets) i f NT R NW0 Hi) as [X1 X2].
  rewrite X1, X2 in X. rewrite HA, HR in X. fold n in X.
  assert (IL : forall m : fmap D, lookup i m <> None <-> In i (keys m)).
  { intros m. pose proof (lookup_none i m). destruct (in_dec N.eq_dec i (keys m)); tauto. }
  unfold in_local, in_staged. rewrite <- !IL.
  destruct (point_should_add (staged_misses p i (h ++ [(FUpdate c true dets, s)])) n) eqn:A.
  - apply point_confidence_add in A. split; [tauto|]. split; lia.
  - assert (A' : ~ (3 <= n)%Z) by (rewrite <- point_confidence_add; rewrite A; discriminate).
    destruct (point_should_remove (staged_misses p i (h ++ [(FUpdate c true dets, s)])) n) eqn:B.
    + apply point_confidence_pos in B. split; [lia|]. split; [tauto|lia].
    + assert (B' : ~ (n <= 0)%Z) by (rewrite <- point_confidence_pos; rewrite B; discriminate).
      split; [lia|]. split; [lia|]. tauto.
Qed.
Print Assumptions C03_point_update.

(** Planes: promotion at 4, dropped at the second consecutive miss. *)
Theorem C03_plane_update :
  forall (D Det Ctx View Mt U : Type) (p : policy D Det Ctx View Mt U),
  (forall a b, p_should_add p a b = plane_should_add a b) ->
  (forall a b, p_should_remove p a b = plane_should_remove a b) -> never_throws p ->
  forall h s g fuel c dets s' g' i,
  run p h s g -> fexec p fuel (FUpdate c true dets) s g = Ret (s', g') -> s_active s = true -> g_allocs g' < 2 ^ 64 ->
  in_staged i s ->
  let n := net_hits p i (h ++ [(FUpdate c true dets, s)]) in
  let m := staged_misses p i (h ++ [(FUpdate c true dets, s)]) in
  ((4 <= n)%Z -> in_local i s' /\ ~ in_staged i s') /\
  ((n < 4)%Z -> 2 <= m -> ~ in_local i s' /\ ~ in_staged i s') /\
  ((n < 4)%Z -> m < 2 -> ~ in_local i s' /\ in_staged i s').
Proof.
  intros D Det Ctx View Mt U p HA HR NT h s g fuel c dets s' g' i R E Ac NW Hi n m.
  assert (NW0 : no_wrap g) by (eapply run_mono_op; eauto).
  pose proof (run_wf _ _ _ _ R NW0) as W.
  apply in_keys in Hi. destruct Hi as [f Hi]. apply (in_lookup _ _ _ (wf_nd_staged _ _ W)) in Hi.
  pose proof (update_staged_fate p fuel c dets s g s' g' NT W E Ac NW i f Hi) as X. cbn zeta in X.
  destruct (staged_counts _ _ _ _ _ _ p h s g (FUpdate c true dets) i f NT R NW0 Hi) as [X1 X2].
  rewrite X1, X2 in X. rewrite HA, HR in X. fold n in X. fold m in X.
  assert (IL : forall q : fmap D, lookup i q <> None <-> In i (keys q)).
  { intros q. pose proof (lookup_none i q). destruct (in_dec N.eq_dec i (keys q)); tauto. }
  unfold in_local, in_staged. rewrite <- !IL.
  unfold plane_should_add, plane_should_remove in X.
  destruct (Z.leb_spec 4 n); [split; [tauto|]; split; lia|].
  destruct (N.leb_spec 2 m); (split; [lia|]); split; intros; try lia; tauto.
Qed.
Print Assumptions C03_plane_update.

(** Nothing enters the local map otherwise: a local feature that was not local
    before is either a freshly upgraded one, or a staged one promoted by an
    update with a pose, whose balance is at least 3. *)
Theorem C03_point_entry :
  forall (D Det Ctx View Mt U : Type) (p : policy D Det Ctx View Mt U),
  (forall a b, p_should_add p a b = point_should_add a b) -> never_throws p ->
  forall h s g fuel o s' g' i,
  run p h s g -> fexec p fuel o s g = Ret (s', g') -> g_allocs g' < 2 ^ 64 ->
  in_local i s' -> ~ in_local i s ->
  (exists us, o = FUpgradeIn us /\ ~ in_staged i s) \/
  (in_staged i s /\ (3 <= net_hits p i (h ++ [(o, s)]))%Z).
Proof.
  intros D Det Ctx View Mt U p HA NT h s g fuel o s' g' i R E NW H1 H2.
  assert (NW0 : no_wrap g) by (eapply run_mono_op; eauto).
  pose proof (run_wf _ _ _ _ R NW0) as W. pose proof (wf_op _ _ _ _ _ _ _ W E NW) as W'.
  apply in_keys in H1. destruct H1 as [f' H1]. apply (in_lookup _ _ _ (wf_nd_local _ _ W')) in H1. apply lookup_none in H2.
  destruct (fexec_enters_local _ _ _ _ _ _ _ NT W E NW _ _ H2 H1) as [(us & X & Y)|(c' & d' & f & Eo & _ & X & Y)].
  - left. exists us. split; auto. now apply lookup_none.
  - right. destruct (staged_counts _ _ _ _ _ _ p h s g o i f NT R NW0 X) as [X1 X2]. rewrite X1, X2, HA in Y.
    apply point_confidence_add in Y. split; auto. apply in_keys. exists f. now apply lookup_in.
Qed.
Print Assumptions C03_point_entry.

Theorem C03_plane_entry :
  forall (D Det Ctx View Mt U : Type) (p : policy D Det Ctx View Mt U),
  (forall a b, p_should_add p a b = plane_should_add a b) -> never_throws p ->
  forall h s g fuel o s' g' i,
  run p h s g -> fexec p fuel o s g = Ret (s', g') -> g_allocs g' < 2 ^ 64 ->
  in_local i s' -> ~ in_local i s ->
  (exists us, o = FUpgradeIn us /\ ~ in_staged i s) \/
  (in_staged i s /\ (4 <= net_hits p i (h ++ [(o, s)]))%Z).
Proof.
  intros D Det Ctx View Mt U p HA NT h s g fuel o s' g' i R E NW H1 H2.
  assert (NW0 : no_wrap g) by (eapply run_mono_op; eauto).
  pose proof (run_wf _ _ _ _ R NW0) as W. pose proof (wf_op _ _ _ _ _ _ _ W E NW) as W'.
  apply in_keys in H1. destruct H1 as [f' H1]. apply (in_lookup _ _ _ (wf_nd_local _ _ W')) in H1. apply lookup_none in H2.
  destruct (fexec_enters_local _ _ _ _ _ _ _ NT W E NW _ _ H2 H1) as [(us & X & Y)|(c' & d' & f & Eo & _ & X & Y)].
  - left. exists us. split; auto. now apply lookup_none.
  - right. destruct (staged_counts _ _ _ _ _ _ p h s g o i f NT R NW0 X) as [X1 X2]. rewrite X1, X2, HA in Y.
    unfold plane_should_add in Y. split; [|lia]. apply in_keys. exists f. now apply lookup_in.
Qed.
Print Assumptions C03_plane_entry.

(** An update without a pose drops a staged point exactly when its balance
    reaches zero or less (a staged plane: at its second consecutive miss). *)
Theorem C03_no_pose :
  forall (D Det Ctx View Mt U : Type) (p : policy D Det Ctx View Mt U), never_throws p ->
  forall h s g fuel s' g' i,
  run p h s g -> fexec p fuel FNoTracking s g = Ret (s', g') -> s_active s = true -> g_allocs g' < 2 ^ 64 ->
  in_staged i s ->
  ((forall a b, p_should_remove p a b = point_should_remove a b) ->
     (~ in_staged i s' <-> (net_hits p i (h ++ [(FNoTracking, s)]) <= 0)%Z)) /\
  ((forall a b, p_should_remove p a b = plane_should_remove a b) ->
     (~ in_staged i s' <-> 2 <= staged_misses p i (h ++ [(FNoTracking, s)]))) /\
  ~ in_local i s'.
Proof.
  intros D Det Ctx View Mt U p NT h s g fuel s' g' i R E Ac NW Hi.
  assert (NW0 : no_wrap g) by (eapply run_mono_op; eauto).
  pose proof (run_wf _ _ _ _ R NW0) as W.
  pose proof Hi as Hi0. apply in_keys in Hi. destruct Hi as [f Hi]. apply (in_lookup _ _ _ (wf_nd_staged _ _ W)) in Hi.
  pose proof (no_tracking_staged_fate p fuel s g s' g' W E Ac i f Hi) as X.
  destruct (staged_counts _ _ _ _ _ _ p h s g FNoTracking i f NT R NW0 Hi) as [X1 X2].
  unfold fate_of in X1, X2. rewrite Ac in X1, X2. cbn in X1, X2. rewrite X1, X2 in X. unfold in_staged.
  rewrite lookup_none in X. split; [|split].
  - intros HR. rewrite X, HR. apply point_confidence_pos.
  - intros HR. rewrite X, HR. unfold plane_should_remove. apply N.leb_le.
  - intros HL. assert (HL0 : ~ in_local i s) by (intros Y; eapply (wf_disjoint _ _ i W); eauto).
    pose proof (wf_op _ _ _ _ _ _ _ W E NW) as W'.
    apply in_keys in HL. destruct HL as [f' HL]. apply (in_lookup _ _ _ (wf_nd_local _ _ W')) in HL. apply lookup_none in HL0.
    destruct (fexec_enters_local _ _ _ _ _ _ _ NT W E NW _ _ HL0 HL) as [(us & Y & _)|(c & d & f0 & Y & _)]; discriminate.
Qed.
Print Assumptions C03_no_pose.

(** No other operation removes a staged feature, except a reset or its upgrade. *)
Theorem C03_staged_kept_otherwise :
  forall (D Det Ctx View Mt U : Type) (p : policy D Det Ctx View Mt U) h s g fuel o s' g' i f,
  run p h s g -> fexec p fuel o s g = Ret (s', g') -> g_allocs g' < 2 ^ 64 ->
  lookup i (s_staged s) = Some f -> ~ in_staged i s' ->
  fate_of p o s f <> Untouched \/ (o = FReset /\ s_active s = true) \/ (exists c, o = FUpgradeOut c /\ p_upgrade p c f <> None).
Proof.
  intros D Det Ctx View Mt U p h s g fuel o s' g' i f R E NW L H.
  assert (NW0 : no_wrap g) by (eapply run_mono_op; eauto).
  eapply fexec_staged_kept; eauto; [eapply run_wf; eauto|]. now apply lookup_none.
Qed.
Print Assumptions C03_staged_kept_otherwise.

(** Non-vacuity: two hits, a miss, two hits: promoted at the last one; a single
    miss drops a new point, two are needed for a plane. *)
Example C03_point_example :
  (exists h s g, run ex_points h s g /\ keys (s_staged s) = [1] /\ s_local s = [] /\ net_hits ex_points 1 h = 2%Z) /\
  (exists h s g, run ex_points h s g /\ s_staged s = [] /\ keys (s_local s) = [1]) /\
  (exists h s g, run ex_points h s g /\ s_staged s = [] /\ s_local s = [] /\ length h = 2%nat).
Proof.
  split; [|split].
  - destruct (ex_exec ex_points (ex_hist 2 [7]%nat ++ [FNoTracking] ++ ex_frame [7]%nat) [] init init_shared) as [[[h s] g]|] eqn:E;
      [|vm_compute in E; discriminate].
    exists h, s, g. split; [eapply ex_run; exact E|]. vm_compute in E. injection E as <- <- _. repeat split; reflexivity.
  - destruct (ex_exec ex_points (ex_hist 2 [7]%nat ++ [FNoTracking] ++ ex_frame [7]%nat ++ ex_frame [7]%nat) [] init init_shared) as [[[h s] g]|] eqn:E;
      [|vm_compute in E; discriminate].
    exists h, s, g. split; [eapply ex_run; exact E|]. vm_compute in E. injection E as <- <- _. repeat split; reflexivity.
  - destruct (ex_exec ex_points [FAdd tt true [7]%nat []; FNoTracking] [] init init_shared) as [[[h s] g]|] eqn:E;
      [|vm_compute in E; discriminate].
    exists h, s, g. split; [eapply ex_run; exact E|]. vm_compute in E. injection E as <- <- _. repeat split; reflexivity.
Qed.
Example C03_plane_example :
  exists h s g, run ex_planes h s g /\ keys (s_staged s) = [1] /\ staged_misses ex_planes 1 h = 1.
Proof.
  destruct (ex_exec ex_planes [FAdd tt true [7]%nat []; FNoTracking] [] init init_shared) as [[[h s] g]|] eqn:E;
    [|vm_compute in E; discriminate].
  exists h, s, g. split; [eapply ex_run; exact E|]. vm_compute in E. injection E as <- <- _. repeat split; reflexivity.
Qed.

(** ** C04 — output *)

(** Over a whole run ended by destruction of the family, no identifier is
    written twice, and every local feature of the maps still active is written. *)
Theorem C04_written_once_and_complete :
  forall (D Det Ctx View Mt U : Type) (pols : list (policy D Det Ctx View Mt U)) ms g,
  sys_reachable pols (ms, g) -> g_allocs g < 2 ^ 64 ->
  NoDup (g_out (lm_destroy ms g)) /\
  (forall p s i, In (p, s) ms -> s_active s = true -> in_local i s -> In i (g_out (lm_destroy ms g))) /\
  (forall i, In i (g_out (lm_destroy ms g)) ->
     In i (g_out g) \/ exists p s, In (p, s) ms /\ s_active s = true /\ in_local i s).
Proof.
  intros D Det Ctx View Mt U pols ms g R NW. pose proof (sys_reach_inv pols (ms, g) R NW) as I. cbn in I.
  destruct (destroy_written_once _ _ I) as [A B]. split; auto. split; auto.
  intros i Hi. rewrite lm_destroy_out in Hi by apply I. apply in_app_or in Hi. destruct Hi as [Hi|Hi]; auto.
  right. unfold local_ids in Hi. apply in_flat_map in Hi. destruct Hi as ([p s] & H1 & H2). cbn in H2.
  destruct (s_active s) eqn:Ac; [|destruct H2]. exists p, s. auto.
Qed.
Print Assumptions C04_written_once_and_complete.

(** What one operation writes: exactly the local features that leave the local
    map by tracking failure at this operation; if the operation has a pose, the
    features that are moving (after this update) are not written. *)
Theorem C04_written_when_lost :
  forall (D Det Ctx View Mt U : Type) (p : policy D Det Ctx View Mt U) h s g fuel o s' g',
  run p h s g -> fexec p fuel o s g = Ret (s', g') -> g_allocs g' < 2 ^ 64 ->
  exists ws, g_out g' = g_out g ++ ws /\
  forall i, In i ws <->
    exists f, lookup i (s_local s) = Some f /\ ~ in_local i s' /\ s_active s = true /\
      ((exists c dets, o = FUpdate c true dets /\ p_moving p (data_after p c dets (f_matches f) (f_data f)) = false) \/
       o = FNoTracking).
Proof.
  intros D Det Ctx View Mt U p h s g fuel o s' g' R E NW.
  assert (NW0 : no_wrap g) by (eapply run_mono_op; eauto).
  destruct (fexec_written p fuel o s g s' g' (run_wf _ _ _ _ R NW0) E NW) as (ws & O & H).
  exists ws. split; auto. intros i. rewrite H. unfold in_local.
  split; intros (f & A & B & C); exists f; (split; [exact A|]); (split; [now apply lookup_none|exact C]).
Qed.
Print Assumptions C04_written_when_lost.

(** Non-vacuity: one feature is lost and written, the other survives until the
    destruction; a moving one is lost without being written. *)
Example C04_example : exists h s g,
  run ex_points h s g /\ g_out g = [2] /\ g_out (lm_destroy [(ex_points, s)] g) = [2; 1].
Proof.
  destruct (ex_exec ex_points (ex_hist 3 [7; 8]%nat ++ concat (repeat (ex_frame [7]%nat) 11)) [] init init_shared)
    as [[[h s] g]|] eqn:E; [|vm_compute in E; discriminate].
  exists h, s, g. split; [eapply ex_run; exact E|]. vm_compute in E. injection E as _ <- <-. split; reflexivity.
Qed.

(** ** C05 — detections are accounted for *)

(** An update of an active map followed by the addition of the unused
    detections ([Local_Map::update], local_map.hpp:128-137): with [used] the
    detections that updated a local feature or were matched to a staged one, the
    new staged features are, in order, exactly one for each other detection that
    the map can hold, each with an identifier never used before. *)
Theorem C05_detections_accounted :
  forall (D Det Ctx View Mt U : Type) (p : policy D Det Ctx View Mt U) h s g fuel c dets s1 g1 used s2 g2,
  run p h s g -> s_active s = true ->
  update_map p fuel c true dets s g = Ret (MDone s1 g1 used) ->
  add_features_to_staged_map p c true dets used s1 g1 = Some (s2, g2) -> g_allocs g2 < 2 ^ 64 ->
  (forall i, In i used <-> claimed p c dets s i) /\
  s_local s2 = s_local s1 /\
  exists news, s_staged s2 = s_staged s1 ++ news /\
    map (fun kf => f_data (snd kf)) news = expected_new p c dets used /\
    NoDup (keys news) /\
    (forall k f, In (k, f) news -> ~ in_map k s /\ f_id f = k /\ f_succ f = 0%Z /\ f_failed f = 0).
Proof.
  intros D Det Ctx View Mt U p h s g fuel c dets s1 g1 used s2 g2 R Ac E1 E2 NW.
  split; [eapply update_map_used; eauto|].
  assert (F1 : fexec p fuel (FUpdate c true dets) s g = Ret (s1, g1)) by (cbn [fexec]; now rewrite E1).
  assert (F2 : fexec p 0 (FAdd c true dets used) s1 g1 = Ret (s2, g2)) by (cbn [fexec]; now rewrite E2).
  assert (NW1 : no_wrap g1) by (eapply run_mono_op; eauto).
  assert (NW0 : no_wrap g) by (eapply run_mono_op; eauto).
  pose proof (run_wf _ _ _ _ R NW0) as W. pose proof (wf_op _ _ _ _ _ _ _ W F1 NW1) as W1.
  pose proof (fexec_mono p _ _ _ _ _ _ F1) as Mo.
  assert (A1 : s_active s1 = true).
  { unfold update_map in E1. rewrite Ac in E1. cbn in E1.
    destruct (update_local_map p c dets (s_local s) g) as [[[loc us] g3]| |]; cbn in E1; try discriminate.
    destruct (update_staged_map p fuel c dets (s_staged s) loc) as [[[stg loc'] us2]| |]; cbn in E1; try discriminate.
    now injection E1 as <- <- <-. }
  unfold add_features_to_staged_map in E2. rewrite A1 in E2. cbn in E2.
  destruct (add_features p c 0 dets used (s_staged s1) g1) as [stg g3] eqn:E. injection E2 as <- <-. cbn.
  split; auto. apply add_features_news in E; [|apply W1| |exact NW].
  2: { intros j Hj. apply (wf_below _ _ W1). unfold ids. apply in_or_app. auto. }
  destruct E as (news & (Wg & O & L & ND & I) & -> & F & M). exists news. split; auto. split; [exact M|]. split; auto.
  intros k f Hin. assert (Hk : In k (keys news)) by (apply in_keys; eauto). apply I in Hk.
  pose proof (wf_g _ _ W) as G0. pose proof (wf_g _ _ W1) as G1. unfold wf_shared in G0, G1.
  destruct (F _ _ Hin) as [d ->]. split; [|repeat split].
  intros Hm. assert (k <= g_alloc g) by (apply (wf_below _ _ W); unfold ids; apply in_or_app; exact Hm). lia.
Qed.
Print Assumptions C05_detections_accounted.

(** Non-vacuity: detections 7 and 8 are known (one local, one staged), 9 is new. *)
Example C05_example :
  exists h s g s1 g1 used s2 g2,
  run ex_points h s g /\ s_active s = true /\ keys (s_local s) = [1] /\ keys (s_staged s) = [2] /\
  update_map ex_points 50 tt true [9; 8; 7]%nat s g = Ret (MDone s1 g1 used) /\
  add_features_to_staged_map ex_points tt true [9; 8; 7]%nat used s1 g1 = Some (s2, g2) /\
  used = [2; 1]%nat /\ expected_new ex_points tt [9; 8; 7]%nat used = [9%nat] /\ keys (s_staged s2) = [2; 3].
Proof.
  destruct (ex_exec ex_points (ex_hist 3 [7]%nat ++ [FAdd tt true [8]%nat []; FMatch tt [9; 8; 7]%nat]) [] init init_shared)
    as [[[h s] g]|] eqn:E; [|vm_compute in E; discriminate].
  pose proof (ex_run _ _ _ _ _ E) as R. vm_compute in E. injection E as Eh Es Eg.
  exists h, s, g. do 5 eexists. split; [exact R|]. rewrite <- Es, <- Eg.
  split; [reflexivity|]. split; [reflexivity|]. split; [reflexivity|].
  split; [vm_compute; reflexivity|]. split; [vm_compute; reflexivity|]. repeat split.
Qed.

(** ** C07 — updates return *)

(** An update always returns when local features can always be built: the
    staged loop makes at most one round per staged feature. *)
Theorem C07_update_returns :
  forall (D Det Ctx View Mt U : Type) (p : policy D Det Ctx View Mt U) fuel c covOk dets s g,
  never_throws p -> (length (s_staged s) <= fuel)%nat -> update_map p fuel c covOk dets s g <> Diverge.
Proof. intros. now apply update_map_no_diverge. Qed.
Print Assumptions C07_update_returns.

(** It is false in general: there is a kind of features, and a state reached by
    an ordinary execution, in which the update never returns because the failing
    construction of the local feature is tried again for ever. *)
Theorem C07_update_returns_refuted :
  exists (p : policy nat nat unit unit nat nat) h s g dets,
  run p h s g /\ s_active s = true /\ length (s_staged s) = 1%nat /\
  (forall k f, In (k, f) (s_staged s) -> forall i, In i (f_matches f) -> (i < length dets)%nat) /\
  forall fuel, update_map p fuel tt true dets s g = Diverge.
Proof.
  destruct (ex_exec ex_throwing (ex_hist 2 [7]%nat) [] init init_shared) as [[[h s] g]|] eqn:E; [|vm_compute in E; discriminate].
  pose proof (ex_run _ _ _ _ _ E) as R. exists ex_throwing, h, s, g, [7%nat]. split; [exact R|]. clear R.
  vm_compute in E. injection E as _ <- <-. split; [reflexivity|]. split; [reflexivity|]. split.
  - intros k f [X|[]] i Hi. injection X as <- <-. cbn in Hi. destruct Hi as [<-|[]]. auto.
  - intros fuel. unfold update_map. cbn [s_active negb s_local update_local_map bind s_staged].
    rewrite update_staged_stuck; [reflexivity|reflexivity| | |].
    + intros d i [<-|[]]. exists 7%nat. split; reflexivity.
    + discriminate.
    + intros n Hn. cbn [ex_throwing p_should_add]. apply point_confidence_add. cbn [f_succ] in Hn. lia.
Qed.
Print Assumptions C07_update_returns_refuted.

(** Non-vacuity of [C07_update_returns]. *)
Example C07_example : never_throws ex_points /\
  exists h s g, run ex_points h s g /\ length (s_staged s) = 2%nat.
Proof.
  split; [discriminate|].
  destruct (ex_exec ex_points (ex_hist 2 [7; 8]%nat) [] init init_shared) as [[[h s] g]|] eqn:E; [|vm_compute in E; discriminate].
  exists h, s, g. split; [eapply ex_run; exact E|]. vm_compute in E. injection E as _ <- _. reflexivity.
Qed.

(** ** C08 — rejected updates *)

(** An invalid pose covariance: the update and the additions of an active map
    report the error and change nothing; so does [Local_Map::update] and
    [Local_Map::add_all_features_to_map] for the whole family. *)
Theorem C08_invalid_covariance_rejected :
  forall (D Det Ctx View Mt U : Type) (p : policy D Det Ctx View Mt U) fuel c dets used s g,
  (s_active s = true -> update_map p fuel c false dets s g = Ret MThrow) /\
  (s_active s = true -> add_features_to_staged_map p c false dets used s g = None) /\
  fexec p fuel (FUpdate c false dets) s g = Ret (s, g) /\
  fexec p fuel (FAdd c false dets used) s g = Ret (s, g) /\
  (forall (ms : lmaps D Det Ctx View Mt U) ds outl, lm_update fuel c false ds outl ms g = Ret (LThrow ms g)) /\
  (forall (ms : lmaps D Det Ctx View Mt U) ds, lm_add_all c false ds ms g = LThrow ms g).
Proof.
  intros. unfold fexec, update_map, add_features_to_staged_map.
  split; [intros ->; reflexivity|]. split; [intros ->; reflexivity|].
  destruct (s_active s); cbn; repeat split.
Qed.
Print Assumptions C08_invalid_covariance_rejected.

(** A deactivated map is not changed by matching, updates with or without pose,
    additions, outlier marks or resets, writes nothing and draws no identifier. *)
Theorem C08_deactivated_unchanged :
  forall (D Det Ctx View Mt U : Type) (p : policy D Det Ctx View Mt U) fuel o s g,
  s_active s = false -> (forall c, o <> FUpgradeOut c) -> (forall us, o <> FUpgradeIn us) ->
  fexec p fuel o s g = Ret (s, g).
Proof.
  intros D Det Ctx View Mt U p fuel o s g Ac N1 N2.
  destruct o; cbn [fexec]; unfold get_matches, get_matches_pass, update_map, update_with_no_tracking,
    add_features_to_staged_map, reset, deactivate; rewrite ?Ac; cbn; auto.
  - destruct (p_min_features p); cbn; rewrite ?Ac; reflexivity.
  - induction outl as [|[a b] l IH]; cbn; auto.
    unfold mark_feature_with_id_as_unmatched. rewrite Ac. cbn. apply IH; discriminate.
  - now elim (N1 c).
  - now elim (N2 us).
  - destruct s; cbn in *; congruence.
Qed.
Print Assumptions C08_deactivated_unchanged.

(** But upgrades do change it: a frame update of a family can add features to a
    deactivated map of points. *)
Theorem C08_deactivated_refuted :
  exists (ms : lmaps nat nat unit unit nat nat) g ms' g' s s',
  lm_update 10 tt true ex_dets [] ms g = Ret (LDone ms' g') /\
  nth_error ms 0 = Some (ex_points, s) /\ s_active s = false /\ s_local s = [] /\
  nth_error ms' 0 = Some (ex_points, s') /\ s_active s' = false /\ length (s_local s') = 1%nat.
Proof.
  exists [(ex_points, deactivate init); (ex_points2d, mkFState true [(1, mkFeat 1 0 5 [0%nat] 100%nat)] [] [false; false])],
    (mkShared 1 1 []).
  do 4 eexists. split; [vm_compute; reflexivity|]. repeat split.
Qed.
Print Assumptions C08_deactivated_refuted.

(** ** C09 — outlier marks *)

(** Marking (identifier, detection) as outlier reports true exactly when the
    active map holds the (non zero) identifier, and changes nothing when it
    reports false. Otherwise the claim on the detection is removed from that
    feature (nothing changes if it has no claim), its matched flag is cleared if
    the feature had a claim, and every other feature, every other flag and every
    other field of the feature are unchanged. *)
Theorem C09_mark_outlier_frame :
  forall (D : Type) (s s' : fstate D) id det b,
  mark_feature_with_id_as_unmatched id det s = Ret (s', b) ->
  (b = true <-> s_active s = true /\ id <> 0 /\ in_map id s) /\
  (b = false -> s' = s) /\
  s_active s' = s_active s /\
  (forall k, lookup k (s_local s') =
             option_map (fun f => if b && N.eqb k id then mark_unmatched_id det f else f) (lookup k (s_local s))) /\
  (forall k, lookup k (s_staged s') =
             option_map (fun f => if b && N.eqb k id && negb (existsb (N.eqb id) (keys (s_local s)))
                                  then mark_unmatched_id det f else f) (lookup k (s_staged s))) /\
  (forall j, nth_error (s_flags s') j =
             if b && Nat.eqb j det && existsb (fun kf => N.eqb (fst kf) id && is_matched (snd kf))
                       (match lookup id (s_local s) with Some f => [(id, f)] | None =>
                          match lookup id (s_staged s) with Some f => [(id, f)] | None => [] end end)
             then Some false else nth_error (s_flags s) j).
Proof. intros D s s' id det b H. exact (mark_feature_frame id det s s' b H). Qed.
Print Assumptions C09_mark_outlier_frame.

(** [mark_unmatched_id det] removes [det] from the claims and nothing else. *)
Theorem C09_claim_removed :
  forall (D : Type) (f : feat D) det,
  (forall i, In i (f_matches (mark_unmatched_id det f)) <-> In i (f_matches f) /\ i <> det) /\
  f_id (mark_unmatched_id det f) = f_id f /\ f_failed (mark_unmatched_id det f) = f_failed f /\
  f_succ (mark_unmatched_id det f) = f_succ f /\ f_data (mark_unmatched_id det f) = f_data f.
Proof.
  intros D f det. split; [|repeat split]. intros i. cbn. rewrite filter_In, negb_true_iff, Nat.eqb_neq.
  split; intros [A B]; split; congruence.
Qed.
Print Assumptions C09_claim_removed.

Example C09_example :
  exists h s g s', run ex_points h s g /\
  mark_feature_with_id_as_unmatched 2 1 s = Ret (s', true) /\
  s_flags s = [true; true] /\ s_flags s' = [true; false] /\
  map (fun kf => f_matches (snd kf)) (s_staged s') = [[0%nat]; []].
Proof.
  destruct (ex_exec ex_points [FAdd tt true [7; 8]%nat []; FMatch tt [7; 8]%nat] [] init init_shared)
    as [[[h s] g]|] eqn:E; [|vm_compute in E; discriminate].
  pose proof (ex_run _ _ _ _ _ E) as R. vm_compute in E. injection E as Eh Es Eg.
  exists h, s, g. eexists. split; [exact R|]. rewrite <- Es. split; [vm_compute; reflexivity|]. repeat split.
Qed.

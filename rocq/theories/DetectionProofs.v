(** Lemmas on the keypoint detection model. *)
From Verif Require Import DetectionModel.
From Coq Require Import ZifyBool Lqa.
Local Open Scope Z_scope.

(** ** Lists *)
Lemma filter_length_le {A} (P Q : A -> bool) l :
  (forall x, In x l -> P x = true -> Q x = true) -> (length (filter P l) <= length (filter Q l))%nat.
Proof.
  induction l as [|a l IH]; cbn; intros H; auto.
  specialize (IH (fun x I => H x (or_intror I))). pose proof (H a (or_introl eq_refl)) as Ha.
  destruct (P a); [rewrite Ha by auto; cbn; lia|]. destruct (Q a); cbn; lia.
Qed.
Lemma filter_length_lt {A} (P Q : A -> bool) l x :
  (forall x, In x l -> P x = true -> Q x = true) -> In x l -> P x = false -> Q x = true ->
  (length (filter P l) < length (filter Q l))%nat.
Proof.
  induction l as [|a l IH]; cbn; intros H I Px Qx; [contradiction|].
  pose proof (H a (or_introl eq_refl)) as Ha.
  assert (H' : forall x, In x l -> P x = true -> Q x = true) by (intros; apply H; auto).
  destruct I as [->|I].
  - rewrite Px, Qx. cbn. pose proof (filter_length_le P Q l H'). lia.
  - specialize (IH H' I Px Qx). destruct (P a); [rewrite Ha by auto; cbn; lia|]. destruct (Q a); cbn; lia.
Qed.

(** ** Borders and depth *)
Lemma Qltb_lt a b : Qltb a b = true <-> (a < b)%Q.
Proof.
  unfold Qltb. rewrite negb_true_iff. split.
  - intros H. apply Qnot_le_lt. intros X. apply Qle_bool_iff in X. congruence.
  - intros H. destruct (Qle_bool b a) eqn:E; auto. apply Qle_bool_iff in E. exfalso. exact (Qlt_not_le _ _ H E).
Qed.
Lemma in_border_iff border cols rows p :
  in_border border cols rows p = true <->
  (inject_Z border <= fst p /\ inject_Z border <= snd p /\
   fst p < inject_Z (cols - border) /\ snd p < inject_Z (rows - border))%Q.
Proof.
  unfold in_border. rewrite !andb_true_iff, !Qltb_lt, !Qle_bool_iff. tauto.
Qed.

Lemma std_round_range q n : (1 <= q)%Q -> (q < inject_Z (n - 1))%Q -> 0 <= std_round q < n.
Proof.
  intros A B. unfold std_round.
  assert (C : Qle_bool 0 q = true) by (apply Qle_bool_iff; lra). rewrite C.
  pose proof (Qfloor_le (q + (1 # 2))) as F1. pose proof (Qlt_floor (q + (1 # 2))) as F2.
  set (f := Qfloor (q + (1 # 2))) in *.
  rewrite inject_Z_plus in F2. unfold Zminus in B. rewrite inject_Z_plus in B. change (inject_Z (- (1))) with (-1)%Q in B.
  change (inject_Z 1) with 1%Q in F2.
  split.
  - assert (0 < inject_Z f + 1)%Q by lra. change 1%Q with (inject_Z 1) in H. rewrite <- inject_Z_plus in H.
    change 0%Q with (inject_Z 0) in H. rewrite <- Zlt_Qlt in H. lia.
  - assert (inject_Z f < inject_Z n)%Q by lra. now rewrite <- Zlt_Qlt in H.
Qed.

(** ** Optical flow *)
Definition cand : Type := (N * pt) * (pt * bool).

Lemma flow_forward_cands cols rows (last : list (N * pt)) forward :
  forall i pre fpre, length pre = i -> length fpre = i -> forall last' forward',
  last = pre ++ last' -> forward = fpre ++ forward' -> length last' = length forward' ->
  Forall2 (fun (k : nat * pt) (c : cand) =>
      snd k = fst (snd c) /\ nth_error last (fst k) = Some (fst c) /\ nth_error forward (fst k) = Some (snd c))
    (flow_forward cols rows i forward')
    (filter (fun c : cand => snd (snd c) && in_border 0 cols rows (fst (snd c))) (combine last' forward')).
Proof.
  intros i pre fpre Hp Hf last' forward'. revert i pre fpre Hp Hf last'.
  induction forward' as [|[p ok] forward' IH]; intros i pre fpre Hp Hf last' E1 E2 L; destruct last' as [|[id q] last']; try discriminate; cbn.
  - constructor.
  - assert (R : Forall2 (fun (k : nat * pt) (c : cand) =>
      snd k = fst (snd c) /\ nth_error last (fst k) = Some (fst c) /\ nth_error forward (fst k) = Some (snd c))
        (flow_forward cols rows (S i) forward')
        (filter (fun c : cand => snd (snd c) && in_border 0 cols rows (fst (snd c))) (combine last' forward'))).
    { apply (IH (S i) (pre ++ [(id, q)]) (fpre ++ [(p, ok)])); rewrite ?app_length; cbn; try lia;
        rewrite <- ?app_assoc; cbn; auto. }
    destruct ok; cbn; [|exact R]. destruct (in_border 0 cols rows p); cbn; [|exact R].
    constructor; [|exact R]. cbn. split; [reflexivity|]. subst last forward.
    rewrite !nth_error_app2 by lia. now rewrite Hp, Hf, Nat.sub_diag.
Qed.

Lemma flow_backward_cands last forward kept (cs : list cand) backward :
  Forall2 (fun (k : nat * pt) (c : cand) =>
      snd k = fst (snd c) /\ nth_error last (fst k) = Some (fst c) /\ nth_error forward (fst k) = Some (snd c)) kept cs ->
  length backward = length kept ->
  flow_backward last forward kept backward =
  Ret (map (fun cb : cand * (pt * bool) => (fst (fst (fst cb)), fst (snd (fst cb))))
        (filter (fun cb : cand * (pt * bool) =>
                   snd (snd cb) &&
                   Qle_bool (sq_norm (snd (fst (fst cb))) (fst (snd cb))) (inject_Z (matchSearchRadius * matchSearchRadius)))
           (combine cs backward))).
Proof.
  intros F. revert backward. induction F as [|[i p] [[id q] [p' ok]] kept cs (A & B & C) F IH]; intros [|[b okb] backward] L; try discriminate.
  - reflexivity.
  - cbn [fst snd] in *. cbn [flow_backward combine filter fst snd].
    assert (L' : length backward = length kept) by (cbn in L; lia). specialize (IH backward L').
    destruct okb; cbn [negb andb]; [|exact IH].
    rewrite B. unfold Qltb.
    destruct (Qle_bool (sq_norm q b) (inject_Z (matchSearchRadius * matchSearchRadius))) eqn:E; cbn [negb]; [|exact IH].
    rewrite C, IH. reflexivity.
Qed.

(** ** Windows *)
Lemma window_disjoint width height p i j :
  0 <= width -> 0 <= height -> (i < 9)%nat -> (j < 9)%nat ->
  contains (window width height i) p = true -> contains (window width height j) p = true -> i = j.
Proof.
  intros W H Hi Hj. unfold contains, window. cbn [re_x re_y re_w re_h].
  set (sx := width / Z.of_nat window_cols). set (sy := height / Z.of_nat window_rows).
  assert (0 <= sx) by (apply Z.div_pos; cbn; lia). assert (0 <= sy) by (apply Z.div_pos; cbn; lia).
  rewrite !andb_true_iff, !Z.leb_le, !Z.ltb_lt.
  set (x := cv_round (fst p)). set (y := cv_round (snd p)).
  change window_cols with 3%nat.
  pose proof (Nat.div_mod i 3 ltac:(lia)) as Di. pose proof (Nat.div_mod j 3 ltac:(lia)) as Dj.
  pose proof (Nat.mod_upper_bound i 3 ltac:(lia)). pose proof (Nat.mod_upper_bound j 3 ltac:(lia)).
  set (a := (i mod 3)%nat) in *. set (b := (i / 3)%nat) in *.
  set (c := (j mod 3)%nat) in *. set (d := (j / 3)%nat) in *.
  intros (((X1 & X2) & Y1) & Y2) (((X3 & X4) & Y3) & Y4).
  assert (Z.of_nat a = Z.of_nat c) by nia. assert (Z.of_nat b = Z.of_nat d) by nia. lia.
Qed.

Lemma window_of_iff width height p i :
  0 <= width -> 0 <= height -> (i < 9)%nat ->
  window_of width height p = Some i <-> contains (window width height i) p = true.
Proof.
  intros W H Hi. unfold window_of. split.
  - intros E. now apply find_some in E.
  - intros C. destruct (find _ _) as [j|] eqn:E.
    + apply find_some in E. destruct E as [I E]. f_equal. apply in_seq in I.
      apply (window_disjoint width height p); auto. unfold window_count in I. lia.
    + exfalso. assert (In i (seq 0 window_count)) by (apply in_seq; unfold window_count; lia).
      pose proof (find_none _ _ E i H0). cbn in H1. congruence.
Qed.

Lemma window_counter_spec width height tracked i :
  0 <= width -> 0 <= height -> (i < 9)%nat ->
  window_counter width height tracked i =
  (N.of_nat (length (filter (contains (window width height i)) tracked)) mod 2 ^ 16)%N.
Proof.
  intros W H Hi. unfold window_counter.
  enough (G : forall c, fold_left (fun c p => match window_of width height p with
                        | Some j => if Nat.eqb j i then ((c + 1) mod 2 ^ 16)%N else c
                        | None => c end) tracked (c mod 2 ^ 16)%N =
          ((c + N.of_nat (length (filter (contains (window width height i)) tracked))) mod 2 ^ 16)%N).
  { specialize (G 0%N). now rewrite N.mod_0_l in G by lia. }
  induction tracked as [|p l IH]; intros c; cbn [fold_left filter].
  - cbn. now rewrite N.add_0_r.
  - destruct (contains (window width height i) p) eqn:C.
    + apply window_of_iff in C; auto. rewrite C, Nat.eqb_refl.
      rewrite N.add_mod_idemp_l by lia. rewrite IH. f_equal. cbn [length]. lia.
    + assert (X : match window_of width height p with
                  | Some j => if Nat.eqb j i then ((c mod 2 ^ 16 + 1) mod 2 ^ 16)%N else (c mod 2 ^ 16)%N
                  | None => (c mod 2 ^ 16)%N end = (c mod 2 ^ 16)%N).
      { destruct (window_of width height p) as [j|] eqn:E; auto.
        destruct (Nat.eqb_spec j i) as [Eji|]; auto. rewrite Eji in E. apply window_of_iff in E; auto. congruence. }
      rewrite X. apply IH.
Qed.

(** ** retainBest *)
Lemma retain_best_incl n l k : In k (retain_best n l) -> In k l.
Proof. unfold retain_best. destruct (Nat.leb _ _); auto. intros H. now apply filter_In in H. Qed.

Lemma rank_lt a b l : In b l -> k_resp a < k_resp b -> (rank b l < rank a l)%nat.
Proof.
  intros I L. unfold rank. apply filter_length_lt with (x := b); auto; try lia.
Qed.

Lemma retain_best_cap n l : NoDup (map k_resp l) -> (length (retain_best n l) <= n)%nat.
Proof.
  intros ND. unfold retain_best. destruct (Nat.leb_spec (length l) n); auto.
  set (r := filter (fun k => Nat.ltb (rank k l) n) l).
  assert (Lr : forall k, In k r -> In k l /\ (rank k l < n)%nat).
  { intros k I. apply filter_In in I. destruct I as [I J]. apply Nat.ltb_lt in J. auto. }
  assert (NDr : NoDup (map (fun k => rank k l) r)).
  { assert (G : forall r', NoDup (map k_resp r') -> (forall k, In k r' -> In k l) -> NoDup (map (fun k => rank k l) r')).
    { clear - ND. induction r' as [|a r' IH]; cbn; intros N I; [constructor|]. inversion N; subst. constructor; auto.
      intros X. apply in_map_iff in X. destruct X as (b & Eb & Ib).
      assert (k_resp a <> k_resp b) by (intros X; apply H1; rewrite X; now apply in_map).
      destruct (Z.lt_total (k_resp a) (k_resp b)) as [L|[L|L]]; [|contradiction|].
      - pose proof (rank_lt a b l (I b (or_intror Ib)) L). lia.
      - pose proof (rank_lt b a l (I a (or_introl eq_refl)) L). lia. }
    apply G; [|intros k I; now apply Lr].
    unfold r. clear - ND. induction l as [|a l IH]; cbn; auto. inversion ND; subst.
    enough (K : forall P, NoDup (map k_resp (filter P (a :: l)))) by exact (K _).
    intros P. assert (K : NoDup (map k_resp (filter P l))).
    { clear - H2. induction l as [|b l IH]; cbn; auto. inversion H2; subst. destruct (P b); cbn; auto. constructor; auto.
      intros X. apply H1. apply in_map_iff in X. destruct X as (c & E & I). apply filter_In in I. rewrite <- E. apply in_map. tauto. }
    cbn. destruct (P a); auto. cbn. constructor; auto. intros X. apply H1. apply in_map_iff in X.
    destruct X as (c & E & I). apply filter_In in I. rewrite <- E. apply in_map. tauto. }
  rewrite <- (map_length (fun k => rank k l) r).
  replace n with (length (seq 0 n)) at 1 by apply seq_length.
  apply NoDup_incl_length; auto. intros x I. apply in_map_iff in I. destruct I as (k & <- & I).
  apply in_seq. apply Lr in I. lia.
Qed.

(** ** The parallel loop *)
Definition pending (result : nat -> list cvkp) (s : dstate) (i : nat) : list cvkp :=
  match d_phase s i with Finished => [] | _ => result i end.

Lemma concat_map_update {A} (f g : nat -> list A) n i :
  (i < n)%nat -> (forall j, j <> i -> g j = f j) -> g i = [] ->
  Permutation (f i ++ concat (map g (seq 0 n))) (concat (map f (seq 0 n))).
Proof.
  intros Hi Hg G.
  assert (E : seq 0 n = seq 0 i ++ i :: seq (S i) (n - S i)).
  { replace n with (i + S (n - S i))%nat at 1 by lia. rewrite seq_app. reflexivity. }
  rewrite E, !map_app, !concat_app. cbn [map concat]. rewrite G. cbn [app].
  assert (M : forall a len, (a + len <= i \/ i < a)%nat -> map g (seq a len) = map f (seq a len)).
  { intros a len Ha. apply map_ext_in. intros j Ij. apply in_seq in Ij. apply Hg. lia. }
  rewrite !M by lia. rewrite !app_assoc. apply Permutation_app_tail. apply Permutation_app_comm.
Qed.

Lemma d_step_inv result n i s :
  (forall j l, d_phase s j = Computed l -> l = result j) ->
  (i < n)%nat ->
  let s' := d_step result i s in
  (forall j l, d_phase s' j = Computed l -> l = result j) /\
  Permutation (d_out s' ++ concat (map (pending result s') (seq 0 n)))
              (d_out s ++ concat (map (pending result s) (seq 0 n))).
Proof.
  intros C Hi. cbn zeta. unfold d_step. destruct (d_phase s i) as [|l|] eqn:E; cbn.
  - split.
    + intros j l. unfold set_phase. destruct (Nat.eqb_spec j i) as [->|]; [now intros [= <-]|apply C].
    + apply Permutation_app_head. apply Permutation_refl'. f_equal. apply map_ext. intros j. unfold pending, set_phase. cbn.
      destruct (Nat.eqb_spec j i) as [->|]; [now rewrite E|reflexivity].
  - pose proof (C _ _ E) as ->. split.
    + intros j l. unfold set_phase. destruct (Nat.eqb_spec j i) as [->|]; [discriminate|apply C].
    + rewrite <- app_assoc. apply Permutation_app_head.
      set (s' := mkDState (set_phase (d_phase s) i Finished) (d_out s ++ result i)).
      replace (result i) with (pending result s i) by (unfold pending; now rewrite E).
      apply concat_map_update; auto.
      * intros j Nj. unfold pending, s', set_phase. cbn. destruct (Nat.eqb_spec j i); congruence.
      * unfold pending, s', set_phase. cbn. now rewrite Nat.eqb_refl.
  - auto.
Qed.

Lemma d_run_inv result n schedule :
  (forall i, In i schedule -> (i < n)%nat) ->
  (forall j l, d_phase (d_run result schedule) j = Computed l -> l = result j) /\
  Permutation (d_out (d_run result schedule) ++ concat (map (pending result (d_run result schedule)) (seq 0 n)))
              (concat (map result (seq 0 n))).
Proof.
  unfold d_run. induction schedule as [|i sch IH] using rev_ind; intros B.
  - cbn. split; [discriminate|]. apply Permutation_refl.
  - rewrite fold_left_app. cbn [fold_left].
    destruct IH as [C P]; [intros; apply B; apply in_or_app; auto|].
    destruct (d_step_inv result n i (fold_left (fun s i => d_step result i s) sch d_init) C) as [C' P'].
    { apply B. apply in_or_app. right. now left. }
    split; auto. eapply Permutation_trans; eauto.
Qed.

Lemma d_run_finished result n schedule :
  (forall i, In i schedule -> (i < n)%nat) ->
  (forall i, (i < n)%nat -> d_phase (d_run result schedule) i = Finished) ->
  Permutation (d_out (d_run result schedule)) (concat (map result (seq 0 n))).
Proof.
  intros B F. destruct (d_run_inv result n schedule B) as [_ P].
  assert (E : concat (map (pending result (d_run result schedule)) (seq 0 n)) = []).
  { clear P. assert (G : forall a, (forall i, (a <= i < a + n)%nat -> d_phase (d_run result schedule) i = Finished) ->
      concat (map (pending result (d_run result schedule)) (seq a n)) = []).
    { clear. induction n as [|n IH]; intros a F; auto. cbn. rewrite IH by (intros; apply F; lia).
      unfold pending. now rewrite F by lia. }
    apply G. intros i H. apply F. lia. }
  now rewrite E, app_nil_r in P.
Qed.

(** a step of a worker never undoes another one *)
Lemma d_step_finished result i j s : d_phase s j = Finished -> d_phase (d_step result i s) j = Finished.
Proof.
  intros F. unfold d_step. destruct (d_phase s i) as [|l|] eqn:E; cbn; auto; unfold set_phase;
    destruct (Nat.eqb_spec j i) as [->|]; auto; congruence.
Qed.
Lemma d_fold_finished result sch j s :
  d_phase s j = Finished -> d_phase (fold_left (fun s i => d_step result i s) sch s) j = Finished.
Proof. revert s. induction sch as [|i sch IH]; cbn; auto using d_step_finished. Qed.

Lemma d_step_phase_other result i j s : j <> i -> d_phase (d_step result i s) j = d_phase s j.
Proof.
  intros N. unfold d_step. destruct (d_phase s i); cbn; auto; unfold set_phase; destruct (Nat.eqb_spec j i); congruence.
Qed.

(** two steps of each worker are enough *)
Lemma d_fold_twice result sch j s :
  (2 <= count_occ Nat.eq_dec sch j)%nat \/ (1 <= count_occ Nat.eq_dec sch j)%nat /\ (exists l, d_phase s j = Computed l) \/ d_phase s j = Finished ->
  d_phase (fold_left (fun s i => d_step result i s) sch s) j = Finished.
Proof.
  revert s. induction sch as [|i sch IH]; intros s H.
  - cbn in *. destruct H as [H|[[H _]|H]]; auto; lia.
  - cbn [fold_left]. cbn [count_occ] in H. destruct (Nat.eq_dec i j) as [->|Ni].
    + apply IH. unfold d_step. destruct (d_phase s j) as [|l|] eqn:E.
      * right. left. destruct H as [H|[[_ (l & X)]|X]]; try discriminate. split; [lia|].
        exists (result j). cbn. unfold set_phase. now rewrite Nat.eqb_refl.
      * right. right. cbn. unfold set_phase. now rewrite Nat.eqb_refl.
      * right. right. exact E.
    + apply IH. rewrite d_step_phase_other by congruence. exact H.
Qed.

(** ** Removal of duplicates *)
Lemma same_pos_spec a b : same_pos a b = true <-> k_x a = k_x b /\ k_y a = k_y b.
Proof. unfold same_pos. rewrite andb_true_iff, !Z.eqb_eq. tauto. Qed.

Lemma cvkp_eq a b : k_x a = k_x b -> k_y a = k_y b -> k_resp a = k_resp b -> a = b.
Proof. destruct a, b. cbn. congruence. Qed.

Lemma remove_dup_from_spec before l :
  NoDup (remove_dup_from before l) /\
  (forall k, In k (remove_dup_from before l) <->
     In k l /\ (forall k', In k' l -> same_pos k k' = true -> k_resp k' <= k_resp k) /\
     (forall k', In k' before -> same_pos k k' = true -> k_resp k' < k_resp k)).
Proof.
  revert before. induction l as [|a l IH]; intros before; cbn [remove_dup_from].
  - split; [constructor|]. intros k. cbn. tauto.
  - destruct (IH (before ++ [a])) as [ND M].
    set (beaten := existsb (fun k' => same_pos a k' && (k_resp a <=? k_resp k')) before ||
                   existsb (fun k' => same_pos a k' && (k_resp a <? k_resp k')) l).
    assert (Hb : beaten = false <-> (forall k', In k' l -> same_pos a k' = true -> k_resp k' <= k_resp a) /\
                                    (forall k', In k' before -> same_pos a k' = true -> k_resp k' < k_resp a)).
    { unfold beaten. rewrite orb_false_iff. split.
      - intros [X Y]. split; intros k' I S.
        + destruct (Z.le_gt_cases (k_resp k') (k_resp a)); auto.
          assert (existsb (fun k' => same_pos a k' && (k_resp a <? k_resp k')) l = true) by
            (apply existsb_exists; exists k'; split; auto; rewrite S; cbn; lia). congruence.
        + destruct (Z.lt_ge_cases (k_resp k') (k_resp a)); auto.
          assert (existsb (fun k' => same_pos a k' && (k_resp a <=? k_resp k')) before = true) by
            (apply existsb_exists; exists k'; split; auto; rewrite S; cbn; lia). congruence.
      - intros [X Y]. split; (apply not_true_is_false; intros E; apply existsb_exists in E; destruct E as (k' & I & S);
          apply andb_true_iff in S; destruct S as [S T]).
        + specialize (Y k' I S). lia.
        + specialize (X k' I S). lia. }
    assert (Rest : forall k, In k (remove_dup_from (before ++ [a]) l) <->
       (In k l /\ ~ (k = a) /\ (forall k', In k' (a :: l) -> same_pos k k' = true -> k_resp k' <= k_resp k) /\
     (forall k', In k' before -> same_pos k k' = true -> k_resp k' < k_resp k)) /\ (same_pos k a = true -> k_resp a < k_resp k)).
    { intros k. rewrite M. split.
      - intros (I & X & Y). assert (Z1 : same_pos k a = true -> k_resp a < k_resp k).
        { intros S. apply Y; auto. apply in_or_app. right. now left. }
        split; [|exact Z1]. repeat split; auto.
        + intros ->. assert (S : same_pos a a = true) by (apply same_pos_spec; auto). specialize (Z1 S). lia.
        + intros k' [<-|I'] S; auto. specialize (Z1 S). lia.
        + intros k' I' S. apply Y; auto. apply in_or_app. auto.
      - intros ((I & _ & X & Y) & Z1). repeat split; auto.
        + intros k' I' S. apply X; auto. now right.
        + intros k' I' S. apply in_app_or in I'. destruct I' as [I'|[<-|[]]]; auto. }
    assert (NA : ~ In a (remove_dup_from (before ++ [a]) l)).
    { intros I. apply Rest in I. destruct I as ((_ & X & _) & _). congruence. }
    destruct beaten eqn:B; cbn [app].
    + split; auto. intros k. rewrite Rest. split.
      * intros ((I & _ & X & Y) & _). repeat split; auto. now right.
      * intros (I & X & Y).
        assert (Nk : k <> a).
        { intros ->. assert (true = false) by (apply Hb; split; [intros; apply X; auto; now right|exact Y]). congruence. }
        destruct I as [<-|I]; [congruence|]. repeat split; auto.
        intros S. assert (k_resp a <= k_resp k) by (apply X; auto; now left).
        destruct (Z.eq_dec (k_resp a) (k_resp k)) as [E|E]; [|lia].
        exfalso. apply Nk. apply same_pos_spec in S. apply cvkp_eq; try tauto. lia.
    + split; [constructor; auto|]. intros k. cbn [In]. rewrite Rest. split.
      * intros [<-|((I & _ & X & Y) & _)]; [|repeat split; auto].
        pose proof (proj1 Hb eq_refl) as [X Y]. repeat split; auto. intros k' [<-|I] S; [lia|auto].
      * intros (I & X & Y). destruct I as [<-|I]; [auto|].
        destruct (Z.eq_dec (k_x k) (k_x a)) as [E1|E1]; [destruct (Z.eq_dec (k_y k) (k_y a)) as [E2|E2]; [destruct (Z.eq_dec (k_resp k) (k_resp a)) as [E3|E3]|]|].
        -- left. now apply cvkp_eq.
        -- right. split; [repeat split; auto; congruence|]. intros S. assert (k_resp a <= k_resp k) by (apply X; auto; now left). lia.
        -- right. assert (S : same_pos k a = true -> False) by (rewrite same_pos_spec; tauto).
           split; [repeat split; auto; congruence|]. tauto.
        -- right. assert (S : same_pos k a = true -> False) by (rewrite same_pos_spec; tauto).
           split; [repeat split; auto; congruence|]. tauto.
Qed.

Lemma remove_duplicated_spec l k :
  In k (remove_duplicated l) <-> In k l /\ (forall k', In k' l -> same_pos k k' = true -> k_resp k' <= k_resp k).
Proof.
  unfold remove_duplicated. rewrite (proj2 (remove_dup_from_spec [] l)). cbn. intuition.
Qed.
Lemma remove_duplicated_nodup l : NoDup (remove_duplicated l).
Proof. apply remove_dup_from_spec. Qed.
Lemma remove_duplicated_perm l l' : Permutation l l' -> Permutation (remove_duplicated l) (remove_duplicated l').
Proof.
  intros P. apply NoDup_Permutation; auto using remove_duplicated_nodup.
  assert (G : forall l l', Permutation l l' -> forall k, In k (remove_duplicated l) -> In k (remove_duplicated l')).
  { clear. intros l l' P k. rewrite !remove_duplicated_spec. intros [I X]. split.
    - exact (Permutation_in _ P I).
    - intros k' I'. apply X. exact (Permutation_in _ (Permutation_sym P) I'). }
  intros k. split; apply G; auto using Permutation_sym.
Qed.
Lemma remove_dup_from_length before l : (length (remove_dup_from before l) <= length l)%nat.
Proof.
  revert before. induction l as [|a l IH]; intros before; cbn [remove_dup_from]; auto.
  rewrite app_length. specialize (IH (before ++ [a])). destruct (_ || _); cbn; lia.
Qed.

(** Lemmas on the pose optimisation model. *)
From Coq Require Import Reals Psatz ZifyBool ZifyNat.
From Flocq Require Import Core IEEE754.BinarySingleNaN.
From Verif Require Import PoseOptModel.
Local Open Scope nat_scope.

(** ** Doubles *)
Definition fexp64 := SpecFloat.fexp 53 1024.
#[local] Instance fexp64_valid : Valid_exp fexp64 := fexp_correct 53 1024 dprec.

Lemma done_R : B2R done = 1%R /\ is_finite done = true.
Proof.
  unfold done, d_of_Z.
  pose proof (binary_normalize_correct 53 1024 dprec demax mode_NE 1 0 false) as H.
  assert (E : round radix2 fexp64 (round_mode mode_NE) (F2R (Float radix2 1 0)) = 1%R).
  { replace (F2R (Float radix2 1 0)) with 1%R by (unfold F2R; cbn; ring).
    apply round_generic; [apply valid_rnd_round_mode|].
    replace 1%R with (bpow radix2 0) by reflexivity. apply generic_format_bpow. vm_compute. discriminate. }
  cbv zeta in H. unfold fexp64 in E. rewrite E in H. rewrite Rlt_bool_true in H.
  - destruct H as (A & B & _). auto.
  - rewrite Rabs_pos_eq by lra. apply (bpow_lt radix2 0 1024). lia.
Qed.

Definition nonneg (y : dbl) : Prop := is_finite y = true /\ (0 <= B2R y)%R.

Lemma one_le_cases (x : dbl) : dle done x = true ->
  (is_finite x = true /\ (1 <= B2R x)%R) \/ x = B754_infinity false.
Proof.
  intros H. destruct (is_finite x) eqn:Fx.
  - left. split; auto. unfold dle in H. rewrite Bleb_correct in H by (apply done_R || auto).
    destruct done_R as [E _]. rewrite E in H. destruct (Rle_bool_spec 1 (B2R x)); auto; discriminate.
  - right. destruct x as [s|[|]| |s m e h]; cbn in Fx; try discriminate; auto; vm_compute in H; discriminate.
Qed.

Lemma one_le_add x y : dle done x = true -> nonneg y -> dle done (dadd x y) = true.
Proof.
  intros Hx [Fy Ny]. apply one_le_cases in Hx. destruct Hx as [[Fx Gx]| ->].
  - pose proof (Bplus_correct 53 1024 dprec demax mode_NE x y Fx Fy) as H. fold (dadd x y) in H.
    change (SpecFloat.fexp 53 1024) with fexp64 in H.
    set (r := round radix2 fexp64 (round_mode mode_NE) (B2R x + B2R y)) in *.
    assert (G : (1 <= r)%R).
    { unfold r. apply round_ge_generic; auto with typeclass_instances.
      - replace 1%R with (bpow radix2 0) by reflexivity. apply generic_format_bpow. vm_compute. discriminate.
      - lra. }
    destruct (Rlt_bool_spec (Rabs r) (bpow radix2 1024)).
    + destruct H as (E & Fi & _). unfold dle. rewrite Bleb_correct by (apply done_R || auto).
      destruct done_R as [-> _]. rewrite E. apply Rle_bool_true. exact G.
    + destruct H as (E & S). destruct (Bsign x) eqn:Sx.
      * exfalso. clear - Gx Sx Fx. destruct x as [s|s| |s m e h]; cbn in *; try discriminate; try lra.
        subst s. cbn in Gx. assert (X : (F2R (Float radix2 (Z.neg m) e) < 0)%R) by (apply F2R_lt_0; reflexivity). lra.
      * cbn in E. destruct (dadd x y) as [s|s| |s m e h]; cbn in E; try discriminate. injection E as ->. reflexivity.
  - destruct y; cbn in Fy; try discriminate; reflexivity.
Qed.

Lemma kind_score_nonneg k : nonneg (kind_score k).
Proof.
  assert (G : forall x : dbl, is_finite x && negb (Bsign x) = true -> nonneg x).
  { intros x H. apply andb_true_iff in H. destruct H as [A B]. split; auto.
    destruct x as [s|s| |s m e h]; cbn in *; try discriminate; try lra.
    destruct s; [discriminate|]. apply F2R_ge_0. cbn. apply Pos2Z.is_nonneg. }
  apply G. destruct k; vm_compute; reflexivity.
Qed.

(** ** Scores: sums in any order *)
Definition weight (k : fkind) : nat := match k with Plane => 5 | _ => 3 end.
Definition weights (l : list fkind) : nat := fold_right (fun k n => weight k + n) 0 l.
Lemma weights_app a b : weights (a ++ b) = weights a + weights b.
Proof. unfold weights. induction a as [|k a IH]; cbn [app fold_right]; lia. Qed.
Definition ksum (l : list fkind) : dbl := fold_left (fun s k => dadd s (kind_score k)) l dzero.

(** all lists of length [n] *)
Fixpoint all_lists (n : nat) : list (list fkind) :=
  match n with
  | O => [[]]
  | S n => flat_map (fun l => [Point2d :: l; Point :: l; Plane :: l]) (all_lists n)
  end.
Lemma all_lists_in l : In l (all_lists (length l)).
Proof.
  induction l as [|k l IH]; cbn; auto. apply in_flat_map. exists l. split; auto. destruct k; cbn; auto.
Qed.
Definition ok_list (l : list fkind) : bool := Bool.eqb (dle done (ksum l)) (Nat.leb 15 (weights l)) && Bool.eqb (dlt (ksum l) done) (negb (Nat.leb 15 (weights l))).
Lemma small_sums : forallb (fun n => forallb ok_list (all_lists n)) (seq 0 6) = true.
Proof. vm_compute. reflexivity. Qed.

Lemma weights_length l : 3 * length l <= weights l.
Proof. unfold weights. induction l as [|k l IH]; cbn [length fold_right]; [lia|]. destruct k; cbn [weight]; lia. Qed.

Lemma not_lt_one x : dle done x = true -> dlt x done = false.
Proof.
  intros H. apply one_le_cases in H. destruct H as [[F G]| ->]; [|reflexivity].
  unfold dlt. rewrite Bltb_correct by (auto; apply done_R). destruct done_R as [-> _]. apply Rlt_bool_false. exact G.
Qed.

Lemma ksum_spec l : dle done (ksum l) = Nat.leb 15 (weights l) /\ dlt (ksum l) done = negb (Nat.leb 15 (weights l)).
Proof.
  induction l as [|k l IH] using rev_ind; [split; vm_compute; reflexivity|].
  destruct (Nat.leb_spec 15 (weights l)) as [W|W].
  - destruct IH as [IH _]. rewrite weights_app.
    assert (X : dle done (ksum (l ++ [k])) = true).
    { unfold ksum. rewrite fold_left_app. cbn [fold_left]. apply one_le_add; [exact IH|apply kind_score_nonneg]. }
    destruct (Nat.leb_spec 15 (weights l + weights [k])); [|lia].
    split; [exact X|]. now apply not_lt_one.
  - assert (L : length (l ++ [k]) < 6) by (rewrite app_length; cbn; pose proof (weights_length l); lia).
    pose proof small_sums as S. rewrite forallb_forall in S. specialize (S (length (l ++ [k])) ltac:(apply in_seq; lia)).
    rewrite forallb_forall in S. specialize (S _ (all_lists_in (l ++ [k]))). unfold ok_list in S.
    apply andb_true_iff in S. destruct S as [A B]. apply Bool.eqb_prop in A. apply Bool.eqb_prop in B. auto.
Qed.

Lemma fold_left_map {A B C} (f : A -> B) (g : C -> B -> C) l c : fold_left g (map f l) c = fold_left (fun c a => g c (f a)) l c.
Proof. revert c. induction l; cbn; auto. Qed.

Section Proofs.
Context {F P : Type}.
Variable kind : F -> fkind.
Notation set_score := (set_score kind).
Notation draw := (draw kind).

(** number of fifteenths *)
Definition fweight (l : list F) : nat := weights (map kind l).
Lemma fweight_app a b : fweight (a ++ b) = fweight a + fweight b.
Proof. unfold fweight. now rewrite map_app, weights_app. Qed.
Lemma fweight_perm a b : Permutation a b -> fweight a = fweight b.
Proof. intros H. apply (Permutation_map kind) in H. unfold fweight, weights. induction H; cbn [fold_right]; lia. Qed.
Lemma set_score_ksum l : set_score l = ksum (map kind l).
Proof. unfold ksum. now rewrite fold_left_map. Qed.

Lemma enough_iff l : dle done (set_score l) = true <-> 15 <= fweight l.
Proof. rewrite set_score_ksum. destruct (ksum_spec (map kind l)) as [-> _]. apply Nat.leb_le. Qed.
Lemma short_iff l : dlt (set_score l) done = true <-> fweight l < 15.
Proof. rewrite set_score_ksum. destruct (ksum_spec (map kind l)) as [_ ->]. unfold fweight. rewrite negb_true_iff, Nat.leb_gt. reflexivity. Qed.
Lemma short_false l : dlt (set_score l) done = false <-> 15 <= fweight l.
Proof. rewrite <- not_true_iff_false, short_iff. lia. Qed.

Lemma fweight_perm_rev l : fweight (rev l) = fweight l.
Proof. apply fweight_perm. apply Permutation_sym. apply Permutation_rev. Qed.

Lemma draw_spec pre l :
  fweight pre < 15 ->
  match draw (set_score pre) (rev pre) l with
  | Some out => exists n, out = rev (pre ++ firstn n l) /\ 0 < n <= length l /\ 15 <= fweight (pre ++ firstn n l) /\
                forall m, m < n -> fweight (pre ++ firstn m l) < 15
  | None => fweight (pre ++ l) < 15
  end.
Proof.
  revert pre. induction l as [|f l IH]; intros pre Hp; cbn [PoseOptModel.draw].
  - rewrite app_nil_r. exact Hp.
  - assert (E : dadd (set_score pre) (score kind f) = set_score (pre ++ [f])).
    { unfold PoseOptModel.set_score. now rewrite fold_left_app. }
    rewrite E. destruct (dle done (set_score (pre ++ [f]))) eqn:C.
    + apply enough_iff in C. exists 1. cbn [firstn]. rewrite rev_app_distr. split; [reflexivity|]. split; [cbn; lia|].
      split; [exact C|]. intros m Hm. assert (m = 0) by lia. subst. cbn. now rewrite app_nil_r.
    + assert (W : fweight (pre ++ [f]) < 15).
      { destruct (Nat.le_gt_cases 15 (fweight (pre ++ [f]))) as [X|X]; auto. apply enough_iff in X. congruence. }
      specialize (IH (pre ++ [f]) W). rewrite rev_app_distr in IH. cbn [rev app] in IH.
      destruct (draw (set_score (pre ++ [f])) (f :: rev pre) l) as [out|].
      * destruct IH as (n & -> & Hn & G & M). exists (S n). cbn [firstn]. rewrite <- app_assoc in *. cbn [app] in *.
        split; [reflexivity|]. split; [cbn; lia|]. split; [exact G|]. intros [|m] Hm; cbn.
        -- now rewrite app_nil_r.
        -- specialize (M m ltac:(lia)). rewrite <- app_assoc in M. exact M.
      * rewrite <- app_assoc in IH. exact IH.
Qed.

Lemma random_subset_spec l :
  15 <= fweight l ->
  exists n, random_subset kind l = Some (rev (firstn n l)) /\ 0 < n <= length l /\ 15 <= fweight (firstn n l) /\
  forall m, m < n -> fweight (firstn m l) < 15.
Proof.
  intros W. pose proof (draw_spec [] l ltac:(cbn; lia)) as D. cbn [app rev] in D.
  change (PoseOptModel.set_score kind []) with dzero in D. unfold random_subset.
  destruct (draw dzero [] l) as [out|]; [|lia].
  destruct D as (n & -> & Hn & G & M). exists n. split; [|auto].
  assert (X : dlt (set_score (rev (firstn n l))) done = false) by (apply short_false; rewrite fweight_perm_rev; exact G).
  now rewrite X.
Qed.
Lemma random_subset_none l : fweight l < 15 -> random_subset kind l = None.
Proof.
  intros W. pose proof (draw_spec [] l ltac:(cbn; lia)) as D. cbn [app rev] in D.
  change (PoseOptModel.set_score kind []) with dzero in D. unfold random_subset.
  destruct (draw dzero [] l) as [out|]; [|reflexivity].
  destruct D as (n & -> & Hn & G & _). exfalso. rewrite <- (firstn_skipn n l), fweight_app in W. lia.
Qed.

(** ** Classification *)
Variable inlier : P -> F -> option bool.
Definition holds (p : P) (f : F) : bool := match inlier p f with Some b => b | None => false end.
Lemma classify_loop_spec p l ins outs s :
  (forall f, In f l -> inlier p f <> None) ->
  classify_loop kind inlier p l ins outs s =
  Some ((ins ++ filter (holds p) l, outs ++ filter (fun f => negb (holds p f)) l),
        fold_left (fun s f => dadd s (score kind f)) (filter (holds p) l) s).
Proof.
  revert ins outs s. induction l as [|f l IH]; intros ins outs s H; cbn.
  - now rewrite !app_nil_r.
  - assert (Hf := H f (or_introl eq_refl)). assert (H' : forall f, In f l -> inlier p f <> None) by (intros; apply H; now right).
    destruct (inlier p f) as [b|] eqn:E; [|congruence].
    assert (Hb : holds p f = b) by (unfold holds; now rewrite E). rewrite Hb.
    destruct b; cbn [negb fold_left]; rewrite IH by auto; now rewrite <- !app_assoc.
Qed.
Lemma classify_spec p l : (forall f, In f l -> inlier p f <> None) ->
  classify kind inlier p l = Some ((filter (holds p) l, filter (fun f => negb (holds p f)) l), set_score (filter (holds p) l)).
Proof. intros H. unfold classify. now rewrite classify_loop_spec. Qed.
Lemma classify_throws p l : classify kind inlier p l = None <-> exists f, In f l /\ inlier p f = None.
Proof.
  unfold classify. generalize (@nil F) at 1. generalize (@nil F). generalize dzero.
  induction l as [|f l IH]; intros s a b; cbn.
  - split; [discriminate|]. intros (f & [] & _).
  - destruct (inlier p f) as [[|]|] eqn:E.
    + rewrite IH. split; intros (g & I & Hg); exists g; (split; [|exact Hg]); auto. destruct I as [->|I]; [congruence|exact I].
    + rewrite IH. split; intros (g & I & Hg); exists g; (split; [|exact Hg]); auto. destruct I as [->|I]; [congruence|exact I].
    + split; auto. intros _. exists f. auto.
Qed.

Lemma filter_partition (p : F -> bool) l : Permutation l (filter p l ++ filter (fun f => negb (p f)) l).
Proof.
  induction l as [|f l IH]; cbn; auto. destruct (p f); cbn [negb app].
  - now constructor.
  - apply Permutation_cons_app. exact IH.
Qed.

(** ** Parts *)
Lemma parts_weight l : 15 <= fweight l -> 9 <= parts kind l.
Proof.
  assert (E : forall l n, fold_left (fun n f => n + kind_parts (kind f)) l n = n + fold_right (fun f n => kind_parts (kind f) + n) 0 l).
  { clear. induction l as [|f l IH]; intros n; cbn; [lia|]. rewrite IH. lia. }
  unfold parts. rewrite E. cbn [Nat.add]. unfold fweight. intros H.
  assert (X : forall l, exists a b, weights (map kind l) = 3 * a + 5 * b /\ fold_right (fun f n => kind_parts (kind f) + n) 0 l = 2 * a + 3 * b).
  { clear. induction l as [|f l (a & b & A & B)]; cbn [map weights fold_right]; [exists 0, 0; auto|].
    unfold weights in A. rewrite A, B. destruct (kind f); cbn [weight kind_parts]; [exists (S a), b|exists (S a), b|exists a, (S b)]; lia. }
  destruct (X l) as (a & b & A & B). rewrite A in H. rewrite B. lia.
Qed.
End Proofs.

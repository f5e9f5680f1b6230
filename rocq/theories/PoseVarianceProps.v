(** Properties of the pose variance (C24). *)
From Coq Require Import Psatz.
From Verif Require Import PoseVarianceModel.
Local Open Scope R_scope.

(** ** Specification *)
(** mean, and unbiased sample covariance, of a list of vectors *)
Definition mean (l : list vec6) : vec6 := fun a => / INR (length l) * rsum (fun v => v a) l.
Definition sample_covariance (l : list vec6) : mat6 :=
  fun a b => / (INR (length l) - 1) * rsum (fun v => (v a - mean l a) * (v b - mean l b)) l.
Definition quadratic (m : mat6) (x : vec6) : R := rsum (fun a => rsum (fun b => x a * m a b * x b) six) six.
Definition nonzero (x : vec6) : Prop := exists a, In a six /\ x a <> 0.

(** ** Proofs *)
Lemma covariance_two l m : (2 <= length l)%nat -> covariance l = Some m ->
  forall a b, m a b = sample_covariance l a b + if Nat.eqb a b then / 1000 else 0.
Proof.
  intros H E a b. destruct l as [|v [|w l]]; cbn [length] in H; [lia|lia|]. unfold covariance in E.
  set (L := v :: w :: l) in *.
  assert (E' : m a b = rsum (fun v => (v a - medium L a) * (v b - medium L b)) L / INR (length L - 1) + if Nat.eqb a b then / 1000 else 0).
  { injection E as <-. reflexivity. }
  rewrite E'. clear E E'. f_equal. unfold sample_covariance, Rdiv.
  assert (M : forall c, medium L c = mean L c) by (intros c; unfold medium, mean, Rdiv; ring).
  rewrite minus_INR by (cbn; lia). change (INR 1) with 1.
  rewrite Rmult_comm. f_equal. apply rsum_ext. intros u _. now rewrite !M.
Qed.
Lemma covariance_empty m : covariance [] = Some m -> forall a b, m a b = if Nat.eqb a b then / 1000 else 0.
Proof. cbn. intros [= <-] a b. unfold Rdiv. rewrite Rmult_0_l. ring. Qed.

Lemma quadratic_outer (l : list vec6) k (d : vec6 -> vec6) x :
  quadratic (fun a b => k * rsum (fun v => d v a * d v b) l) x = k * rsum (fun v => (rsum (fun a => x a * d v a) six) ^ 2) l.
Proof.
  unfold quadratic. rewrite <- rsum_scal.
  transitivity (rsum (fun a => rsum (fun b => rsum (fun v => k * (x a * d v a * (x b * d v b))) l) six) six).
  { apply rsum_ext. intros a _. apply rsum_ext. intros b _.
    rewrite rsum_scal.
    replace (x a * (k * rsum (fun v => d v a * d v b) l) * x b) with (k * (x a * x b * rsum (fun v => d v a * d v b) l)) by ring.
    f_equal. rewrite <- rsum_scal. apply rsum_ext. intros v _. ring. }
  transitivity (rsum (fun a => rsum (fun v => rsum (fun b => k * (x a * d v a * (x b * d v b))) six) l) six).
  { apply rsum_ext. intros a _. apply rsum_swap. }
  rewrite rsum_swap. apply rsum_ext. intros v _.
  cbn [pow]. rewrite Rmult_1_r, rsum_mult. rewrite <- rsum_scal. apply rsum_ext. intros a _. now rewrite rsum_scal.
Qed.
Lemma quadratic_plus m m' x : quadratic (fun a b => m a b + m' a b) x = quadratic m x + quadratic m' x.
Proof.
  unfold quadratic. rewrite <- rsum_plus. apply rsum_ext. intros a _. rewrite <- rsum_plus. apply rsum_ext. intros b _. ring.
Qed.
Lemma quadratic_ext m m' x : (forall a b, m a b = m' a b) -> quadratic m x = quadratic m' x.
Proof. intros H. unfold quadratic. apply rsum_ext. intros a _. apply rsum_ext. intros b _. now rewrite H. Qed.
Lemma quadratic_diag x : quadratic (fun a b => if Nat.eqb a b then / 1000 else 0) x = / 1000 * rsum (fun a => (x a) ^ 2) six.
Proof. unfold quadratic, six, rsum. cbn. ring. Qed.
Lemma squares_pos x : nonzero x -> 0 < rsum (fun a => (x a) ^ 2) six.
Proof. intros (a & I & N). apply (rsum_pos _ _ a); auto; intros; nra. Qed.
Lemma squares_nonneg (l : list vec6) (f : vec6 -> R) : 0 <= rsum (fun v => (f v) ^ 2) l.
Proof. apply rsum_nonneg. intros v _. nra. Qed.

Lemma poses_perm sample order order' : Permutation order order' -> Permutation (poses sample order) (poses sample order').
Proof. intros H. unfold poses. now apply Permutation_flat_map. Qed.

(** ** C24 *)

(** When the computation succeeds, either it was asked for one iteration and
    that one failed, or there are at least two poses and at least half of the
    number asked for; then the variance is their sample covariance plus 0.001
    on the diagonal. In both cases it is symmetric and positive definite. *)
Theorem C24_variance :
  forall sample ldlt iterations order sym m,
  pose_variance sample ldlt iterations order sym = Some m ->
  let l := poses sample order in
  ((iterations = 1%nat /\ l = [] /\ forall a b, m a b = if Nat.eqb a b then / 1000 else 0) \/
   ((2 <= length l)%nat /\ (iterations / 2 <= length l)%nat /\
    forall a b, m a b = sample_covariance l a b + if Nat.eqb a b then / 1000 else 0)) /\
  (forall a b, m a b = m b a) /\ (forall x, nonzero x -> 0 < quadratic m x).
Proof.
  intros sample ldlt it order sym m H. cbn zeta. unfold pose_variance in H.
  destruct (Nat.eqb_spec it 0) as [|N0]; [discriminate|].
  set (l := poses sample order) in *.
  destruct (Nat.ltb_spec (length l) (it / 2)) as [|Ge]; [discriminate|].
  assert (C : covariance l = Some m).
  { destruct (covariance_valid ldlt (covariance l) sym); [exact H|discriminate]. }
  assert (Cases : l = [] \/ (2 <= length l)%nat).
  { destruct l as [|v [|w l']]; auto; [discriminate|]. right. cbn. lia. }
  destruct Cases as [E|L2].
  - rewrite E in *. assert (M := covariance_empty m C). split; [|split].
    + left. split; [|auto]. assert (it / 2 = 0)%nat by (cbn [length] in Ge; lia).
      destruct it as [|[|it]]; [lia|reflexivity|]. exfalso.
      assert (1 <= S (S it) / 2)%nat by (apply Nat.div_le_lower_bound; lia). lia.
    + intros a b. rewrite !M, (Nat.eqb_sym b a). reflexivity.
    + intros x X. rewrite (quadratic_ext _ _ x M), quadratic_diag. pose proof (squares_pos x X). lra.
  - assert (M := covariance_two l m L2 C). split; [|split].
    + right. auto.
    + intros a b. rewrite !M, (Nat.eqb_sym b a). f_equal. unfold sample_covariance. f_equal. apply rsum_ext. intros v _. ring.
    + intros x X. rewrite (quadratic_ext _ _ x M), quadratic_plus, quadratic_diag.
      assert (Q : 0 <= quadratic (sample_covariance l) x).
      { unfold sample_covariance. rewrite (quadratic_outer l _ (fun v a => v a - mean l a)).
        apply Rmult_le_pos; [|apply squares_nonneg]. apply Rlt_le, Rinv_0_lt_compat.
        assert (INR 2 <= INR (length l)) by (apply le_INR; lia). cbn in H0. lra. }
      pose proof (squares_pos x X). lra.
Qed.
Print Assumptions C24_variance.

(** With at least 4 iterations asked for (the program asks for 100), the first
    case is excluded. *)
Theorem C24_enough_samples :
  forall sample ldlt iterations order sym m, (4 <= iterations)%nat ->
  pose_variance sample ldlt iterations order sym = Some m ->
  (2 <= length (poses sample order))%nat /\ (iterations / 2 <= length (poses sample order))%nat.
Proof.
  intros sample ldlt it order sym m H E. destruct (C24_variance _ _ _ _ _ _ E) as [[(A & _)|(A & B & _)] _]; [lia|auto].
Qed.
Print Assumptions C24_enough_samples.

(** The variance does not depend on the order in which the parallel iterations
    end. *)
Theorem C24_order_independent :
  forall sample ldlt iterations order order' sym m m', Permutation order order' ->
  pose_variance sample ldlt iterations order sym = Some m ->
  pose_variance sample ldlt iterations order' sym = Some m' ->
  forall a b, m a b = m' a b.
Proof.
  intros sample ldlt it o o' sym m m' P E E' a b.
  assert (Pp := poses_perm sample o o' P). assert (Len := Permutation_length Pp).
  destruct (C24_variance _ _ _ _ _ _ E) as [[(_ & Z & M)|(L & _ & M)] _], (C24_variance _ _ _ _ _ _ E') as [[(_ & Z' & M')|(L' & _ & M')] _];
    try (rewrite Z in *; cbn in *; lia); try (rewrite Z' in *; cbn in *; lia); rewrite M, M'.
  - reflexivity.
  - f_equal. unfold sample_covariance. rewrite Len. f_equal.
    assert (Me : forall c, mean (poses sample o) c = mean (poses sample o') c).
    { intros c. unfold mean. rewrite Len. f_equal. now apply rsum_perm. }
    rewrite (rsum_perm _ _ _ Pp). apply rsum_ext. intros v _. now rewrite !Me.
Qed.
Print Assumptions C24_order_independent.

(** Half of the poses are enough: the computation succeeds when the two
    numerical tests accept the matrix. *)
Theorem C24_succeeds :
  forall sample iterations order, (1 <= iterations)%nat -> (2 <= length (poses sample order))%nat -> (iterations / 2 <= length (poses sample order))%nat ->
  pose_variance sample (fun _ => true) iterations order true <> None.
Proof.
  intros sample it order H L Ge. unfold pose_variance. destruct (Nat.eqb_spec it 0); [lia|].
  destruct (Nat.ltb_spec (length (poses sample order)) (it / 2)); [lia|].
  destruct (poses sample order) as [|v [|w l]]; cbn in L; try lia. cbn. discriminate.
Qed.
Print Assumptions C24_succeeds.

(** "A variance comes from samples" is false for one iteration. *)
Theorem C24_from_samples_refuted :
  exists sample order m, pose_variance sample (fun _ => true) 1 order true = Some m /\ poses sample order = [].
Proof. exists (fun _ => None), [0%nat]. eexists. split; reflexivity. Qed.
Print Assumptions C24_from_samples_refuted.

(** Example: 4 iterations, one fails. *)
Definition ex_sample (i : nat) : option vec6 :=
  match i with 2%nat => None | _ => Some (fun a => INR i) end.
Example C24_example : exists m, pose_variance ex_sample (fun _ => true) 4 [3;0;2;1]%nat true = Some m /\
  (2 <= length (poses ex_sample [3;0;2;1]%nat))%nat.
Proof. eexists. split; [reflexivity|]. cbn. lia. Qed.

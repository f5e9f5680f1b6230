(** C124: how often the RANSAC draws a subset made only of inliers. *)
From Coq Require Import List ZArith Reals Lra Lia Permutation Arith Bool.
From Coq Require Import ZifyBool ZifyNat.
From Flocq Require Import Core.
From Verif Require Import PoseOptModel PoseOptProofs PoseOptProps RansacDrawModel RansacDrawSpec.
Import ListNotations.

(** ** The number of iterations *)
Section Iterations.
Local Open Scope R_scope.
Let a := 10102141508151%Z.
Let b := 10240000000000%Z.
Definition miss : R := 1 - inlier_proportion ^ feature_trust_count.
Lemma miss_value : miss = IZR a / IZR b.
Proof. unfold miss, inlier_proportion, feature_trust_count, a, b. cbn [pow]. lra. Qed.
Lemma pow_ln x n : 0 < x -> ln (x ^ n) = INR n * ln x.
Proof.
  intros X. induction n as [|n IH]; [cbn; rewrite ln_1; lra|]. rewrite S_INR. cbn [pow].
  rewrite ln_mult, IH; [ring|assumption|now apply pow_lt].
Qed.
Lemma miss_pow n : miss ^ n = IZR (a ^ Z.of_nat n) / IZR (b ^ Z.of_nat n).
Proof.
  rewrite miss_value. unfold Rdiv. rewrite Rpow_mult_distr, <- !pow_IZR, Rinv_pow; [reflexivity|]. unfold b. lra.
Qed.
Lemma b_pos n : 0 < IZR (b ^ Z.of_nat n).
Proof. apply IZR_lt. apply Z.pow_pos_nonneg; unfold b; lia. Qed.
Lemma ln_le' x y : 0 < x -> x <= y -> ln x <= ln y.
Proof. intros X [L|<-]; [left; now apply ln_increasing|right; reflexivity]. Qed.
Lemma below c x y : 0 < c -> 0 < y -> y <= c * x -> / c <= x / y.
Proof.
  intros C Y L. apply Rmult_le_reg_r with (c * y); [now apply Rmult_lt_0_compat|].
  replace (/ c * (c * y)) with y by (field; lra). replace (x / y * (c * y)) with (c * x) by (field; lra). exact L.
Qed.
Lemma above c x y : 0 < c -> 0 < y -> c * x <= y -> x / y <= / c.
Proof.
  intros C Y L. apply Rmult_le_reg_r with (c * y); [now apply Rmult_lt_0_compat|].
  replace (/ c * (c * y)) with y by (field; lra). replace (x / y * (c * y)) with (c * x) by (field; lra). exact L.
Qed.
Lemma power_below : (/ 5) ^ 2 <= miss ^ 237.
Proof.
  replace ((/ 5) ^ 2) with (/ 25) by (cbn [pow]; lra). rewrite miss_pow. apply below; [lra|apply b_pos|].
  rewrite <- mult_IZR. apply IZR_le. vm_compute. discriminate.
Qed.
Lemma power_above : miss ^ 475 <= (/ 5) ^ 4.
Proof.
  replace ((/ 5) ^ 4) with (/ 625) by (cbn [pow]; lra). rewrite miss_pow. apply above; [lra|apply b_pos|].
  rewrite <- mult_IZR. apply IZR_le. vm_compute. discriminate.
Qed.
Lemma bounds : 237 * - ln miss <= 2 * ln 5 /\ 4 * ln 5 <= 475 * - ln miss.
Proof.
  assert (M : 0 < miss) by (rewrite miss_value; unfold a, b; lra).
  assert (E : forall n, ln ((/ 5) ^ n) = - (IZR (Z.of_nat n) * ln 5)).
  { intros n. rewrite pow_ln by lra. rewrite ln_Rinv, INR_IZR_INZ by lra. ring. }
  assert (F : forall n, ln (miss ^ n) = IZR (Z.of_nat n) * ln miss) by (intros; rewrite pow_ln, INR_IZR_INZ; auto).
  split.
  - assert (L : ln ((/ 5) ^ 2) <= ln (miss ^ 237)) by (apply ln_le'; [apply pow_lt; lra|exact power_below]).
    rewrite E, F in L. change (Z.of_nat 237) with 237%Z in L. change (Z.of_nat 2) with 2%Z in L. lra.
  - assert (L : ln (miss ^ 475) <= ln ((/ 5) ^ 4)) by (apply ln_le'; [now apply pow_lt|exact power_above]).
    rewrite E, F in L. change (Z.of_nat 475) with 475%Z in L. change (Z.of_nat 4) with 4%Z in L. lra.
Qed.
(** At most 119 subsets are drawn, whatever the error of the logarithms up to a tenth. *)
Theorem C124_iterations : forall computed, Rabs (computed - iterations_quotient) <= 1 / 10 -> maximum_iterations computed = 119%Z.
Proof.
  intros v V. unfold maximum_iterations. apply Rabs_le_inv in V.
  assert (Q : 237 / 2 <= iterations_quotient <= 475 / 4).
  { unfold iterations_quotient, probability_of_success. fold miss. replace (1 - 8 / 10) with (/ 5) by lra. rewrite ln_Rinv by lra.
    pose proof bounds as B. assert (N : ln miss < 0) by (rewrite <- ln_1; apply ln_increasing; rewrite miss_value; unfold a, b; lra).
    replace (- ln 5 / ln miss) with (ln 5 * / - ln miss) by (field; lra).
    split; apply Rmult_le_reg_r with (- ln miss); try lra; rewrite Rmult_assoc, Rinv_l by lra; lra. }
  apply Zceil_imp. change (119 - 1)%Z with 118%Z. lra.
Qed.
End Iterations.
Print Assumptions C124_iterations.

(** ** The orders of a list *)
Section Orders.
Context {A : Type}.
(** each element with the others *)
Fixpoint picks (before l : list A) : list (A * list A) :=
  match l with [] => [] | x :: l' => (x, before ++ l') :: picks (before ++ [x]) l' end.
Fixpoint orders (n : nat) (l : list A) : list (list A) :=
  match n with 0 => [[]] | S n' => flat_map (fun p => map (cons (fst p)) (orders n' (snd p))) (picks [] l) end.

Lemma picks_in x rest l : forall before, In (x, rest) (picks before l) <-> exists l1 l2, l = l1 ++ x :: l2 /\ rest = before ++ l1 ++ l2.
Proof.
  induction l as [|y l IH]; intros before; cbn [picks In].
  - split; [tauto|]. intros (l1 & l2 & E & _). destruct l1; discriminate.
  - rewrite IH. split.
    + intros [E|(l1 & l2 & -> & ->)].
      * injection E as <- <-. exists [], l. auto.
      * exists (y :: l1), l2. now rewrite <- app_assoc.
    + intros (l1 & l2 & E & ->). destruct l1 as [|z l1]; injection E as -> ->; [now left|].
      right. exists l1, l2. split; [reflexivity|]. now rewrite <- app_assoc.
Qed.
Lemma picks_fst l : forall before, map fst (picks before l) = l.
Proof. induction l as [|y l IH]; intros before; cbn [picks map fst]; [reflexivity|now rewrite IH]. Qed.
Lemma orders_in n : forall l o, length l = n -> (In o (orders n l) <-> Permutation l o).
Proof.
  induction n as [|n IH]; intros l o L.
  - destruct l; [|discriminate]. cbn. split; [intros [<-|[]]; constructor|]. intros P. apply Permutation_nil in P. auto.
  - cbn [orders]. rewrite in_flat_map. split.
    + intros ((x & rest) & I & M). apply picks_in in I as (l1 & l2 & -> & ->). cbn [fst snd app] in M.
      apply in_map_iff in M as (o' & <- & I). apply IH in I.
      * rewrite <- Permutation_middle. now constructor.
      * rewrite app_length in *. cbn [length] in L. lia.
    + intros P. destruct o as [|x o]; [apply Permutation_sym, Permutation_nil in P; subst; discriminate|].
      assert (I : In x l) by (apply (Permutation_in x (Permutation_sym P)); now left).
      apply in_split in I as (l1 & l2 & ->). exists (x, l1 ++ l2). split; [apply picks_in; exists l1, l2; auto|].
      cbn [fst snd]. apply in_map. apply IH; [rewrite app_length in *; cbn [length] in L; lia|].
      apply Permutation_cons_inv with x. rewrite Permutation_middle. exact P.
Qed.
Lemma flat_map_NoDup {B} (f : A * list A -> list B) l :
  NoDup (map fst l) -> (forall p, In p l -> NoDup (f p)) -> (forall p q y, In p l -> In q l -> In y (f p) -> In y (f q) -> fst p = fst q) -> NoDup (flat_map f l).
Proof.
  induction l as [|p l IH]; intros N F D; cbn [flat_map]; [constructor|]. cbn [map] in N. inversion N as [|? ? Nx Ny]; subst.
  assert (R : NoDup (flat_map f l)) by (apply IH; [assumption|intros; apply F; now right|intros q r y ? ? ? ?; apply (D q r y); auto; now right]).
  assert (Fp := F p (or_introl eq_refl)).
  assert (X : forall y, In y (f p) -> ~ In y (flat_map f l)).
  { intros y Iy Iz. apply in_flat_map in Iz as (q & Iq & Iz). apply Nx. rewrite (D p q y (or_introl eq_refl) (or_intror Iq) Iy Iz). now apply in_map. }
  revert Fp X R. generalize (f p) (flat_map f l). clear. induction l as [|y l IH]; intros l' N X R; [exact R|]. cbn [app]. inversion N; subst. constructor.
  - rewrite in_app_iff. intros [|]; [contradiction|]. apply (X y); [now left|assumption].
  - apply IH; auto. intros z I. apply X. now right.
Qed.
Lemma orders_NoDup n : forall l, length l = n -> NoDup l -> NoDup (orders n l).
Proof.
  induction n as [|n IH]; intros l L N; [repeat constructor; auto|]. cbn [orders]. apply flat_map_NoDup.
  - now rewrite picks_fst.
  - intros (x & rest) I. apply picks_in in I as (l1 & l2 & -> & ->). cbn [fst snd app]. apply FinFun.Injective_map_NoDup; [intros u v E; now injection E|].
    apply IH; [rewrite app_length in *; cbn [length] in L; lia|]. now apply NoDup_remove_1 in N.
  - intros (x & r) (y & s) o _ _ I J. cbn [fst snd] in *. apply in_map_iff in I as (u & <- & _). apply in_map_iff in J as (v & E & _). now injection E.
Qed.
Lemma all_orders_perm l os : NoDup l -> all_orders l os -> Permutation (orders (length l) l) os.
Proof.
  intros N (No & Io). apply NoDup_Permutation; [now apply orders_NoDup|assumption|]. intros o. rewrite Io. now apply orders_in.
Qed.

(** *** Counting *)
Lemma count_app (f : A -> bool) l l' : count f (l ++ l') = count f l + count f l'.
Proof. unfold count. now rewrite filter_app, app_length. Qed.
Lemma count_perm {B} (f : B -> bool) l l' : Permutation l l' -> count f l = count f l'.
Proof. unfold count. induction 1 as [|x l l' P IH|x y l|l l' l'' P IH P' IH']; cbn; [reflexivity|destruct (f x); cbn; lia|destruct (f x), (f y); reflexivity|lia]. Qed.
Fixpoint falling (k j : nat) : nat := match j with 0 => 1 | S j' => k * falling (k - 1) j' end.
Lemma orders_length n : forall l, length l = n -> length (orders n l) = fact n.
Proof.
  induction n as [|n IH]; intros l L; [reflexivity|]. cbn [orders].
  assert (X : forall ps, (forall p, In p ps -> length (snd p) = n) -> length (flat_map (fun p : A * list A => map (cons (fst p)) (orders n (snd p))) ps) = length ps * fact n).
  { induction ps as [|p ps IHp]; intros F; [reflexivity|]. cbn [flat_map]. rewrite app_length, map_length, IH, IHp; [cbn [length]; lia|intros; apply F; now right|apply F; now left]. }
  rewrite X.
  - rewrite <- (map_length fst), picks_fst, L. reflexivity.
  - intros (x & rest) I. apply picks_in in I as (l1 & l2 & -> & ->). cbn [snd app]. rewrite app_length in *. cbn [length] in L. lia.
Qed.
Variable f : A -> bool.
Lemma count_flat_map {B C} (p : C -> bool) (g : B -> list C) l : count p (flat_map g l) = list_sum (map (fun b => count p (g b)) l).
Proof. unfold count. induction l as [|b l IH]; cbn; [reflexivity|]. now rewrite filter_app, app_length, IH. Qed.
Lemma count_map {B C} (p : C -> bool) (g : B -> C) l : count p (map g l) = count (fun b => p (g b)) l.
Proof. unfold count. induction l as [|b l IH]; cbn; [reflexivity|]. destruct (p (g b)); cbn; lia. Qed.
Lemma sum_select (l : list (A * list A)) c : list_sum (map (fun q => if f (fst q) then c else 0) l) = count f (map fst l) * c.
Proof.
  induction l as [|q l IH]; [reflexivity|]. cbn [map]. unfold list_sum in *. cbn [fold_right]. rewrite IH.
  unfold count. cbn [filter]. destruct (f (fst q)); cbn [length]; lia.
Qed.
(** the orders whose first elements are selected *)
Lemma orders_count n : forall l j, length l = n -> j <= n ->
  count (fun o => forallb f (firstn j o)) (orders n l) = falling (count f l) j * fact (n - j).
Proof.
  induction n as [|n IH]; intros l j L J.
  - replace j with 0 by lia. reflexivity.
  - destruct j as [|j].
    + unfold count at 1. cbn [firstn forallb falling]. rewrite Nat.sub_0_r, Nat.mul_1_l, <- (orders_length (S n) l L).
      f_equal. clear. induction (orders (S n) l) as [|o os IH]; cbn; congruence.
    + cbn [orders falling]. rewrite count_flat_map. rewrite Nat.sub_succ.
      rewrite (map_ext_in _ (fun q => if f (fst q) then falling (count f l - 1) j * fact (n - j) else 0)).
      * rewrite sum_select, picks_fst. lia.
      * intros (x & rest) I. cbn [fst snd]. rewrite count_map. apply picks_in in I as (l1 & l2 & -> & ->). cbn [app].
        assert (Lr : length (l1 ++ l2) = n) by (rewrite app_length in *; cbn [length] in L; lia).
        destruct (f x) eqn:Fx.
        -- transitivity (count (fun o => forallb f (firstn j o)) (orders n (l1 ++ l2))).
           { unfold count. f_equal. apply filter_ext. intros o. cbn [firstn forallb]. now rewrite Fx. }
           rewrite (IH (l1 ++ l2) j Lr ltac:(lia)). do 2 f_equal. rewrite !count_app. unfold count. cbn [filter]. rewrite Fx. cbn [length]. lia.
        -- unfold count. cbn [firstn forallb]. rewrite Fx. cbn [andb]. induction (orders n (l1 ++ l2)); cbn; auto.
Qed.
End Orders.

(** ** Sequences *)
Lemma sequences_length {A} (l : list A) m : Z.of_nat (length (sequences m l)) = (Z.of_nat (length l) ^ Z.of_nat m)%Z.
Proof.
  induction m as [|m IH]; [reflexivity|]. cbn [sequences]. rewrite Nat2Z.inj_succ, Z.pow_succ_r, <- IH by lia. rewrite <- Nat2Z.inj_mul. f_equal.
  generalize (sequences m l). intros s. induction l as [|x l IHl] in |- *; cbn [flat_map length]; [reflexivity|]. rewrite app_length, map_length. unfold sequences in *. rewrite IHl. lia.
Qed.
Lemma sequences_without {A} (f : A -> bool) (l : list A) m :
  Z.of_nat (count (fun s => negb (existsb f s)) (sequences m l)) = (Z.of_nat (length l - count f l) ^ Z.of_nat m)%Z.
Proof.
  induction m as [|m IH]; [reflexivity|]. cbn [sequences]. rewrite Nat2Z.inj_succ, Z.pow_succ_r, <- IH by lia. rewrite <- Nat2Z.inj_mul. f_equal.
  generalize (sequences m l). intros s. clear IH.
  assert (C : forall l : list A, count f l <= length l) by (intros k; unfold count; induction k as [|x k IH]; cbn; [lia|]; destruct (f x); cbn; lia).
  induction l as [|x l IHl]; [reflexivity|]. cbn [flat_map]. unfold count in *. rewrite filter_app, app_length, IHl. cbn [filter length].
  assert (X : length (filter (fun s0 => negb (existsb f s0)) (map (cons x) s)) = if f x then 0 else length (filter (fun s0 => negb (existsb f s0)) s)).
  { clear. induction s as [|t s IH]; cbn [map filter existsb]; [now destruct (f x)|]. destruct (f x); cbn [orb negb]; [exact IH|].
    destruct (negb (existsb f t)); cbn [length]; lia. }
  rewrite X. specialize (C l). destruct (f x); cbn [length]; nia.
Qed.
Lemma count_negb {A} (f : A -> bool) l : count f l + count (fun x => negb (f x)) l = length l.
Proof. unfold count. induction l as [|x l IH]; cbn; [reflexivity|]. destruct (f x); cbn; lia. Qed.

(** ** The draws of points *)
Lemma points_weight {F} (kind : F -> fkind) l : (forall x, In x l -> kind x <> Plane) -> fweight kind l = 3 * length l.
Proof.
  induction l as [|x l IH]; intros K; [reflexivity|]. cbn [length]. specialize (IH (fun y I => K y (or_intror I))).
  pose proof (K x (or_introl eq_refl)) as Kx. unfold fweight, weights in *. cbn [map fold_right]. destruct (kind x); try congruence; cbn [weight] in *; lia.
Qed.
Lemma forallb_rev {F} (f : F -> bool) l : forallb f (rev l) = forallb f l.
Proof. induction l as [|x l IH]; [reflexivity|]. cbn [rev forallb]. rewrite forallb_app, IH. cbn [forallb]. rewrite andb_true_r. apply andb_comm. Qed.
Lemma draws_first {F} (kind : F -> fkind) inlier o : (forall x, In x o -> kind x <> Plane) -> 5 <= length o ->
  draws_inliers kind inlier o = forallb inlier (firstn 5 o).
Proof.
  intros K L. unfold draws_inliers. assert (W := points_weight kind o K).
  destruct (random_subset_spec kind o ltac:(lia)) as (n & -> & B & G & M).
  assert (Kf : forall m, fweight kind (firstn m o) = 3 * length (firstn m o)).
  { intros m. apply points_weight. intros x I. apply K. rewrite <- (firstn_skipn m o). apply in_or_app. now left. }
  assert (n = 5).
  { rewrite Kf, firstn_length in G. destruct (Nat.lt_trichotomy n 5) as [X|[X|X]]; [lia|exact X|].
    specialize (M 5 X). rewrite Kf, firstn_length in M. lia. }
  subst n. apply forallb_rev.
Qed.
Lemma falling_fact n : forall j, j <= n -> falling n j * fact (n - j) = fact n.
Proof.
  induction n as [|n IH]; intros j J; [replace j with 0 by lia; reflexivity|]. destruct j as [|j]; [cbn [falling]; rewrite Nat.sub_0_r; lia|].
  cbn [falling]. replace (S n - 1) with n by lia. rewrite Nat.sub_succ. rewrite <- Nat.mul_assoc, IH by lia. reflexivity.
Qed.

Section Success.
Context {F : Type}.
Variables (kind : F -> fkind) (inlier : F -> bool) (matched : list F) (os : list (list F)).
Hypothesis distinct : NoDup matched.
Hypothesis only_points : forall x, In x matched -> kind x <> Plane.
Hypothesis orders_ok : all_orders matched os.
Let n := length matched.
Let k := count inlier matched.

Lemma os_length : length os = fact n.
Proof using distinct orders_ok. rewrite <- (Permutation_length (all_orders_perm matched os distinct orders_ok)). now apply orders_length. Qed.
Lemma good_count : 5 <= n -> count (draws_inliers kind inlier) os = falling k 5 * fact (n - 5).
Proof using distinct only_points orders_ok.
  intros N. rewrite <- (count_perm _ _ _ (all_orders_perm matched os distinct orders_ok)), (eq_sym (orders_count inlier n matched 5 eq_refl N) : falling k 5 * fact (n - 5) = _).
  unfold count. f_equal. apply filter_ext_in. intros o I. apply orders_in in I; [|reflexivity]. apply draws_first.
  - intros x X. apply only_points. apply (Permutation_in x (Permutation_sym I) X).
  - rewrite <- (Permutation_length I). exact N.
Qed.
(** The share of the orders from which only inliers are drawn. *)
Theorem C124_draw : 5 <= n ->
  count (draws_inliers kind inlier) os * (n * (n - 1) * (n - 2) * (n - 3) * (n - 4)) = k * (k - 1) * (k - 2) * (k - 3) * (k - 4) * length os.
Proof using distinct only_points orders_ok.
  intros N. rewrite (good_count N), os_length, <- (falling_fact n 5 N).
  assert (E : forall x, falling x 5 = x * (x - 1) * (x - 2) * (x - 3) * (x - 4)).
  { intros x. cbn [falling]. rewrite <- !Nat.sub_add_distr. cbn [Nat.add]. rewrite Nat.mul_1_r, !Nat.mul_assoc. reflexivity. }
  rewrite <- !E. ring.
Qed.
(** With fewer than five inliers none of the draws is good. *)
Theorem C124_few_refuted : 5 <= n -> k < 5 -> forall o, In o os -> draws_inliers kind inlier o = false.
Proof using distinct only_points orders_ok.
  intros N K o I. assert (Z : count (draws_inliers kind inlier) os = 0).
  { rewrite (good_count N). cbn [falling]. destruct k as [|[|[|[|[|]]]]]; cbn; lia. }
  destruct (draws_inliers kind inlier o) eqn:E; [|reflexivity]. exfalso. unfold count in Z. apply length_zero_iff_nil in Z.
  assert (X : In o (filter (draws_inliers kind inlier) os)) by (apply filter_In; auto). rewrite Z in X. destruct X.
Qed.

Lemma falling5 : 7 <= n -> 13 * n <= 20 * k -> k <= n -> (Z.of_nat (falling n 5) <= 21 * Z.of_nat (falling k 5))%Z.
Proof using.
  clearbody n k. intros N K L. destruct (Nat.lt_ge_cases n 18) as [S|S].
  - assert (X : forallb (fun n => forallb (fun k => negb ((7 <=? n) && (13 * n <=? 20 * k) && (k <=? n)) ||
        (Z.of_nat (falling n 5) <=? 21 * Z.of_nat (falling k 5))%Z) (seq 0 18)) (seq 0 18) = true) by (vm_compute; reflexivity).
    rewrite forallb_forall in X. specialize (X n ltac:(apply in_seq; lia)). rewrite forallb_forall in X. specialize (X k ltac:(apply in_seq; lia)).
    destruct (Nat.leb_spec 7 n); [|lia]. destruct (Nat.leb_spec (13 * n) (20 * k)); [|lia]. destruct (Nat.leb_spec k n); [|lia].
    cbn [andb negb orb] in X. now apply Z.leb_le in X.
  - cbn [falling]. rewrite <- !Nat.sub_add_distr. cbn [Nat.add]. rewrite !Nat2Z.inj_mul, !Nat2Z.inj_sub by lia.
    change (Z.of_nat 1) with 1%Z. change (Z.of_nat 2) with 2%Z. change (Z.of_nat 3) with 3%Z. change (Z.of_nat 4) with 4%Z.
    set (x := Z.of_nat n) in *. set (y := Z.of_nat k) in *. assert (H0 : (18 <= x)%Z) by lia. assert (H1 : (13 * x <= 20 * y)%Z) by lia.
    assert (P : forall a b c d, (0 <= a -> 0 <= c -> 0 <= b -> 0 <= d -> a <= b -> c <= d -> a * c <= b * d)%Z) by (intros; apply Z.mul_le_mono_nonneg; lia).
    assert (Q : ((11 * x) * ((11 * (x - 1)) * ((11 * (x - 2)) * ((11 * (x - 3)) * (11 * (x - 4))))) <=
      (20 * y) * ((20 * (y - 1)) * ((20 * (y - 2)) * ((20 * (y - 3)) * (20 * (y - 4))))))%Z).
    { do 4 (apply P; [lia|repeat apply Z.mul_nonneg_nonneg; lia|lia|repeat apply Z.mul_nonneg_nonneg; lia|lia|]). lia. }
    set (u := (x * ((x - 1) * ((x - 2) * ((x - 3) * (x - 4)))))%Z) in *. set (v := (y * ((y - 1) * ((y - 2) * ((y - 3) * (y - 4)))))%Z) in *.
    replace (11 * x * (11 * (x - 1) * (11 * (x - 2) * (11 * (x - 3) * (11 * (x - 4))))))%Z with (161051 * u)%Z in Q by (unfold u; ring).
    replace (20 * y * (20 * (y - 1) * (20 * (y - 2) * (20 * (y - 3) * (20 * (y - 4))))))%Z with (3200000 * v)%Z in Q by (unfold v; ring).
    assert (V : (0 <= u)%Z) by (unfold u; repeat apply Z.mul_nonneg_nonneg; lia).
    replace (x * ((x - 1) * ((x - 2) * ((x - 3) * ((x - 4) * 1)))))%Z with u by (unfold u; ring).
    replace (y * ((y - 1) * ((y - 2) * ((y - 3) * ((y - 4) * 1)))))%Z with v by (unfold v; ring). lia.
Qed.

(** Each different draw divides the share of the failures by 21 / 20 at least. *)
Theorem C124_success : 7 <= n -> 13 * n <= 20 * k -> forall m,
  (21 ^ Z.of_nat m * Z.of_nat (count (fun s => negb (existsb (draws_inliers kind inlier) s)) (sequences m os)) <=
   20 ^ Z.of_nat m * Z.of_nat (length (sequences m os)))%Z.
Proof using distinct only_points orders_ok.
  intros N K m. rewrite sequences_without, sequences_length, <- !Z.pow_mul_l. apply Z.pow_le_mono_l. split; [lia|].
  assert (L : k <= n) by (pose proof (count_negb inlier matched); unfold n, k; lia).
  pose proof (falling5 N K L) as X. pose proof (good_count ltac:(lia)) as G. pose proof os_length as O.
  assert (Y : (Z.of_nat (length os) <= 21 * Z.of_nat (count (draws_inliers kind inlier) os))%Z).
  { rewrite G, O, <- (falling_fact n 5) by lia. rewrite !Nat2Z.inj_mul. apply (Z.mul_le_mono_nonneg_r _ _ (Z.of_nat (fact (n - 5)))) in X; lia. }
  pose proof (count_negb (draws_inliers kind inlier) os). lia.
Qed.
Lemma share m a b : 7 <= n -> 13 * n <= 20 * k -> (0 < b)%Z -> (b * 20 ^ Z.of_nat m <= a * 21 ^ Z.of_nat m)%Z ->
  ((b - a) * Z.of_nat (length (sequences m os)) <= b * Z.of_nat (count (existsb (draws_inliers kind inlier)) (sequences m os)))%Z.
Proof using distinct only_points orders_ok.
  intros N K B A. pose proof (C124_success N K m) as S.
  pose proof (count_negb (existsb (draws_inliers kind inlier)) (sequences m os)) as T.
  set (bad := count (fun s => negb (existsb (draws_inliers kind inlier) s)) (sequences m os)) in *.
  set (t := length (sequences m os)) in *. set (p := (21 ^ Z.of_nat m)%Z) in *. set (q := (20 ^ Z.of_nat m)%Z) in *.
  assert (P : (0 < p)%Z) by (apply Z.pow_pos_nonneg; lia).
  assert (X : (p * (b * Z.of_nat bad) <= p * (a * Z.of_nat t))%Z) by nia.
  apply Z.mul_le_mono_pos_l in X; lia.
Qed.
(** From seven points on, with 65 % of inliers: a good subset is found in 80 % of the runs with
    33 different draws, and in 99 % with the 119 iterations of a single thread. *)
Theorem C124_tries : 7 <= n -> 13 * n <= 20 * k ->
  (4 * Z.of_nat (length (sequences 33 os)) <= 5 * Z.of_nat (count (existsb (draws_inliers kind inlier)) (sequences 33 os)))%Z /\
  (99 * Z.of_nat (length (sequences 119 os)) <= 100 * Z.of_nat (count (existsb (draws_inliers kind inlier)) (sequences 119 os)))%Z.
Proof using distinct only_points orders_ok.
  intros N K. split; [apply (share 33 1 5 N K); [lia|vm_compute; discriminate]|apply (share 119 1 100 N K); [lia|vm_compute; discriminate]].
Qed.
End Success.
Print Assumptions C124_draw.
Print Assumptions C124_few_refuted.
Print Assumptions C124_success.
Print Assumptions C124_tries.

(** Seven points, five of them inliers: 32 different draws, the most that 119 iterations on four
    threads with the same engine can make being 30, are not enough for 80 %. *)
Theorem C124_threads_refuted : exists (inlier : nat -> bool) matched os,
  NoDup matched /\ length matched = 7 /\ 13 * length matched <= 20 * count inlier matched /\ all_orders matched os /\
  forall m, m <= 32 ->
  (5 * Z.of_nat (count (existsb (draws_inliers (fun _ => Point) inlier)) (sequences m os)) < 4 * Z.of_nat (length (sequences m os)))%Z.
Proof.
  set (l := seq 0 7). exists (fun i => i <? 5), l, (orders 7 l).
  assert (N : NoDup l) by apply seq_NoDup. assert (O : all_orders l (orders 7 l)).
  { split; [now apply orders_NoDup|]. intros o. now apply orders_in. }
  split; [exact N|]. split; [reflexivity|]. split; [vm_compute; lia|]. split; [exact O|]. intros m M.
  pose proof (count_negb (existsb (draws_inliers (fun _ => Point) (fun i => i <? 5))) (sequences m (orders 7 l))) as T.
  pose proof (sequences_without (draws_inliers (fun _ => Point) (fun i => i <? 5)) (orders 7 l) m) as W.
  pose proof (sequences_length (orders 7 l) m) as S.
  rewrite (os_length l (orders 7 l) N O) in S, W.
  rewrite (good_count (fun _ => Point) (fun i => i <? 5) l (orders 7 l) N ltac:(discriminate) O ltac:(vm_compute; lia)) in W.
  change (Z.of_nat (fact (length l))) with 5040%Z in S.
  change (Z.of_nat (fact (length l) - falling (count (fun i => i <? 5) l) 5 * fact (length l - 5))) with 4800%Z in W.
  assert (X : (5040 ^ Z.of_nat m < 5 * 4800 ^ Z.of_nat m)%Z).
  { assert (Y : forallb (fun m => (5040 ^ Z.of_nat m <? 5 * 4800 ^ Z.of_nat m)%Z) (seq 0 33) = true) by (vm_compute; reflexivity).
    rewrite forallb_forall in Y. apply Z.ltb_lt, Y, in_seq. lia. }
  lia.
Qed.
Print Assumptions C124_threads_refuted.

(** ** Cases that meet the hypotheses *)
Example C124_example :
  all_orders (seq 0 7) (orders 7 (seq 0 7)) /\ 13 * 7 <= 20 * count (fun i => i <? 5) (seq 0 7) /\
  draws_inliers (fun _ => Point) (fun i => i <? 5) [4; 3; 0; 2; 1; 6; 5] = true /\
  draws_inliers (fun _ => Point) (fun i => i <? 5) [4; 3; 5; 2; 1; 6; 0] = false /\
  13 * 6 <= 20 * count (fun i => i <? 4) (seq 0 6) /\ count (fun i => i <? 4) (seq 0 6) < 5.
Proof.
  split; [split; [apply orders_NoDup; [reflexivity|apply seq_NoDup]|intros o; now apply orders_in]|].
  vm_compute. repeat split; lia.
Qed.

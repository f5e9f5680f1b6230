(** Lemmas on the RANSAC loop run sequentially, and on sums of equal scores. *)
From Coq Require Import Reals Psatz ZifyBool ZifyNat.
From Flocq Require Import Core IEEE754.BinarySingleNaN.
From Verif Require Import PoseOptModel PoseOptProofs RansacProofs.
Local Open Scope nat_scope.

#[local] Instance fexp64_valid' : Valid_exp fexp64 := fexp_correct 53 1024 dprec.
#[local] Instance fexp64_mono : Monotone_exp fexp64 := fexp_monotone 53 1024.

Lemma step_up (x y : dbl) (n : Z) :
  is_finite x = true -> is_finite y = true -> (0 <= B2R x <= IZR n)%R -> (0 <= n < 2 ^ 47)%Z -> (/8 <= B2R y <= 1)%R ->
  is_finite (dadd x y) = true /\ (B2R x < B2R (dadd x y) <= IZR (n + 1))%R.
Proof.
  intros Fx Fy Hx Hn Hy.
  pose proof (Bplus_correct 53 1024 dprec demax mode_NE x y Fx Fy) as H. fold (dadd x y) in H.
  change (SpecFloat.fexp 53 1024) with fexp64 in H.
  set (z := (B2R x + B2R y)%R) in *. set (r := round radix2 fexp64 (round_mode mode_NE) z) in *.
  assert (N1 : (IZR n + 1 <= 2 ^ 47)%R).
  { rewrite <- (plus_IZR n 1). replace (2 ^ 47)%R with (IZR 140737488355328) by lra. apply IZR_le. lia. }
  assert (B48 : (bpow radix2 47 = 2 ^ 47)%R) by (cbn; lra).
  assert (Up : (r <= IZR (n + 1))%R).
  { unfold r. apply round_le_generic; auto with typeclass_instances.
    - apply generic_format_FLT. exists (Float radix2 (n + 1) 0); cbn; [|lia|lia].
      unfold F2R. cbn. ring.
    - rewrite plus_IZR. unfold z. lra. }
  assert (Er : (Rabs (r - z) <= / 2 * ulp radix2 fexp64 z)%R).
  { unfold r. apply error_le_half_ulp; auto with typeclass_instances. }
  assert (U : (ulp radix2 fexp64 z <= bpow radix2 (-5))%R).
  { apply Rle_trans with (ulp radix2 fexp64 (bpow radix2 47)).
    - apply ulp_le; auto with typeclass_instances. rewrite !Rabs_pos_eq; [|apply bpow_ge_0|unfold z; lra]. rewrite B48. unfold z. lra.
    - rewrite ulp_bpow. apply bpow_le. vm_compute. discriminate. }
  assert (B5 : (bpow radix2 (-5) = / 32)%R) by (cbn; lra).
  rewrite B5 in U. apply Rabs_le_inv in Er.
  assert (Lo : (B2R x < r)%R) by (assert (Hz : z = (B2R x + B2R y)%R) by reflexivity; lra).
  rewrite Rlt_bool_true in H.
  - destruct H as (E & Fi & _). rewrite E. auto.
  - rewrite Rabs_pos_eq by lra. apply Rle_lt_trans with (IZR (n + 1)); auto.
    apply Rle_lt_trans with (bpow radix2 47); [rewrite B48, plus_IZR; lra|]. apply bpow_lt. lia.
Qed.

Lemma score_range k : is_finite (kind_score k) = true /\ (/8 <= B2R (kind_score k) <= 1)%R.
Proof.
  assert (G : forall x : dbl, match B2SF x with SpecFloat.S754_finite false m e => (Z.pow 2 (-e) <=? 8 * Z.pos m)%Z && (Z.pos m <=? Z.pow 2 (-e))%Z && (e <=? 0)%Z | _ => false end = true ->
    is_finite x = true /\ (/8 <= B2R x <= 1)%R).
  { intros x H. destruct x as [s|s| |s m e h]; cbn [B2SF] in H; try discriminate. destruct s; [discriminate|].
    split; [reflexivity|]. apply andb_true_iff in H. destruct H as [H H3]. apply andb_true_iff in H. destruct H as [H1 H2].
    apply Z.leb_le in H1, H2, H3. cbn [B2R cond_Zopp]. unfold F2R. cbn [Fnum Fexp].
    assert (E : (bpow radix2 e * IZR (2 ^ (- e)) = 1)%R).
    { change 2%Z with (radix_val radix2). rewrite IZR_Zpower by lia. rewrite <- bpow_plus. replace (e + - e)%Z with 0%Z by lia. reflexivity. }
    apply IZR_le in H1, H2. rewrite mult_IZR in H1. pose proof (bpow_gt_0 radix2 e). nra. }
  apply G. destruct k; vm_compute; reflexivity.
Qed.

(** sums of [n] equal scores increase with [n] *)
Lemma equal_sums k n : (Z.of_nat n < 2 ^ 47)%Z ->
  is_finite (ksum (repeat k n)) = true /\ (0 <= B2R (ksum (repeat k n)) <= IZR (Z.of_nat n))%R.
Proof.
  induction n as [|n IH]; intros H.
  - split; [reflexivity|]. cbn. lra.
  - destruct IH as [F G]; [lia|]. destruct (score_range k) as [Fs Gs].
    replace (repeat k (S n)) with (repeat k n ++ [k]) by (rewrite <- repeat_cons; reflexivity).
    unfold ksum. rewrite fold_left_app. cbn [fold_left]. fold (ksum (repeat k n)).
    destruct (step_up (ksum (repeat k n)) (kind_score k) (Z.of_nat n) F Fs G ltac:(lia) Gs) as [A B].
    split; auto. rewrite Nat2Z.inj_succ. unfold Z.succ. lra.
Qed.
Lemma equal_sums_lt k n : (Z.of_nat (S n) < 2 ^ 47)%Z -> (B2R (ksum (repeat k n)) < B2R (ksum (repeat k (S n))))%R.
Proof.
  intros H. destruct (equal_sums k n ltac:(lia)) as [F G]. destruct (score_range k) as [Fs Gs].
  replace (repeat k (S n)) with (repeat k n ++ [k]) by (rewrite <- repeat_cons; reflexivity).
  unfold ksum at 2. rewrite fold_left_app. cbn [fold_left]. fold (ksum (repeat k n)).
  destruct (step_up (ksum (repeat k n)) (kind_score k) (Z.of_nat n) F Fs G ltac:(lia) Gs) as [A B]. lra.
Qed.
Lemma equal_sums_mono k n m : n < m -> (Z.of_nat m < 2 ^ 47)%Z -> (B2R (ksum (repeat k n)) < B2R (ksum (repeat k m)))%R.
Proof.
  intros L. induction L as [|m L IH]; intros H.
  - now apply equal_sums_lt.
  - specialize (IH ltac:(lia)). pose proof (equal_sums_lt k m H). lra.
Qed.
Lemma equal_sums_dlt k n m : (Z.of_nat n < 2 ^ 47)%Z -> (Z.of_nat m < 2 ^ 47)%Z ->
  dlt (ksum (repeat k n)) (ksum (repeat k m)) = Nat.ltb n m.
Proof.
  intros Hn Hm. unfold dlt. rewrite Bltb_correct by (apply equal_sums; lia).
  destruct (Nat.ltb_spec n m) as [L|L].
  - apply Rlt_bool_true. now apply equal_sums_mono.
  - apply Rlt_bool_false. destruct (Nat.eq_dec n m) as [->|N]; [lra|]. apply Rlt_le. apply equal_sums_mono; lia.
Qed.

Section Seq.
Context {F P : Type}.
Variable kind : F -> fkind.
Variable inlier : P -> F -> option bool.
Variable finite : P -> bool.
Variable lm : P -> list F -> option P.
Variable current : P.
Variable matched : list F.
Variable shuffled : nat -> list F.
Variable stop : nat.
Notation rstate := (rstate F P).
Notation candidate := (candidate F P).
Notation eval := (evaluate kind inlier finite lm current matched shuffled).
Notation step := (r_step kind inlier finite lm current matched shuffled stop).
Notation run := (r_run kind inlier finite lm current matched shuffled stop).
Notation init := (r_init current).
Implicit Types (s : rstate) (c : candidate) (i : nat).

(** the iterations one after the other *)
Definition one_by_one (n : nat) : list nat := concat (map (fun i => repeat i 13) (seq 0 n)).

Definition overload s c : bool :=
  dlt (r_max s) (c_score c) || (close_to (c_score c) (r_max s) && Nat.ltb (length (r_in s)) (length (c_in c))).

(** what a whole iteration does *)
Definition whole i s : rstate :=
  if r_quit s then goto i IDone s
  else match eval i with
  | Some (Some c) =>
    let s1 := if overload s c
              then mkR (c_score c) (c_pose c) (c_in c) (c_out c) (r_quit s) None (r_it s) (r_dead s) else s in
    let s2 := goto i IDone s1 in
    if Nat.leb min_iterations i && Nat.ltb stop (length (r_in s2))
    then mkR (r_max s2) (r_pose s2) (r_in s2) (r_out s2) true (r_lock s2) (r_it s2) (r_dead s2) else s2
  | _ => goto i IDone s
  end.

Definition same s s' : Prop :=
  r_max s = r_max s' /\ r_pose s = r_pose s' /\ r_in s = r_in s' /\ r_out s = r_out s' /\ r_quit s = r_quit s' /\
  r_lock s = r_lock s' /\ (forall j, r_it s j = r_it s' j) /\ r_dead s = r_dead s'.

Lemma step_done i s : r_it s i = IDone -> step i s = s.
Proof. intros E. unfold r_step. rewrite E. now destruct (r_dead s). Qed.
Lemma run_done i n s : r_it s i = IDone -> run (repeat i n) s = s.
Proof. intros E. induction n as [|n IH]; [reflexivity|]. cbn [repeat]. rewrite run_cons, step_done by exact E. exact IH. Qed.
Lemma upd_upd (f : nat -> ist F P) i x y j : upd (upd f i x) i y j = upd f i y j.
Proof. unfold upd. destruct (Nat.eqb j i); auto. Qed.

Ltac onestep := rewrite run_cons; unfold r_step at 1; unfold goto; cbn [r_dead r_it r_max r_pose r_in r_out r_quit r_lock];
  rewrite ?upd_same; cbn [r_dead r_it r_max r_pose r_in r_out r_quit r_lock].

Lemma whole_run i s :
  r_dead s = false -> r_lock s = None -> r_it s i = IStart -> eval i <> None ->
  same (run (repeat i 13) s) (whole i s).
Proof.
  intros D L E Ev. destruct s as [mx po rin rou q lk it dd]. cbn in D, L, E. subst dd lk.
  unfold whole, overload. cbn [r_dead r_it r_max r_pose r_in r_out r_quit r_lock]. cbn [repeat].
  rewrite run_cons. unfold r_step at 1. cbn [r_dead r_it r_max r_pose r_in r_out r_quit r_lock]. rewrite E.
  destruct q.
  { rewrite (run_done i 12) by (unfold goto; cbn; apply upd_same). unfold same; repeat split; auto. }
  destruct (eval i) as [[c|]|]; [| |congruence].
  2:{ rewrite (run_done i 12) by (unfold goto; cbn; apply upd_same). unfold same; repeat split; auto. }
  (* reading and perhaps writing *)
  assert (Tail : forall n mx' po' rin' rou' it', 2 <= n -> it' i = ITail -> (forall j, j <> i -> it' j = it j) ->
    same (run (repeat i n) (mkR mx' po' rin' rou' false None it' false))
      (let s2 := mkR mx' po' rin' rou' false None (upd it i IDone) false in
       if Nat.leb min_iterations i && Nat.ltb stop (length (r_in s2))
       then mkR (r_max s2) (r_pose s2) (r_in s2) (r_out s2) true (r_lock s2) (r_it s2) (r_dead s2) else s2)).
  { intros n mx' po' rin' rou' it' Hn Hi Ho. destruct n as [|[|n]]; [lia|lia|]. cbn [repeat].
    rewrite run_cons. unfold r_step at 1. cbn [r_dead r_it r_max r_pose r_in r_out r_quit r_lock]. rewrite Hi.
    destruct (Nat.leb min_iterations i && Nat.ltb stop (length rin')) eqn:Q; cbn [r_in r_max r_pose r_out r_lock r_it r_dead]; rewrite ?Q.
    - onestep. rewrite run_done by (cbn; apply upd_same). unfold same; cbn. repeat split; auto.
      intros j. rewrite upd_upd. unfold upd. destruct (Nat.eqb_spec j i); auto.
    - rewrite run_cons, step_done by (unfold goto; cbn; apply upd_same). rewrite run_done by (unfold goto; cbn; apply upd_same).
      unfold same, goto; cbn. repeat split; auto. intros j. unfold upd. destruct (Nat.eqb_spec j i); auto. }
  assert (Write : forall n it', 8 <= n -> it' i = IWant c -> (forall j, j <> i -> it' j = it j) ->
    same (run (repeat i n) (mkR mx po rin rou false None it' false))
      (let s2 := mkR (c_score c) (c_pose c) (c_in c) (c_out c) false None (upd it i IDone) false in
       if Nat.leb min_iterations i && Nat.ltb stop (length (r_in s2))
       then mkR (r_max s2) (r_pose s2) (r_in s2) (r_out s2) true (r_lock s2) (r_it s2) (r_dead s2) else s2)).
  { intros n it' Hn Hi Ho. do 8 (destruct n as [|n]; [lia|]). cbn [repeat].
    rewrite run_cons. unfold r_step at 1. cbn [r_dead r_it r_max r_pose r_in r_out r_quit r_lock]. rewrite Hi.
    do 5 onestep. apply (Tail (S (S n))); [lia|apply upd_same|]. intros j N. rewrite !upd_other by auto. auto. }
  onestep. destruct (dlt mx (c_score c)); cbn [orb].
  - apply (Write 11); [lia|apply upd_same|]. intros j N. rewrite !upd_other by auto. auto.
  - onestep. destruct (close_to (c_score c) mx); cbn [andb].
    + onestep. destruct (Nat.ltb (length rin) (length (c_in c))).
      * apply (Write 9); [lia|apply upd_same|]. intros j N. rewrite !upd_other by auto. auto.
      * apply (Tail 9 mx po rin rou); [lia|apply upd_same|]. intros j N. rewrite !upd_other by auto. auto.
    + apply (Tail 10 mx po rin rou); [lia|apply upd_same|]. intros j N. rewrite !upd_other by auto. auto.
Qed.

Lemma one_by_one_S n : one_by_one (S n) = one_by_one n ++ repeat n 13.
Proof. unfold one_by_one. rewrite seq_S, map_app, concat_app. cbn [Nat.add map concat]. now rewrite app_nil_r. Qed.

(** state before iteration [n] *)
Record sinv (n : nat) s : Prop := mkSinv {
  v_dead : r_dead s = false;
  v_lock : r_lock s = None;
  v_todo : forall j, n <= j -> r_it s j = IStart;
  v_done : forall j, j < n -> r_it s j = IDone
}.
Lemma sinv_seq n : (forall i, i < n -> eval i <> None) -> sinv n (run (one_by_one n) init).
Proof.
  induction n as [|n IH]; intros Ev.
  - constructor; cbn; auto. lia.
  - destruct (IH ltac:(auto)) as [D L T Dn]. rewrite one_by_one_S, run_app.
    set (s := run (one_by_one n) init) in *.
    destruct (whole_run n s D L (T n (le_n n)) (Ev n ltac:(lia))) as (_ & _ & _ & _ & _ & El & Ei & Ed).
    constructor.
    + rewrite Ed. unfold whole. destruct (r_quit s); [exact D|]. destruct (eval n) as [[c|]|]; [|exact D..].
      cbv zeta. destruct (overload s c), (_ && _); exact D.
    + rewrite El. unfold whole. destruct (r_quit s); [exact L|]. destruct (eval n) as [[c|]|]; [|exact L..].
      cbv zeta. destruct (overload s c), (_ && _); try exact L; reflexivity.
    + intros j Hj. rewrite Ei. assert (N : j <> n) by lia. specialize (T j ltac:(lia)).
      unfold whole. destruct (r_quit s); [unfold goto; cbn; now rewrite upd_other|].
      destruct (eval n) as [[c|]|]; [|unfold goto; cbn; now rewrite upd_other..].
      cbv zeta. destruct (overload s c), (_ && _); unfold goto; cbn; now rewrite upd_other.
    + intros j Hj. rewrite Ei. 
      unfold whole. destruct (Nat.eq_dec j n) as [->|N].
      * destruct (r_quit s); [unfold goto; cbn; now rewrite upd_same|].
        destruct (eval n) as [[c|]|]; [|unfold goto; cbn; now rewrite upd_same..].
        cbv zeta. destruct (overload s c), (_ && _); unfold goto; cbn; now rewrite upd_same.
      * specialize (Dn j ltac:(lia)). destruct (r_quit s); [unfold goto; cbn; now rewrite upd_other|].
        destruct (eval n) as [[c|]|]; [|unfold goto; cbn; now rewrite upd_other..].
        cbv zeta. destruct (overload s c), (_ && _); unfold goto; cbn; now rewrite upd_other.
Qed.

(** ** All matches of one kind: the greatest number of inliers is kept *)
Variable k : fkind.
Hypothesis uniform : forall f, In f matched -> kind f = k.
Hypothesis few : (Z.of_nat (length matched) < 2 ^ 47)%Z.

Lemma eval_cand i c : eval i = Some (Some c) ->
  (forall f, In f (c_in c) -> In f matched) /\ length (c_in c) <= length matched /\ c_score c = set_score kind (c_in c) /\ dlt (c_score c) done = false.
Proof.
  intros H. unfold evaluate in H. destruct (random_subset kind (shuffled i)) as [sub|]; [|discriminate].
  destruct (global_pose kind finite lm current sub) as [p|]; [|discriminate].
  destruct (classify kind inlier p matched) as [[[ins outs] sc]|] eqn:C; [|discriminate].
  assert (NT : forall f, In f matched -> inlier p f <> None).
  { intros f I E. assert (X : classify kind inlier p matched = None) by (apply classify_throws; eauto). congruence. }
  rewrite classify_spec in C by exact NT. injection C as <- <- <-.
  destruct (dlt _ done) eqn:S; [discriminate|]. injection H as <-. cbn. split; [intros f I; now apply filter_In in I|].
  split; [|auto]. clear. induction matched as [|f l IH]; cbn; auto. destruct (holds inlier p f); cbn; lia.
Qed.
Lemma uniform_score l : (forall f, In f l -> In f matched) -> set_score kind l = ksum (repeat k (length l)).
Proof.
  intros H. rewrite set_score_ksum. f_equal. induction l as [|f l IH]; cbn; auto.
  rewrite uniform by (apply H; now left). f_equal. apply IH. intros g I. apply H. now right.
Qed.

Lemma close_refl_done : close_to done done = true.
Proof. vm_compute. reflexivity. Qed.

Lemma keeps_best n :
  (forall i, i < n -> eval i <> None) ->
  let s := run (one_by_one n) init in
  (r_in s = [] /\ r_max s = done /\ forall i c, i < n -> r_quit (run (one_by_one i) init) = false -> eval i <> Some (Some c)) \/
  (r_in s <> [] /\ r_max s = ksum (repeat k (length (r_in s))) /\ length (r_in s) <= length matched /\
   forall i c, i < n -> r_quit (run (one_by_one i) init) = false -> eval i = Some (Some c) -> length (c_in c) <= length (r_in s)).
Proof.
  induction n as [|n IH]; intros Ev; cbn zeta.
  - left. cbn. repeat split; auto. lia.
  - specialize (IH ltac:(auto)). destruct (sinv_seq n ltac:(auto)) as [D L T Dn]. cbn zeta in IH.
    rewrite one_by_one_S, run_app. set (s := run (one_by_one n) init) in *.
    destruct (whole_run n s D L (T n (le_n n)) (Ev n ltac:(lia))) as (Em & _ & Ein & _).
    rewrite Em, Ein. clear Em Ein.
    assert (Keep : r_in (whole n s) = r_in s -> r_max (whole n s) = r_max s ->
      (forall c, r_quit s = false -> eval n = Some (Some c) -> r_in s <> [] /\ length (c_in c) <= length (r_in s)) ->
      (r_in (whole n s) = [] /\ r_max (whole n s) = done /\
        forall i c, i < S n -> r_quit (run (one_by_one i) init) = false -> eval i <> Some (Some c)) \/
      (r_in (whole n s) <> [] /\ r_max (whole n s) = ksum (repeat k (length (r_in (whole n s)))) /\ length (r_in (whole n s)) <= length matched /\
        forall i c, i < S n -> r_quit (run (one_by_one i) init) = false -> eval i = Some (Some c) -> length (c_in c) <= length (r_in (whole n s)))).
    { intros -> -> Hc. destruct IH as [(A & B & C)|(A & B & B' & C)].
      - left. split; auto. split; auto. intros i c Hi Q E. destruct (Nat.eq_dec i n) as [->|N].
        + destruct (Hc c Q E). congruence.
        + exact (C i c ltac:(lia) Q E).
      - right. split; auto. split; auto. split; auto. intros i c Hi Q E. destruct (Nat.eq_dec i n) as [->|N].
        + now destruct (Hc c Q E).
        + exact (C i c ltac:(lia) Q E). }
    unfold whole in *. destruct (r_quit s) eqn:Q.
    { apply Keep; auto. discriminate. }
    destruct (eval n) as [[c|]|] eqn:E.
    2:{ apply Keep; auto. discriminate. }
    2:{ apply Keep; auto. discriminate. }
    destruct (eval_cand n c E) as (Sub & Len & Sc & NS). rewrite (uniform_score _ Sub) in Sc.
    assert (Big : length (c_in c) <> 0). { intros Z. rewrite Z in Sc. rewrite Sc in NS. vm_compute in NS. discriminate. }
    destruct (overload s c) eqn:O.
    + clear Keep. right.
      assert (R : forall (b : bool) (s2 : rstate), r_in (if b then mkR (r_max s2) (r_pose s2) (r_in s2) (r_out s2) true (r_lock s2) (r_it s2) (r_dead s2) else s2) = r_in s2) by (intros []; reflexivity).
      assert (R' : forall (b : bool) (s2 : rstate), r_max (if b then mkR (r_max s2) (r_pose s2) (r_in s2) (r_out s2) true (r_lock s2) (r_it s2) (r_dead s2) else s2) = r_max s2) by (intros []; reflexivity).
      cbv zeta. rewrite R, R'. unfold goto. cbn [r_in r_max].
      split; [intros Z; apply Big; now rewrite Z|]. split; [exact Sc|]. split; [exact Len|].
      intros i c' Hi Qi Ei. destruct (Nat.eq_dec i n) as [->|N]; [assert (c' = c) by congruence; subst; lia|].
      destruct IH as [(A & B & C)|(A & B & B' & C)]; [exfalso; exact (C i c' ltac:(lia) Qi Ei)|].
      specialize (C i c' ltac:(lia) Qi Ei).
      unfold overload in O. rewrite B, Sc, equal_sums_dlt in O by lia.
      apply orb_true_iff in O. destruct O as [O|O].
      * apply Nat.ltb_lt in O. lia.
      * apply andb_true_iff in O. destruct O as [_ O]. apply Nat.ltb_lt in O. lia.
    + cbv zeta in *. apply Keep.
      * now destruct (_ && _).
      * now destruct (_ && _).
      * intros c' _ X. injection X as <-. unfold overload in O. apply orb_false_iff in O. destruct O as [O1 O2].
        destruct IH as [(A & B & C)|(A & B & B' & C)].
        -- exfalso. rewrite A, B in *. cbn [length] in O2.
           (* the score is at least one: either greater, or one *)
           rewrite Sc in O1, O2, NS.
           assert (Z : length (c_in c) <= length matched) by exact Len.
           pose proof (equal_sums k (length (c_in c)) ltac:(lia)) as [Fi _].
           unfold dlt in O1, NS. rewrite Bltb_correct in O1, NS by (auto; apply done_R).
           destruct (Rlt_bool_spec (B2R done) (B2R (ksum (repeat k (length (c_in c)))))) as [|X1]; [discriminate|].
           destruct (Rlt_bool_spec (B2R (ksum (repeat k (length (c_in c))))) (B2R done)) as [|X2]; [discriminate|].
           assert (EqR : B2R (ksum (repeat k (length (c_in c)))) = B2R done) by lra.
           assert (Eq : ksum (repeat k (length (c_in c))) = done).
           { apply B2R_inj; auto; clear - EqR Fi.
             destruct done_R as [X _]. rewrite X in EqR. destruct (ksum _) as [b|b| |b m e h]; cbn in Fi; try discriminate; auto. cbn in EqR. lra. }
           rewrite Eq, close_refl_done in O2. cbn [andb] in O2. apply Nat.ltb_ge in O2. lia.
        -- split; auto. rewrite B, Sc, equal_sums_dlt in O1 by lia. apply Nat.ltb_ge in O1. exact O1.
Qed.
End Seq.

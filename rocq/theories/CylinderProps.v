(** Properties C36, C37 and C62: cylinders. *)
From Coq Require Import Lia ZifyBool ZifyNat Permutation Reals Lra.
From Flocq Require Import Core IEEE754.BinarySingleNaN.
From Verif Require Import PrimitiveModel PrimitiveSpec PrimitiveProps CylinderModel.
Local Open Scope nat_scope.

(** ** Order of the doubles *)
Lemma dlt_trans a b c : dlt a b = true -> dlt b c = true -> dlt a c = true.
Proof.
  assert (forall x y : dbl, is_finite x = true -> is_finite y = true -> dlt x y = true <-> (B2R x < B2R y)%R) as K.
  { intros x y Fx Fy. unfold dlt. rewrite Bltb_correct by assumption. destruct (Rlt_bool_spec (B2R x) (B2R y)); split; intros; try congruence; lra. }
  destruct (is_finite a) eqn:Fa, (is_finite b) eqn:Fb, (is_finite c) eqn:Fc.
  1: rewrite !K by assumption; lra.
  all: unfold dlt, Bltb; destruct a as [sa|sa| |sa ma ea Ha], b as [sb|sb| |sb mb eb Hb], c as [sc|sc| |sc mc ec Hc];
    cbn in Fa, Fb, Fc; try discriminate; repeat match goal with s : bool |- _ => destruct s end; cbn; congruence.
Qed.

Section Fit.
Variable n : nat.
Variable distance : nat * nat * nat -> nat -> dbl.
Variable max_distance : dbl.
Variable start_distance : nat -> dbl.
Variable accepted : nat -> nat.
Notation score := (score n distance max_distance).
Notation ransac_loop := (ransac_loop n distance max_distance accepted).
Notation ransac := (ransac n distance max_distance start_distance accepted).

(** the cells left which are close to the cylinder of a hypothesis *)
Definition close (h : nat * nat * nat) (left : nat -> bool) : list nat :=
  filter (fun i => left i && dlt (distance h i) max_distance) (seq 0 n).
Lemma score_inliers h left : fst (score h left) = close h left.
Proof.
  unfold CylinderModel.score, close. set (f := fun i => left i && dlt (distance h i) max_distance).
  assert (forall l a, fst (fold_left (score_step distance max_distance h left) l a) = fst a ++ filter f l) as G.
  { induction l as [|i l IH]; intros a; [cbn; now rewrite app_nil_r|]. cbn [fold_left filter]. rewrite IH.
    unfold score_step, f. destruct (left i); cbn [negb andb]; [|reflexivity].
    destruct (dlt (distance h i) max_distance); cbn [fst]; [|reflexivity]. now rewrite <- app_assoc. }
  now rewrite G.
Qed.

(** hypothesis given by a draw *)
Definition hypothesis (ids : list nat) (d : nat * nat * nat) : nat * nat * nat :=
  (nth (fst (fst d)) ids 0, nth (snd (fst d)) ids 0, nth (snd d) ids 0).
Definition in_range (m : nat) (d : nat * nat * nat) : Prop := fst (fst d) < m /\ snd (fst d) < m /\ snd d < m.

Lemma nth_error_ok (ids : list nat) a : a < length ids -> nth_error ids a = Some (nth a ids 0).
Proof. intros. now apply nth_error_nth'. Qed.
Lemma loop_step ids left d ds best least : in_range (length ids) d ->
  ransac_loop ids left (d :: ds) best least =
  (let h := hypothesis ids d in
   if dlt (snd (score h left)) least then
     if Nat.ltb (accepted (length ids)) (length best) then Ret (fst (score h left))
     else ransac_loop ids left ds (fst (score h left)) (snd (score h left))
   else ransac_loop ids left ds best least).
Proof.
  destruct d as [[a b] c]. intros (A & B & C). cbn [fst snd] in *. cbn [CylinderModel.ransac_loop].
  rewrite !nth_error_ok by assumption. unfold hypothesis. cbn [fst snd]. destruct (score _ left); reflexivity.
Qed.

(** Result of the loop: the start set, or the cells close to a drawn cylinder, with a
    score smaller than the start value and not greater than the other ones tried; all
    draws are tried unless a set with enough cells was beaten. *)
Lemma loop_spec ids left ds best least :
  Forall (in_range (length ids)) ds ->
  exists r, ransac_loop ids left ds best least = Ret r /\
  ((r = best /\ forall d, In d ds -> dlt (snd (score (hypothesis ids d) left)) least = false) \/
   exists d ds1 ds2, ds = ds1 ++ ds2 /\ In d ds1 /\ r = close (hypothesis ids d) left /\
     dlt (snd (score (hypothesis ids d) left)) least = true /\
     (forall d', In d' ds1 -> dlt (snd (score (hypothesis ids d') left)) (snd (score (hypothesis ids d) left)) = false) /\
     (ds2 = [] \/ accepted (length ids) < length best \/ exists d', In d' ds1 /\ accepted (length ids) < length (close (hypothesis ids d') left))).
Proof.
  assert (forall x, dlt x x = false) as Irr.
  { intros x. destruct (dlt x x) eqn:E; [|reflexivity]. unfold dlt, Bltb in E. destruct x as [s|s| |s m e H]; cbn in E; try discriminate; destruct s; try discriminate;
    rewrite Z.compare_refl, Pos.compare_cont_refl in E; discriminate. }
  revert best least. induction ds as [|d ds IH]; intros best least F.
  - exists best. split; [reflexivity|]. left. split; [reflexivity|]. intros d [].
  - inversion F; subst. rewrite loop_step by assumption. cbv zeta. rewrite score_inliers.
    destruct (dlt (snd (score (hypothesis ids d) left)) least) eqn:D.
    + destruct (Nat.ltb_spec (accepted (length ids)) (length best)) as [Ac|Ac].
      * exists (close (hypothesis ids d) left). split; [reflexivity|]. right. exists d, [d], ds.
        split; [reflexivity|]. split; [now left|]. split; [reflexivity|]. split; [assumption|]. split; [|now right; left].
        intros d' [<-|[]]. apply Irr.
      * destruct (IH (close (hypothesis ids d) left) (snd (score (hypothesis ids d) left)) H2) as (r & E & R).
        exists r. split; [exact E|]. right. destruct R as [[-> R]|(d0 & ds1 & ds2 & -> & I & -> & L & M & Z)].
        -- exists d, (d :: ds), []. split; [now rewrite app_nil_r|]. split; [now left|]. split; [reflexivity|]. split; [assumption|].
           split; [|now left]. intros d' [<-|I]; [apply Irr|now apply R].
        -- exists d0, (d :: ds1), ds2. split; [reflexivity|]. split; [now right|]. split; [reflexivity|].
           split; [now apply dlt_trans with (snd (score (hypothesis ids d) left))|]. split.
           ++ intros d' [<-|I']; [|now apply M]. destruct (dlt (snd (score (hypothesis ids d) left)) (snd (score (hypothesis ids d0) left))) eqn:K; [|reflexivity].
              pose proof (dlt_trans _ _ _ K L) as C. now rewrite Irr in C.
           ++ destruct Z as [Z|[Z|(d' & I' & Z)]]; [now left| |].
              ** right. right. exists d. split; [now left|exact Z].
              ** right. right. exists d'. split; [now right|exact Z].
    + destruct (IH best least H2) as (r & E & R). exists r. split; [exact E|].
      destruct R as [[-> R]|(d0 & ds1 & ds2 & -> & I & -> & L & M & Z)].
      * left. split; [reflexivity|]. intros d' [<-|I]; [assumption|now apply R].
      * right. exists d0, (d :: ds1), ds2. split; [reflexivity|]. split; [now right|]. split; [reflexivity|]. split; [assumption|]. split.
        -- intros d' [<-|I']; [|now apply M]. destruct (dlt (snd (score (hypothesis ids d) left)) (snd (score (hypothesis ids d0) left))) eqn:K; [|reflexivity].
           pose proof (dlt_trans _ _ _ K L). congruence.
        -- destruct Z as [Z|[Z|(d' & I' & Z)]]; [now left|right; now left|].
           right. right. exists d'. split; [now right|exact Z].
Qed.

(** C62: a search returns the cells close to the best of the cylinders tried. *)
Theorem C62_best_cylinder : forall ids left ds,
  3 <= length ids -> Forall (in_range (length ids)) ds ->
  exists r, ransac ids left ds = Ret r /\
  ((r = [] /\ forall d, In d ds -> dlt (snd (score (hypothesis ids d) left)) (start_distance (length ids)) = false) \/
   exists d ds1 ds2, ds = ds1 ++ ds2 /\ In d ds1 /\ r = close (hypothesis ids d) left /\
     (forall d', In d' ds1 -> dlt (snd (score (hypothesis ids d') left)) (snd (score (hypothesis ids d) left)) = false) /\
     (ds2 = [] \/ exists d', In d' ds1 /\ accepted (length ids) < length (close (hypothesis ids d') left))).
Proof.
  intros ids left ds L F. unfold CylinderModel.ransac. destruct (Nat.ltb_spec (length ids) 3); [lia|].
  destruct (loop_spec ids left ds [] (start_distance (length ids)) F) as (r & E & R). exists r. split; [exact E|].
  destruct R as [R|(d & ds1 & ds2 & A & B & C & D & M & Z)]; [now left|right].
  exists d, ds1, ds2. split; [exact A|]. split; [exact B|]. split; [exact C|]. split; [exact M|].
  destruct Z as [Z|[Z|Z]]; [now left|cbn in Z; lia|now right].
Qed.

Variable min_cells : nat.
Variable enough : nat -> bool.
Variable draws : nat -> nat -> list (nat * nat * nat).
Hypothesis draws_ok : forall k m, 0 < m -> Forall (in_range m) (draws k m).
Hypothesis small : (Z.of_nat n < 2 ^ 32)%Z.
Notation parts := (parts n distance max_distance start_distance accepted min_cells enough draws).

Lemma ransac_incl ids left ds : Forall (in_range (length ids)) ds ->
  exists r, ransac ids left ds = Ret r /\ (r = [] \/ exists h, r = close h left).
Proof.
  intros F. unfold CylinderModel.ransac. destruct (Nat.ltb_spec (length ids) 3); [exists []; auto|].
  destruct (loop_spec ids left ds [] (start_distance (length ids)) F) as (r & E & R). exists r. split; [exact E|].
  destruct R as [[R _]|(d & ds1 & ds2 & _ & _ & R & _)]; [now left|right; eauto].
Qed.
Lemma filter_length_le {A} (f : A -> bool) l : length (filter f l) <= length l.
Proof. induction l as [|a l IH]; [reflexivity|]. cbn. destruct (f a); cbn; lia. Qed.
Lemma count_split (f g : nat -> bool) l :
  (forall i, g i = true -> f i = true) ->
  length (filter f l) = length (filter g l) + length (filter (fun i => f i && negb (g i)) l).
Proof.
  intros H. induction l as [|i l IH]; [reflexivity|]. cbn [filter].
  destruct (g i) eqn:G.
  - rewrite (H i G). cbn. lia.
  - destruct (f i); cbn; lia.
Qed.

(** parts made so far: disjoint from the cells left and from each other *)
Definition parts_inv (left : nat -> bool) (groups : list (list nat)) : Prop :=
  disjoint_groups (seq 0 n) groups /\ Forall (fun g => 6 <= length g) groups /\
  Forall (fun g => forall i, In i g -> left i = false) groups.

Lemma parts_ok fuel k ids left count groups :
  ids = filter left (seq 0 n) -> count = Z.of_nat (length ids) -> length ids < fuel ->
  parts_inv left groups ->
  exists groups', parts fuel k ids left count groups = Ret groups' /\ exists left', parts_inv left' groups' /\
    length (filter left' (seq 0 n)) + length (concat groups') = length ids + length (concat groups) /\ exists more, groups' = groups ++ more.
Proof.
  revert k ids left count groups. induction fuel as [|fuel IH]; intros k ids left count groups Ei Ec L I; [lia|].
  cbn [CylinderModel.parts].
  destruct ((Z.of_nat min_cells <? count)%Z && enough (Z.to_nat count)) eqn:G.
  2:{ exists groups. split; [reflexivity|]. exists left. split; [exact I|]. split; [now rewrite <- Ei|]. exists []. now rewrite app_nil_r. }
  assert (0 < length ids) as Pos by lia.
  destruct (ransac_incl ids left (draws k (length ids)) (draws_ok k (length ids) Pos)) as (r & E & R).
  rewrite E. cbn [bind].
  destruct (Nat.ltb_spec (length r) 6) as [S6|S6].
  { exists groups. split; [reflexivity|]. exists left. split; [exact I|]. split; [now rewrite <- Ei|]. exists []. now rewrite app_nil_r. }
  destruct R as [->|(h & ->)]; [cbn in S6; lia|].
  set (final := fun i => existsb (Nat.eqb i) (close h left)). set (group := filter final (seq 0 n)).
  set (left' := fun i => left i && negb (final i)).
  assert (forall i, final i = true <-> In i (close h left)) as Fi.
  { intros i. unfold final. rewrite existsb_exists. split.
    - intros (x & Hx & Ex). apply Nat.eqb_eq in Ex. now subst.
    - intros Hi. exists i. split; [exact Hi|apply Nat.eqb_refl]. }
  assert (group = close h left) as Eg.
  { unfold group, close. apply filter_ext_in. intros i Hi. destruct (left i && dlt (distance h i) max_distance) eqn:K.
    - apply Fi. unfold close. apply filter_In. auto.
    - destruct (final i) eqn:Fq; [|reflexivity]. apply Fi in Fq. unfold close in Fq. apply filter_In in Fq. destruct Fq. congruence. }
  assert (forall i, final i = true -> left i = true) as Fl.
  { intros i Hi. apply Fi in Hi. unfold close in Hi. apply filter_In in Hi. destruct Hi as [_ Hi]. now apply andb_true_iff in Hi. }
  assert (length ids = length group + length (filter left' (seq 0 n))) as Len.
  { rewrite Ei. unfold group, left'. now apply count_split. }
  assert (6 <= length group) as G6 by (rewrite Eg; exact S6).
  assert (length ids <= n) as Ln by (rewrite Ei; etransitivity; [apply filter_length_le|rewrite seq_length; lia]).
  destruct (IH (S k) (filter left' (seq 0 n)) left' ((count - Z.of_nat (length group)) mod 2 ^ 32)%Z (groups ++ [group])) as (groups' & E' & l' & I' & S' & more & M).
  - reflexivity.
  - rewrite Z.mod_small by lia. lia.
  - lia.
  - destruct I as ((D1 & D2) & I6 & Il). split; [split|split].
    + apply Forall_app. split; [exact D1|]. constructor; [|constructor]. split.
      * apply NoDup_filter, seq_NoDup.
      * intros i Hi. unfold group in Hi. now apply filter_In in Hi.
    + intros a b ga gb i Ha Hb Ia Ib.
      assert (forall a ga, nth_error (groups ++ [group]) a = Some ga -> In i ga ->
        (a < length groups /\ nth_error groups a = Some ga /\ left i = false) \/ (a = length groups /\ ga = group /\ left i = true)) as Case.
      { clear - Il Fl. intros a ga Ha Ia. destruct (Nat.lt_ge_cases a (length groups)) as [La|La].
        - left. rewrite nth_error_app1 in Ha by assumption. split; [exact La|]. split; [exact Ha|].
          rewrite Forall_forall in Il. apply (Il ga); [now apply nth_error_In with a|exact Ia].
        - right. rewrite nth_error_app2 in Ha by assumption.
          assert (a - length groups = 0) as Z0. { destruct (a - length groups) as [|q] eqn:Q; [reflexivity|]. cbn in Ha. now destruct q. }
          rewrite Z0 in Ha. cbn in Ha. injection Ha as <-. split; [lia|]. split; [reflexivity|].
          unfold group in Ia. apply filter_In in Ia. now apply Fl. }
      destruct (Case a ga Ha Ia) as [(La & Ha' & Lf)|(Ea & Ga & Lt)], (Case b gb Hb Ib) as [(Lb & Hb' & Lf')|(Eb & Gb & Lt')]; try congruence.
      * exact (D2 a b ga gb i Ha' Hb' Ia Ib).
    + apply Forall_app. split; [exact I6|]. constructor; [exact G6|constructor].
    + apply Forall_app. split.
      * apply Forall_forall. intros g Hg i Hi. rewrite Forall_forall in Il. unfold left'. now rewrite (Il g Hg i Hi).
      * constructor; [|constructor]. intros i Hi. unfold group in Hi. apply filter_In in Hi. unfold left'. destruct Hi as [_ ->]. apply andb_false_r.
  - exists groups'. split; [exact E'|]. exists l'. split; [exact I'|]. split.
    + rewrite S'. rewrite concat_app, app_length. cbn. rewrite app_nil_r. lia.
    + exists (group :: more). rewrite M, <- app_assoc. reflexivity.
Qed.

(** C36: for every group of cells and every draw, the fitting loop ends, without draw out
    of range, and the parts are disjoint sets of at least six cells. *)
Theorem C36_parts : forall cylinder_like,
  exists groups, segment_parts n distance max_distance start_distance accepted min_cells enough draws cylinder_like (S n) = Ret groups /\
    disjoint_groups (seq 0 n) groups /\ Forall (fun g => 6 <= length g) groups /\ 6 * length groups <= n.
Proof.
  intros cylinder_like. unfold segment_parts. destruct cylinder_like.
  2:{ exists []. split; [reflexivity|]. split; [split; [constructor|intros [|a] ? ? ? ? H; discriminate]|]. split; [constructor|cbn; lia]. }
  destruct (parts_ok (S n) 0 (seq 0 n) (fun _ => true) (Z.of_nat n) []) as (groups & E & left & (D & S6 & _) & L & _).
  - symmetry. clear. induction (seq 0 n) as [|a l IH]; [reflexivity|]. cbn. now rewrite IH.
  - now rewrite seq_length.
  - rewrite seq_length. lia.
  - split; [split; [constructor|intros [|a] ? ? ? ? H; discriminate]|split; constructor].
  - exists groups. split; [exact E|]. split; [exact D|]. split; [exact S6|].
    rewrite seq_length in L. cbn [concat length] in L.
    assert (6 * length groups <= length (concat groups)); [|lia].
    clear - S6. induction S6 as [|g l G _ IH]; [cbn; lia|]. cbn [length concat]. rewrite app_length. lia.
Qed.
End Fit.
Print Assumptions C62_best_cylinder.
Print Assumptions C36_parts.

(** C36: in terms of the cells of the grid, whatever the groups given to the extraction:
    this is what the extraction of the planes expects of the cylinders. *)
Lemma nth_inj (act : list nat) i j : NoDup act -> i < length act -> j < length act -> nth i act 0 = nth j act 0 -> i = j.
Proof. intros N I J E. now apply (proj1 (NoDup_nth act 0) N). Qed.
Theorem C36_cells_of_parts : forall act groups,
  NoDup act -> disjoint_groups (seq 0 (length act)) groups -> disjoint_groups act (to_global act groups).
Proof.
  intros act groups N [D1 D2]. unfold to_global. split.
  - apply Forall_map. apply Forall_forall. intros g Hg. rewrite Forall_forall in D1. destruct (D1 g Hg) as [Ng Ig]. split.
    + assert (forall i, In i g -> i < length act) as R by (intros i Hi; apply Ig, in_seq in Hi; lia).
      clear - N Ng R. induction Ng as [|i g Hn Ng IH]; [constructor|]. cbn. constructor.
      * intros H. apply in_map_iff in H. destruct H as (j & E & Hj). apply Hn.
        rewrite <- (nth_inj act j i N); [exact Hj| | |exact E]; apply R; [now right|now left].
      * apply IH. intros j Hj. apply R. now right.
    + intros x Hx. apply in_map_iff in Hx. destruct Hx as (i & <- & Hi). apply nth_In. apply Ig, in_seq in Hi. lia.
  - intros a b ga gb x Ha Hb Ia Ib. rewrite nth_error_map in Ha, Hb.
    destruct (nth_error groups a) as [g1|] eqn:Ea; [|discriminate]. destruct (nth_error groups b) as [g2|] eqn:Eb; [|discriminate].
    cbn in Ha, Hb. injection Ha as <-. injection Hb as <-.
    apply in_map_iff in Ia, Ib. destruct Ia as (i & E1 & I1), Ib as (j & E2 & I2).
    rewrite Forall_forall in D1.
    assert (i < length act) by (destruct (D1 g1 (nth_error_In _ _ Ea)) as [_ Q]; apply Q, in_seq in I1; lia).
    assert (j < length act) by (destruct (D1 g2 (nth_error_In _ _ Eb)) as [_ Q]; apply Q, in_seq in I2; lia).
    assert (i = j) by (apply (nth_inj act); congruence). subst j. exact (D2 a b g1 g2 i Ea Eb I1 I2).
Qed.
Print Assumptions C36_cells_of_parts.

(** ** Examples *)
(** eight cells: the cylinder of cells 0 1 2 is close to the first six, the others to all *)
Definition ex_distance (h : nat * nat * nat) (i : nat) : dbl :=
  match h with (0, 1, 2) => if Nat.ltb i 6 then dzero else done | _ => if Nat.ltb i 2 then dzero else done end.
Definition ex_draws (k m : nat) : list (nat * nat * nat) := [(0, m - 1, 0); (0, 1 mod m, 2 mod m)].
Definition ex_parts :=
  segment_parts 8 ex_distance (ddiv done (d_of_Z 2)) (fun m => d_of_Z (Z.of_nat m)) (fun m => m * 9 / 10) 0 (fun c => Nat.ltb 0 c) ex_draws true 9.
Example C36_example : ex_parts = Ret [[0; 1; 2; 3; 4; 5]] /\ (forall k m, 0 < m -> Forall (in_range m) (ex_draws k m)).
Proof.
  split; [vm_compute; reflexivity|]. intros k m P. unfold ex_draws. pose proof (Nat.mod_upper_bound 1 m). pose proof (Nat.mod_upper_bound 2 m).
  repeat constructor; cbn; lia.
Qed.

(** the extraction of planes with the cylinders of this model: its hypothesis on the
    cylinders is met (a group of 2^32 cells or more is not possible) *)
Definition model_fit (distance : list nat -> nat * nat * nat -> nat -> dbl) (max_distance : dbl) (start_distance : nat -> dbl)
  (accepted : nat -> nat) (min_cells : nat) (enough : nat -> nat -> bool) (draws : list nat -> nat -> nat -> list (nat * nat * nat))
  (cylinder_like : list nat -> bool) (act : list nat) : list (list nat) :=
  if (Z.of_nat (length act) <? 2 ^ 32)%Z then
    match segment_parts (length act) (distance act) max_distance start_distance accepted min_cells (enough (length act)) (draws act) (cylinder_like act) (S (length act)) with
    | Ret groups => to_global act groups
    | _ => []
    end
  else [].
Theorem C36_extraction_with_cylinders : forall distance max_distance start_distance accepted min_cells enough draws cylinder_like H V planar bin,
  (forall act k m, 0 < m -> Forall (in_range m) (draws act k m)) ->
  (Z.of_nat (total H V) < 2 ^ 32)%Z -> (forall i, i < total H V -> planar i = true -> bin i < hist_size) ->
  growth_hyps H V planar (model_fit distance max_distance start_distance accepted min_cells enough draws cylinder_like) bin.
Proof.
  intros distance max_distance start_distance accepted min_cells enough draws cylinder_like H V planar bin D S B.
  split; [exact S|]. split; [exact B|]. intros act N. unfold model_fit.
  destruct (Z.ltb_spec (Z.of_nat (length act)) (2 ^ 32)) as [L|L].
  - destruct (C36_parts (length act) (distance act) max_distance start_distance accepted min_cells (enough (length act)) (draws act) (D act) L (cylinder_like act))
      as (groups & E & G & _).
    rewrite E. now apply C36_cells_of_parts.
  - split; [constructor|]. intros [|a] ? ? ? ? K; discriminate.
Qed.
Print Assumptions C36_extraction_with_cylinders.

(** C62: the early stop looks at the previous set, so that a set with all the cells does
    not end the search: here the second draw replaces it with a smaller set. *)
Definition stop_distance (h : nat * nat * nat) (i : nat) : dbl :=
  match h with (0, 0, 0) => ddiv done (d_of_Z 4) | _ => if Nat.ltb i 7 then dzero else done end.
Theorem C62_stops_when_enough_refuted :
  exists n distance max_distance start_distance accepted ids left d ds,
    let r := ransac n distance max_distance start_distance accepted ids left (d :: ds) in
    ids = filter left (seq 0 n) /\ Forall (in_range (length ids)) (d :: ds) /\
    accepted (length ids) < length (close n distance max_distance (hypothesis ids d) left) /\
    dlt (snd (score n distance max_distance (hypothesis ids d) left)) (start_distance (length ids)) = true /\
    r <> Ret (close n distance max_distance (hypothesis ids d) left).
Proof.
  exists 8, stop_distance, (ddiv done (d_of_Z 2)), (fun m => ddiv (d_of_Z (Z.of_nat m)) (d_of_Z 2)), (fun m => m * 9 / 10), (seq 0 8), (fun _ => true), (0, 0, 0), [(1, 2, 3)].
  cbv zeta. split; [reflexivity|]. split; [repeat constructor|]. split; [apply Nat.leb_le; vm_compute; reflexivity|].
  split; [vm_compute; reflexivity|].
  assert (ransac 8 stop_distance (ddiv done (d_of_Z 2)) (fun m => ddiv (d_of_Z (Z.of_nat m)) (d_of_Z 2)) (fun m => m * 9 / 10) (seq 0 8) (fun _ => true) [(0, 0, 0); (1, 2, 3)]
    = Ret [0; 1; 2; 3; 4; 5; 6]) as -> by (vm_compute; reflexivity).
  replace (close _ _ _ _ _) with (seq 0 8) by (vm_compute; reflexivity). discriminate.
Qed.
Print Assumptions C62_stops_when_enough_refuted.
Example C62_example :
  ransac 8 stop_distance (ddiv done (d_of_Z 2)) (fun m => ddiv (d_of_Z (Z.of_nat m)) (d_of_Z 2)) (fun m => m * 9 / 10) (seq 0 8) (fun _ => true) [(0, 0, 0); (1, 2, 3)]
  = Ret [0; 1; 2; 3; 4; 5; 6] /\ 3 <= length (seq 0 8) /\ Forall (in_range (length (seq 0 8))) [(0, 0, 0); (1, 2, 3)].
Proof. split; [vm_compute; reflexivity|]. split; [cbn; lia|]. repeat constructor. Qed.

(** C37: the radius of every reported cylinder is not a number; its axis is kept. *)
Theorem C37_reported_radius : forall c, reported_radius c = Ret B754_nan /\ c_axis (copy c) = c_axis c.
Proof. intros c. split; [|reflexivity]. unfold reported_radius, shape_radius, copy. cbn [c_count c_radius add_radii bind]. f_equal. Qed.
Print Assumptions C37_reported_radius.

(** mean of radii, summed in order *)
Definition mean_radius (l : list dbl) : dbl := ddiv (fold_left dadd l dzero) (d_of_Z (Z.of_nat (length l))).
Lemma add_radii_all l s : add_radii (length l) l s = Ret (fold_left dadd l s).
Proof. revert s. induction l as [|r l IH]; intros s; [reflexivity|]. cbn. apply IH. Qed.
(** without the copy it would be the mean of the radii of its parts *)
Theorem C37_radius_of_the_original : forall c, c_count c = length (c_radius c) -> shape_radius c = Ret (mean_radius (c_radius c)).
Proof. intros c E. unfold shape_radius. rewrite E, add_radii_all. reflexivity. Qed.
Print Assumptions C37_radius_of_the_original.
Theorem C37_mean_radius_refuted :
  exists c, c_count c = length (c_radius c) /\ c_count c = 2 /\ (exists r, shape_radius c = Ret r /\ B2SF r = B2SF (d_of_Z 2)) /\ reported_radius c <> Ret (mean_radius (c_radius c)).
Proof.
  exists (mkCylinder 2 [done; d_of_Z 3] (dzero, dzero, done)). split; [reflexivity|]. split; [reflexivity|].
  split.
  - eexists. split; [unfold shape_radius; cbn [c_count c_radius add_radii bind]; reflexivity|]. vm_compute. reflexivity.
  - rewrite (proj1 (C37_reported_radius _)). intros E. injection E as E. apply (f_equal is_nan) in E. vm_compute in E. discriminate.
Qed.
Print Assumptions C37_mean_radius_refuted.

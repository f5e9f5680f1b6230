(** Properties C42, C43, C44 and C64: association of the images of a dataset. *)
From Coq Require Import Reals Lra Lia.
From Verif Require Import AssociationModel AssociationSpec.
From Flocq Require Import Core IEEE754.BinarySingleNaN.
Local Open Scope R_scope.

(** ** Doubles *)

Lemma dlt_seconds : forall a b, is_finite a = true -> is_finite b = true -> dlt a b = true <-> seconds a < seconds b.
Proof.
  intros a b A B. unfold dlt, seconds. rewrite Bltb_correct by assumption.
  destruct (Rlt_bool_spec (B2R a) (B2R b)); split; intros; try congruence; lra.
Qed.
Lemma dlt_irrefl : forall a, dlt a a = false.
Proof.
  intros a. destruct (is_finite a) eqn:F.
  - destruct (dlt a a) eqn:E; [|easy]. apply dlt_seconds in E; [lra|easy|easy].
  - unfold dlt, Bltb. destruct a as [s|[|]| |s m e H]; try easy.
Qed.

Notation rnd := (round radix2 (SpecFloat.fexp 53 1024) (round_mode mode_NE)).

Lemma sub_seconds : forall a b, time_stamp a -> time_stamp b ->
  seconds (dsub a b) = rnd (seconds a - seconds b) /\ is_finite (dsub a b) = true.
Proof.
  intros a b [Fa Pa] [Fb Pb]. unfold seconds, dsub in *.
  assert (G := Bminus_correct 53 1024 dprec demax mode_NE a b Fa Fb).
  rewrite Rlt_bool_true in G; [now destruct G as (-> & -> & _)|].
  assert (M : Rabs (B2R a - B2R b) <= Rmax (B2R a) (B2R b)).
  { unfold Rmax. destruct (Rle_dec (B2R a) (B2R b)); apply Rabs_le; lra. }
  assert (Q : Rabs (rnd (B2R a - B2R b)) <= Rmax (B2R a) (B2R b)).
  { apply abs_round_le_generic; [apply fexp_correct; reflexivity|apply valid_rnd_round_mode| |exact M].
    unfold Rmax. destruct (Rle_dec (B2R a) (B2R b)); apply generic_format_B2R. }
  eapply Rle_lt_trans; [exact Q|]. unfold Rmax.
  destruct (Rle_dec (B2R a) (B2R b)); [rewrite <- (Rabs_pos_eq (B2R b)) by lra|rewrite <- (Rabs_pos_eq (B2R a)) by lra]; apply abs_B2R_lt_emax.
Qed.

Lemma add_zero : forall a, time_stamp a -> seconds (dadd a depth_time_offset) = seconds a /\ is_finite (dadd a depth_time_offset) = true.
Proof.
  intros a [Fa Pa]. unfold seconds, dadd in *.
  assert (Z0 : B2R depth_time_offset = 0) by reflexivity.
  assert (G := Bplus_correct 53 1024 dprec demax mode_NE a depth_time_offset Fa eq_refl).
  rewrite Z0, Rplus_0_r in G. rewrite round_generic in G; [|apply valid_rnd_round_mode|apply generic_format_B2R].
  rewrite Rlt_bool_true in G; [now destruct G as (-> & -> & _)|apply abs_B2R_lt_emax].
Qed.

Lemma score_seconds : forall r d, time_stamp r -> time_stamp d ->
  seconds (score r d) = Rabs (rnd (seconds r - seconds d)) /\ is_finite (score r d) = true.
Proof.
  intros r d R D. destruct (add_zero d D) as [E F]. unfold score, dabs.
  destruct (sub_seconds r (dadd d depth_time_offset) R) as [S T].
  - split; [easy|]. rewrite E. apply D.
  - rewrite E in S. split; [|now rewrite is_finite_Babs]. unfold seconds. rewrite B2R_Babs. unfold seconds in S. now rewrite S.
Qed.
Lemma truth_score_seconds : forall A r (d : dbl * A), time_stamp r -> time_stamp (fst d) ->
  seconds (truth_score r d) = Rabs (rnd (seconds r - seconds (fst d))) /\ is_finite (truth_score r d) = true.
Proof.
  intros A r d R D. unfold truth_score, dabs. destruct (sub_seconds r (fst d) R D) as [S T].
  split; [|now rewrite is_finite_Babs]. unfold seconds. rewrite B2R_Babs. unfold seconds in S. now rewrite S.
Qed.

Lemma rnd_mono : forall x y, x <= y -> rnd x <= rnd y.
Proof. intros. apply round_le; [apply fexp_correct; reflexivity|apply valid_rnd_round_mode|easy]. Qed.

(** once out of reach on the right, always out of reach *)
Lemma far_after : forall r a b c m, a <= b -> b <= c ->
  Rabs (rnd (r - a)) < m -> m <= Rabs (rnd (r - b)) -> m <= Rabs (rnd (r - c)).
Proof.
  intros r a b c m AB BC A B. pose proof (rnd_mono (r - b) (r - a) ltac:(lra)). pose proof (rnd_mono (r - c) (r - b) ltac:(lra)).
  unfold Rabs in *. repeat destruct (Rcase_abs _); lra.
Qed.

(** a rounded difference under a double bounds the difference *)
Lemma below_seconds : forall x m, Rabs (rnd x) < seconds m -> Rabs x < seconds m.
Proof.
  intros x m H. destruct (Rlt_le_dec (Rabs x) (seconds m)) as [L|L]; [easy|].
  exfalso. revert H. apply Rle_not_lt.
  apply abs_round_ge_generic; [apply fexp_correct; reflexivity|apply valid_rnd_round_mode|apply generic_format_B2R|easy].
Qed.

(** ** Maps *)

Section Maps.
Context {A : Type}.
Implicit Types m : list (dbl * A).

Lemma same_key_refl : forall k, same_key k k = true.
Proof. intros k. unfold same_key. now rewrite dlt_irrefl. Qed.
Lemma same_key_seconds : forall a b, time_stamp a -> time_stamp b -> same_key a b = true <-> seconds a = seconds b.
Proof.
  intros a b [A0 _] [B0 _]. unfold same_key. rewrite andb_true_iff, !negb_true_iff.
  rewrite <- !not_true_iff_false, !dlt_seconds by easy. lra.
Qed.
Lemma time_map_key : forall m e e', time_map m -> In e m -> In e' m -> seconds (fst e) = seconds (fst e') -> e = e'.
Proof.
  intros m e e' [_ S] I I' E. induction S as [|x m S IH F]; [easy|].
  rewrite Forall_forall in F. destruct I as [<-|I], I' as [<-|I'].
  - easy.
  - specialize (F e' I'). lra.
  - specialize (F e I). lra.
  - now apply IH.
Qed.
Lemma sorted_filter : forall (f : dbl * A -> bool) m, time_map m -> time_map (filter f m).
Proof.
  intros f m [T S]. split.
  - intros e I. apply filter_In in I. now apply T.
  - clear T. induction S as [|x m S IH F]; cbn; [constructor|]. destruct (f x); [|easy].
    constructor; [easy|]. rewrite Forall_forall in *. intros y Y. apply filter_In in Y. now apply F.
Qed.
Lemma time_map_nodup : forall m, time_map m -> NoDup m.
Proof.
  intros m [_ S]. induction S as [|x m S IH F]; constructor; [|easy].
  intros I. rewrite Forall_forall in F. specialize (F x I). lra.
Qed.

Lemma find_key_in : forall m e, time_map m -> In e m -> find_key (fst e) m = Some e.
Proof.
  intros m e T I. unfold find_key. destruct (find (fun e0 => same_key (fst e0) (fst e)) m) as [e'|] eqn:F.
  - f_equal. apply find_some in F. destruct F as [I' K].
    apply same_key_seconds in K; [|now apply T|now apply T]. now apply (time_map_key m).
  - pose proof (find_none _ _ F e I) as N. cbn in N. now rewrite same_key_refl in N.
Qed.
Lemma find_key_out : forall m m0 e, time_map m0 -> incl m m0 -> In e m0 -> ~ In e m -> find_key (fst e) m = None.
Proof.
  intros m m0 e T I I0 N. unfold find_key. destruct (find (fun e0 => same_key (fst e0) (fst e)) m) as [e'|] eqn:F; [|easy].
  apply find_some in F. destruct F as [I' K]. apply same_key_seconds in K; [|apply T; now apply I|now apply T].
  assert (e' = e) as -> by (apply (time_map_key m0); [easy|now apply I|easy|easy]). easy.
Qed.
Lemma erase_key_perm : forall m e, time_map m -> In e m -> Permutation (e :: erase_key (fst e) m) m.
Proof.
  intros m e T I. apply NoDup_Permutation.
  - constructor.
    + unfold erase_key. rewrite filter_In. rewrite same_key_refl. intros [_ H]. discriminate.
    + apply time_map_nodup. now apply sorted_filter.
  - now apply time_map_nodup.
  - intros x. cbn. unfold erase_key. rewrite filter_In. split.
    + intros [<-|[H _]]; easy.
    + intros X. destruct (same_key (fst x) (fst e)) eqn:K.
      * left. apply same_key_seconds in K; [|now apply T|now apply T]. symmetry. now apply (time_map_key m).
      * right. split; [easy|]. reflexivity.
Qed.
Lemma erase_key_map : forall k m, time_map m -> time_map (erase_key k m).
Proof. intros. now apply sorted_filter. Qed.
Lemma erase_key_incl : forall k m, incl (erase_key k m) m.
Proof. intros k m e I. unfold erase_key in I. now apply filter_In in I. Qed.
Lemma in_erase_key : forall m e x, time_map m -> In e m -> In x m -> x <> e -> In x (erase_key (fst e) m).
Proof.
  intros m e x T I X N. apply (Permutation_in x (Permutation_sym (erase_key_perm m e T I))) in X.
  destruct X as [X|X]; [now symmetry in X|easy].
Qed.
End Maps.

(** ** Candidates *)

Section Association.
Context {Path : Type}.
Implicit Types rgbs depths : list (dbl * Path).

Lemma max_finite : is_finite max_difference = true.
Proof. reflexivity. Qed.

Lemma scan_in : forall depths r ready, time_stamp r -> time_map depths ->
  (ready = true -> exists a, time_stamp a /\ dlt (score r a) max_difference = true /\ forall d, In d depths -> seconds a <= seconds (fst d)) ->
  forall k, In k (scan r ready depths) <-> exists d, In d depths /\ k = (r, fst d) /\ dlt (score r (fst d)) max_difference = true.
Proof.
  induction depths as [|[t p] depths IH]; intros r ready R M A k.
  - cbn. split; [easy|]. now intros (d & I & _).
  - destruct M as [T S]. apply StronglySorted_inv in S. destruct S as [S F]. rewrite Forall_forall in F.
    assert (M' : time_map depths) by (split; [intros e I; apply T; now right|easy]).
    pose proof (T (t, p) (or_introl eq_refl)) as Tt. cbn in Tt. cbn [scan].
    destruct (dlt (score r t) max_difference) eqn:L.
    + cbn [In]. rewrite IH; [| easy | easy |].
      * split.
        -- intros [<-|(d & I & E & D)]; [exists (t, p); split; [now left|easy]|exists d; split; [now right|easy]].
        -- intros (d & [<-|I] & E & D); [left; now rewrite E|right; now exists d].
      * intros _. exists t. split; [easy|]. split; [easy|]. intros d I. specialize (F d I). cbn in F. lra.
    + assert (D0 : forall d, In d ((t, p) :: depths) /\ dlt (score r (fst d)) max_difference = true -> In d depths).
      { intros d [[<-|I] D]; [cbn [fst] in D; congruence|easy]. }
      destruct ready eqn:Er.
      * split; [easy|]. intros (d & I & _ & D). exfalso. specialize (D0 d (conj I D)).
        destruct (A eq_refl) as (a & Ta & La & Le).
        destruct (score_seconds r a R Ta) as [Sa Fa]. destruct (score_seconds r t R Tt) as [St Ft].
        destruct (score_seconds r (fst d) R) as [Sd Fd]; [apply T; now right|].
        apply dlt_seconds in La; [|easy|easy]. apply dlt_seconds in D; [|easy|easy].
        assert (Lt : seconds max_difference <= seconds (score r t)).
        { destruct (Rlt_le_dec (seconds (score r t)) (seconds max_difference)) as [X|X]; [|easy].
          apply dlt_seconds in X; [congruence|easy|easy]. }
        rewrite Sa in La. rewrite St in Lt. rewrite Sd in D.
        pose proof (far_after (seconds r) (seconds a) (seconds t) (seconds (fst d)) _ (Le (t, p) (or_introl eq_refl))
          ltac:(specialize (F d D0); cbn in F; lra) La Lt). lra.
      * rewrite IH; [|easy|easy|discriminate]. split.
        -- intros (d & I & E & D). exists d. split; [now right|easy].
        -- intros (d & I & E & D). exists d. split; [now apply D0|easy].
Qed.

(** the early exit of the search loses no pair *)
Lemma candidates_in : forall rgbs depths, time_map rgbs -> time_map depths ->
  forall k, In k (candidates rgbs depths) <->
    exists r d, In r rgbs /\ In d depths /\ k = (fst r, fst d) /\ dlt (score (fst r) (fst d)) max_difference = true.
Proof.
  intros rgbs depths R D k. unfold candidates. rewrite in_flat_map. split.
  - intros (r & I & K). apply scan_in in K; [|now apply R|easy|discriminate]. destruct K as (d & J & E & L). now exists r, d.
  - intros (r & d & I & J & E & L). exists r. split; [easy|]. apply scan_in; [now apply R|easy|discriminate|]. now exists d.
Qed.

(** ** The greedy loop *)

Record inv (rgbs0 depths0 : list (dbl * Path)) (seen : list (dbl * dbl))
  (rgbs depths : list (dbl * Path)) (final : list (data Path)) : Prop := {
  i_rgbs : time_map rgbs; i_depths : time_map depths;
  i_rgb : Permutation (map d_rgb final ++ rgbs) rgbs0;
  i_depth : Permutation (depths_of final ++ depths) depths0;
  i_some : forall f, In f final -> exists d, d_depth f = Some d /\ In (fst (d_rgb f), fst d) seen;
  i_stable : forall before p after, seen = before ++ p :: after ->
    exists f d, In f final /\ d_depth f = Some d /\
      (fst (d_rgb f) = fst p \/ fst d = snd p) /\ In (fst (d_rgb f), fst d) (before ++ [p]) }.

Lemma depths_of_app : forall a b : list (data Path), depths_of (a ++ b) = depths_of a ++ depths_of b.
Proof. intros. apply flat_map_app. Qed.

Lemma step_inv : forall rgbs0 depths0 seen rgbs depths final r d,
  time_map rgbs0 -> time_map depths0 -> In r rgbs0 -> In d depths0 ->
  inv rgbs0 depths0 seen rgbs depths final ->
  let '(rgbs', depths', final') := pair_step (rgbs, depths, final) (fst r, fst d) in
  inv rgbs0 depths0 (seen ++ [(fst r, fst d)]) rgbs' depths' final'.
Proof.
  intros rgbs0 depths0 seen rgbs depths final r d R0 D0 Ir Id [V1 V2 V3 V4 V5 V6].
  assert (Sub : incl rgbs rgbs0) by (intros x X; apply (Permutation_in x V3), in_or_app; now right).
  assert (Sub' : incl depths depths0) by (intros x X; apply (Permutation_in x V4), in_or_app; now right).
  assert (Kept : forall f d', In f final -> d_depth f = Some d' -> (fst (d_rgb f) = fst r \/ fst d' = fst d) ->
    inv rgbs0 depths0 (seen ++ [(fst r, fst d)]) rgbs depths final).
  { intros f d' If Ed Ef. split; try easy.
    - intros f' I'. destruct (V5 f' I') as (d1 & E1 & S1). exists d1. split; [easy|]. apply in_or_app. now left.
    - intros before p after E. destruct (@exists_last _ (p :: after)) as (l & x & El); [discriminate|].
      rewrite El in E. rewrite app_assoc in E. apply app_inj_tail in E. destruct E as [E <-].
      destruct l as [|p' l].
      + cbn in El. injection El as -> ->. rewrite app_nil_r in E. subst before.
        exists f, d'. split; [easy|]. split; [easy|]. split; [easy|].
        destruct (V5 f If) as (d1 & E1 & S1). rewrite Ed in E1. injection E1 as <-. apply in_or_app. now left.
      + cbn in El. injection El as <- ->. now apply (V6 before p l). }
  cbn [pair_step fst snd].
  destruct (find_key (fst r) rgbs) as [[tr pr]|] eqn:Fr.
  - assert (Er : (tr, pr) = r).
    { pose proof Fr as F. unfold find_key in F. apply find_some in F. destruct F as [I K].
      apply same_key_seconds in K; [|now apply R0, Sub|now apply R0]. apply (time_map_key rgbs0); [easy|now apply Sub|easy|easy]. }
    assert (Hr : In r rgbs) by (rewrite <- Er; unfold find_key in Fr; now apply find_some in Fr).
    destruct (find_key (fst d) depths) as [[td pd]|] eqn:Fd.
    + assert (Ed : (td, pd) = d).
      { pose proof Fd as F. unfold find_key in F. apply find_some in F. destruct F as [I K].
        apply same_key_seconds in K; [|now apply D0, Sub'|now apply D0]. apply (time_map_key depths0); [easy|now apply Sub'|easy|easy]. }
      assert (Hd : In d depths) by (rewrite <- Ed; unfold find_key in Fd; now apply find_some in Fd).
      replace (fst r, pr) with r by (rewrite <- Er; reflexivity). replace (fst d, pd) with d by (rewrite <- Ed; reflexivity).
      split.
      * now apply erase_key_map.
      * now apply erase_key_map.
      * rewrite map_app. cbn [map d_rgb]. rewrite <- app_assoc. cbn [app].
        rewrite (erase_key_perm rgbs r V1 Hr). exact V3.
      * rewrite depths_of_app. cbn [depths_of flat_map d_depth app]. rewrite <- app_assoc. cbn [app].
        rewrite (erase_key_perm depths d V2 Hd). exact V4.
      * intros f I. apply in_app_or in I. destruct I as [I|[<-|[]]].
        -- destruct (V5 f I) as (d1 & E1 & S1). exists d1. split; [easy|]. apply in_or_app. now left.
        -- exists d. split; [easy|]. apply in_or_app. right. now left.
      * intros before p after E. destruct (@exists_last _ (p :: after)) as (l & x & El); [discriminate|].
        rewrite El in E. rewrite app_assoc in E. apply app_inj_tail in E. destruct E as [E <-].
        destruct l as [|p' l].
        -- cbn in El. injection El as -> ->. rewrite app_nil_r in E. subst before.
           exists (mkData r (Some d)), d. split; [apply in_or_app; right; now left|]. split; [easy|]. split; [now left|].
           apply in_or_app. right. now left.
        -- cbn in El. injection El as <- ->. destruct (V6 before p l E) as (f & d1 & I1 & X). exists f, d1.
           split; [apply in_or_app; now left|easy].
    + assert (Nd : ~ In d depths) by (intros I; now rewrite (find_key_in depths d V2 I) in Fd).
      pose proof (Permutation_in d (Permutation_sym V4) Id) as I. apply in_app_or in I. destruct I as [I|I]; [|easy].
      unfold depths_of in I. apply in_flat_map in I. destruct I as (f & If & I).
      destruct (d_depth f) as [d'|] eqn:E; [|easy]. destruct I as [<-|[]]. now apply (Kept f d'); [| |right].
  - assert (Nr : ~ In r rgbs) by (intros I; now rewrite (find_key_in rgbs r V1 I) in Fr).
    pose proof (Permutation_in r (Permutation_sym V3) Ir) as I. apply in_app_or in I. destruct I as [I|I]; [|easy].
    apply in_map_iff in I. destruct I as (f & E & If). destruct (V5 f If) as (d1 & E1 & _).
    apply (Kept f d1 If E1). left. now rewrite E.
Qed.

Lemma loop_inv : forall order rgbs0 depths0 seen rgbs depths final,
  time_map rgbs0 -> time_map depths0 ->
  (forall p, In p order -> exists r d, In r rgbs0 /\ In d depths0 /\ p = (fst r, fst d)) ->
  inv rgbs0 depths0 seen rgbs depths final ->
  let '(rgbs', depths', final') := fold_left pair_step order (rgbs, depths, final) in
  inv rgbs0 depths0 (seen ++ order) rgbs' depths' final'.
Proof.
  induction order as [|p order IH]; intros rgbs0 depths0 seen rgbs depths final R D O V.
  - cbn. now rewrite app_nil_r.
  - cbn [fold_left]. destruct (O p (or_introl eq_refl)) as (r & d & Ir & Id & ->).
    pose proof (step_inv rgbs0 depths0 seen rgbs depths final r d R D Ir Id V) as V'.
    destruct (pair_step (rgbs, depths, final) (fst r, fst d)) as [[rgbs1 depths1] final1].
    specialize (IH rgbs0 depths0 (seen ++ [(fst r, fst d)]) rgbs1 depths1 final1 R D
      (fun q I => O q (or_intror I)) V').
    rewrite <- app_assoc in IH. exact IH.
Qed.

Lemma associate_inv : forall rgbs depths order, time_map rgbs -> time_map depths -> sorted_candidates rgbs depths order ->
  exists rgbs' depths' final, inv rgbs depths order rgbs' depths' final /\
    associate order rgbs depths = final ++ map (fun e => mkData e None) rgbs'.
Proof.
  intros rgbs depths order R D [P _].
  assert (V0 : inv rgbs depths [] rgbs depths []).
  { split; try easy. intros before p after E. now destruct before. }
  pose proof (loop_inv order rgbs depths [] rgbs depths [] R D) as L. unfold associate.
  destruct (fold_left pair_step order (rgbs, depths, [])) as [[rgbs' depths'] final].
  exists rgbs', depths', final. split; [|easy]. apply L; [|easy].
  intros p I. apply (Permutation_in p (Permutation_sym P)), candidates_in in I; [|easy|easy].
  destruct I as (r & d & Ir & Id & E & _). now exists r, d.
Qed.

Lemma depths_of_none : forall l, depths_of (map (fun e : dbl * Path => mkData e None) l) = [].
Proof. induction l; cbn; [easy|apply IHl]. Qed.

(** C42: every RGB image is returned exactly once, *)
Theorem C42_every_rgb_once : forall rgbs depths order,
  time_map rgbs -> time_map depths -> sorted_candidates rgbs depths order ->
  Permutation (map d_rgb (associate order rgbs depths)) rgbs.
Proof.
  intros rgbs depths order R D S. destruct (associate_inv rgbs depths order R D S) as (rgbs' & depths' & final & V & ->).
  rewrite map_app, map_map. cbn [d_rgb]. rewrite map_id. apply V.
Qed.

(** each depth image at most once, *)
Theorem C42_depth_at_most_once : forall rgbs depths order,
  time_map rgbs -> time_map depths -> sorted_candidates rgbs depths order ->
  exists unused, Permutation (depths_of (associate order rgbs depths) ++ unused) depths.
Proof.
  intros rgbs depths order R D S. destruct (associate_inv rgbs depths order R D S) as (rgbs' & depths' & final & V & ->).
  exists depths'. rewrite depths_of_app, depths_of_none, app_nil_r. apply V.
Qed.

Lemma pair_close : forall rgbs depths order f d,
  time_map rgbs -> time_map depths -> sorted_candidates rgbs depths order ->
  In f (associate order rgbs depths) -> d_depth f = Some d ->
  In (fst (d_rgb f), fst d) order /\ In (d_rgb f) rgbs /\ In d depths /\ dlt (score (fst (d_rgb f)) (fst d)) max_difference = true.
Proof.
  intros rgbs depths order f d R D S I E.
  assert (Ir : In (d_rgb f) rgbs).
  { apply (Permutation_in _ (C42_every_rgb_once rgbs depths order R D S)). now apply in_map. }
  assert (Id : In d depths).
  { destruct (C42_depth_at_most_once rgbs depths order R D S) as (u & P). apply (Permutation_in _ P), in_or_app. left.
    unfold depths_of. apply in_flat_map. exists f. split; [easy|]. rewrite E. now left. }
  destruct (associate_inv rgbs depths order R D S) as (rgbs' & depths' & final & V & Ea). rewrite Ea in I.
  apply in_app_or in I. destruct I as [I|I].
  - destruct (i_some _ _ _ _ _ _ V f I) as (d' & E' & O). rewrite E in E'. injection E' as <-.
    split; [easy|]. split; [easy|]. split; [easy|]. destruct S as [P _].
    apply (Permutation_in _ (Permutation_sym P)), candidates_in in O; [|easy|easy].
    destruct O as (r & d' & _ & _ & Ep & L). injection Ep as -> ->. exact L.
  - apply in_map_iff in I. destruct I as (e & <- & _). discriminate.
Qed.

(** and paired images are less than 0.15 s apart (0.15 is rounded to a double). *)
Theorem C42_paired_images_are_close : forall rgbs depths order f d,
  time_map rgbs -> time_map depths -> sorted_candidates rgbs depths order ->
  In f (associate order rgbs depths) -> d_depth f = Some d ->
  Rabs (seconds (fst (d_rgb f)) - seconds (fst d)) < 15 / 100 /\ In (d_rgb f) rgbs /\ In d depths.
Proof.
  intros rgbs depths order f d R D S I E. destruct (pair_close rgbs depths order f d R D S I E) as (_ & Ir & Id & L).
  split; [|easy]. destruct (score_seconds (fst (d_rgb f)) (fst d)) as [Sc Fc]; [now apply R|now apply D|].
  apply dlt_seconds in L; [|easy|easy]. rewrite Sc in L. apply below_seconds in L.
  eapply Rlt_le_trans; [exact L|]. unfold seconds, max_difference.
  pose proof (binary_normalize_correct 53 1024 dprec demax mode_NE 5404319552844595 (-55) false) as G. cbv zeta in G.
  assert (Hm : B2R (binary_normalize 53 1024 dprec demax mode_NE 5404319552844595 (-55) false) = F2R (Float radix2 5404319552844595 (-55))) by reflexivity.
  rewrite Hm. unfold F2R. cbn [Fnum Fexp]. change (bpow radix2 (-55)) with (/ IZR (2 ^ 55)). change (2 ^ 55)%Z with 36028797018963968%Z. lra.
Qed.

(** C43: two images close enough to be paired are not both closer to each other than to what
    they were given: one of them has a partner that is at least as close. *)
Theorem C43_stable : forall rgbs depths order r d,
  time_map rgbs -> time_map depths -> sorted_candidates rgbs depths order ->
  In r rgbs -> In d depths -> dlt (score (fst r) (fst d)) max_difference = true ->
  exists f d', In f (associate order rgbs depths) /\ d_depth f = Some d' /\ (d_rgb f = r \/ d' = d) /\
    dlt (score (fst r) (fst d)) (score (fst (d_rgb f)) (fst d')) = false.
Proof.
  intros rgbs depths order r d R D S Ir Id L.
  assert (O : In (fst r, fst d) order).
  { destruct S as [P _]. apply (Permutation_in _ P), candidates_in; [easy|easy|]. now exists r, d. }
  destruct (associate_inv rgbs depths order R D S) as (rgbs' & depths' & final & V & Ea).
  apply in_split in O. destruct O as (before & after & ->).
  destruct (i_stable _ _ _ _ _ _ V before (fst r, fst d) after eq_refl) as (f & d' & If & Ed & C & B).
  assert (If' : In f (associate (before ++ (fst r, fst d) :: after) rgbs depths)) by (rewrite Ea; apply in_or_app; now left).
  destruct (pair_close rgbs depths _ f d' R D S If' Ed) as (_ & Jr & Jd & _).
  exists f, d'. split; [easy|]. split; [easy|]. cbn in C. split.
  - destruct C as [C|C].
    + left. apply (time_map_key rgbs); [easy|easy|easy|]. now rewrite C.
    + right. apply (time_map_key depths); [easy|easy|easy|]. now rewrite C.
  - apply in_app_or in B. destruct B as [B|[B|[]]].
    + destruct S as [_ St]. clear - B St.
      induction before as [|q before IH]; [easy|]. cbn [app] in St. apply StronglySorted_inv in St. destruct St as [St F].
      destruct B as [->|B]; [|now apply IH]. rewrite Forall_forall in F. apply (F (fst r, fst d)). apply in_elt.
    + injection B as -> ->. apply dlt_irrefl.
Qed.

(** so that the RGB images returned alone have all the depth images around them used for
    other images. *)
Theorem C43_images_without_depth : forall rgbs depths order r d,
  time_map rgbs -> time_map depths -> sorted_candidates rgbs depths order ->
  In (mkData r None) (associate order rgbs depths) -> In d depths -> dlt (score (fst r) (fst d)) max_difference = true ->
  exists f, In f (associate order rgbs depths) /\ d_depth f = Some d /\ d_rgb f <> r /\
    dlt (score (fst r) (fst d)) (score (fst (d_rgb f)) (fst d)) = false.
Proof.
  intros rgbs depths order r d R D S I Id L.
  assert (Ir : In r rgbs).
  { apply (Permutation_in _ (C42_every_rgb_once rgbs depths order R D S)). now apply (in_map d_rgb _ (mkData r None)). }
  destruct (C43_stable rgbs depths order r d R D S Ir Id L) as (f & d' & If & Ed & C & X).
  assert (N : d_rgb f <> r).
  { intros E. assert (ND : NoDup (map d_rgb (associate order rgbs depths))).
    { apply (Permutation_NoDup (Permutation_sym (C42_every_rgb_once rgbs depths order R D S))). now apply time_map_nodup. }
    assert (f = mkData r None); [|subst f; discriminate].
    clear - If I ND E. induction (associate order rgbs depths) as [|a l IH]; [easy|].
    cbn in ND. inversion_clear ND as [|? ? N1 N2].
    destruct If as [->|If], I as [->|I]; [easy| | |now apply IH].
    - exfalso. apply N1. rewrite E. now apply (in_map d_rgb _ (mkData r None)).
    - exfalso. apply N1. cbn. rewrite <- E. now apply in_map. }
  destruct C as [C|C]; [easy|]. subst d'. now exists f.
Qed.

(** C44: the comparison used by the second sort is a strict weak order on the frames exactly
    when no two pairs cross. It is then the order of the RGB images. *)
Theorem C44_strict_order_iff_no_crossing : forall rgbs depths order,
  time_map rgbs -> time_map depths -> sorted_candidates rgbs depths order ->
  let frames := associate order rgbs depths in
  ((forall a b, In a frames -> In b frames -> less a b = true -> less b a = false) <->
   (forall a b, In a frames -> In b frames -> ~ crossing a b)) /\
  ((forall a b, In a frames -> In b frames -> ~ crossing a b) ->
   forall a b, In a frames -> In b frames -> less a b = true <-> seconds (fst (d_rgb a)) < seconds (fst (d_rgb b))).
Proof.
  intros rgbs depths order R D S frames.
  assert (Rt : forall a, In a frames -> time_stamp (fst (d_rgb a))).
  { intros a I. apply R, (Permutation_in _ (C42_every_rgb_once rgbs depths order R D S)). now apply in_map. }
  assert (Dt : forall a x, In a frames -> d_depth a = Some x -> time_stamp (fst x)).
  { intros a x I E. destruct (pair_close rgbs depths order a x R D S I E) as (_ & _ & J & _). now apply D. }
  assert (ND : NoDup (map d_rgb frames)).
  { apply (Permutation_NoDup (Permutation_sym (C42_every_rgb_once rgbs depths order R D S))). now apply time_map_nodup. }
  assert (Inj : forall a b, In a frames -> In b frames -> seconds (fst (d_rgb a)) = seconds (fst (d_rgb b)) -> a = b).
  { intros a b Ia Ib E. assert (E' : d_rgb a = d_rgb b).
    { apply (time_map_key rgbs); [easy| | |easy]; apply (Permutation_in _ (C42_every_rgb_once rgbs depths order R D S)); now apply in_map. }
    clear - Ia Ib ND E'. induction frames as [|c l IH]; [easy|]. cbn in ND. inversion_clear ND as [|? ? N1 N2].
    destruct Ia as [->|Ia], Ib as [->|Ib]; [easy| | |now apply IH].
    - exfalso. apply N1. rewrite E'. now apply in_map.
    - exfalso. apply N1. rewrite <- E'. now apply in_map. }
  assert (Lt : forall a b, In a frames -> In b frames ->
    less a b = true <-> seconds (fst (d_rgb a)) < seconds (fst (d_rgb b)) \/
      exists x y, d_depth a = Some x /\ d_depth b = Some y /\ seconds (fst x) < seconds (fst y)).
  { intros a b Ia Ib. unfold less. rewrite orb_true_iff, dlt_seconds by (now apply Rt).
    destruct (d_depth a) as [x|] eqn:Ea; [destruct (d_depth b) as [y|] eqn:Eb|].
    - rewrite dlt_seconds by (first [now apply (Dt a x)|now apply (Dt b y)]). split; (intros [H|H]; [now left|right]).
      + now exists x, y.
      + destruct H as (x' & y' & E1 & E2 & H). congruence.
    - split; (intros [H|H]; [now left|]); [easy|]. destruct H as (x' & y' & E1 & E2 & H). easy.
    - split; (intros [H|H]; [now left|]); [easy|]. destruct H as (x' & y' & E1 & E2 & H). easy. }
  assert (Q : (forall a b, In a frames -> In b frames -> ~ crossing a b) ->
    forall a b, In a frames -> In b frames -> less a b = true <-> seconds (fst (d_rgb a)) < seconds (fst (d_rgb b))).
  { intros N a b Ia Ib. rewrite (Lt a b Ia Ib). split; [|now left]. intros [H|(x & y & Ea & Eb & H)]; [easy|].
    destruct (Rtotal_order (seconds (fst (d_rgb a))) (seconds (fst (d_rgb b)))) as [G|[G|G]]; [easy| |].
    - apply Inj in G; [|easy|easy]. subst b. rewrite Ea in Eb. injection Eb as ->. lra.
    - exfalso. apply (N b a Ib Ia). exists y, x. now repeat split. }
  split; [|exact Q]. split.
  - intros As a b Ia Ib (x & y & Ea & Eb & H1 & H2).
    assert (L1 : less a b = true) by (apply Lt; [easy|easy|now left]).
    assert (L2 : less b a = true) by (apply Lt; [easy|easy|right; now exists y, x]).
    rewrite (As a b Ia Ib L1) in L2. discriminate.
  - intros N a b Ia Ib L. apply not_true_iff_false. intros L'. apply (Q N a b) in L; [|easy|easy]. apply (Q N b a) in L'; [|easy|easy]. lra.
Qed.
End Association.
Print Assumptions C42_every_rgb_once.
Print Assumptions C42_depth_at_most_once.
Print Assumptions C42_paired_images_are_close.
Print Assumptions C43_stable.
Print Assumptions C43_images_without_depth.
Print Assumptions C44_strict_order_iff_no_crossing.

(** ** Ground truth, C64 *)

Section Truth.
Context {Path Pose : Type}.
Implicit Types truths : list (dbl * Pose).
Notation near time g := (dlt (truth_score time g) max_ground_truth_difference).

Lemma max_truth_finite : is_finite max_ground_truth_difference = true.
Proof. reflexivity. Qed.
Lemma max_truth_below : forall s, dlt s max_ground_truth_difference = true -> is_finite s = true -> dlt s dmax = true.
Proof.
  intros s L F. apply dlt_seconds in L; [|easy|easy]. apply dlt_seconds; [easy|easy|].
  eapply Rlt_trans; [exact L|]. apply dlt_seconds; reflexivity.
Qed.

Lemma closest_spec : forall truths time ready best s, time_stamp time -> time_map truths ->
  match best with
  | Some g => time_stamp (fst g) /\ near time g = true /\ s = truth_score time g
  | None => s = dmax
  end ->
  (ready = true <-> best <> None) ->
  (ready = true -> exists a : dbl * Pose, time_stamp (fst a) /\ near time a = true /\
     forall g, In g truths -> seconds (fst a) <= seconds (fst g)) ->
  match closest time ready best s truths with
  | (Some g, s') => s' = truth_score time g /\ (best = Some g \/ In g truths) /\ near time g = true /\
      dlt s s' = false /\ forall g', In g' truths -> near time g' = true -> dlt (truth_score time g') s' = false
  | (None, s') => best = None /\ forall g', In g' truths -> near time g' = false
  end.
Proof.
  induction truths as [|g truths IH]; intros time ready best s T M B Re A.
  - cbn [closest]. destruct best as [b|]; [|easy]. destruct B as (B1 & B2 & B3).
    split; [easy|]. split; [now left|]. split; [easy|]. split; [apply dlt_irrefl|easy].
  - assert (M' : time_map truths).
    { destruct M as [M1 M2]. apply StronglySorted_inv in M2. split; [intros e I; apply M1; now right|easy]. }
    assert (F : forall g', In g' truths -> seconds (fst g) < seconds (fst g')).
    { destruct M as [_ M2]. apply StronglySorted_inv in M2. destruct M2 as [_ M2]. rewrite Forall_forall in M2. exact M2. }
    assert (Tg : time_stamp (fst g)) by (apply M; now left).
    destruct (truth_score_seconds Pose time g T Tg) as [Sg Fg].
    cbn [closest]. destruct (near time g) eqn:N.
    + assert (A' : true = true -> exists a : dbl * Pose, time_stamp (fst a) /\ near time a = true /\
        forall g', In g' truths -> seconds (fst a) <= seconds (fst g')).
      { intros _. exists g. split; [easy|]. split; [exact N|]. intros g' I'. specialize (F g' I'). lra. }
      destruct (dlt (truth_score time g) s) eqn:L.
      * specialize (IH time true (Some g) (truth_score time g) T M' (conj Tg (conj N eq_refl)) ltac:(easy) A').
        destruct (closest time true (Some g) (truth_score time g) truths) as [[g1|] s1]; [|now destruct IH].
        destruct IH as (E & I & N1 & L1 & X). split; [easy|].
        assert (F1 : is_finite s1 = true /\ (In g1 (g :: truths))).
        { destruct I as [I|I].
          - injection I as <-. rewrite E. split; [easy|now left].
          - rewrite E. split; [apply truth_score_seconds; [easy|now apply M']|now right]. }
        destruct F1 as [F1 I1]. split; [now right|]. split; [easy|]. split.
        -- destruct (dlt s s1) eqn:Ls; [|easy]. exfalso.
           assert (dlt (truth_score time g) s1 = true); [|congruence].
           destruct (is_finite s) eqn:Fs.
           ++ apply dlt_seconds in Ls; [|easy|easy]. apply dlt_seconds in L; [|easy|easy]. apply dlt_seconds; [easy|easy|lra].
           ++ destruct best as [b|]; [|now rewrite B in Fs]. destruct B as (B1 & B2 & B3).
              destruct (truth_score_seconds Pose time b T B1) as [_ Fb]. congruence.
        -- intros g' [<-|I'] N'; [easy|now apply X].
      * destruct best as [b|].
        -- specialize (IH time true (Some b) s T M' B ltac:(easy) A').
           destruct (closest time true (Some b) s truths) as [[g1|] s1]; [|now destruct IH].
           destruct IH as (E & I & N1 & L1 & X). split; [easy|].
           split; [destruct I as [I|I]; [now left|right; now right]|]. split; [easy|]. split; [easy|].
           intros g' [<-|I'] N'; [|now apply X].
           destruct (dlt (truth_score time g) s1) eqn:Lg; [|easy]. exfalso.
           destruct B as (B1 & B2 & B3). destruct (truth_score_seconds Pose time b T B1) as [Sb Fb]. subst s.
           assert (F1 : is_finite s1 = true).
           { rewrite E. destruct I as [I|I]; [injection I as <-; easy|apply truth_score_seconds; [easy|now apply M']]. }
           apply dlt_seconds in Lg; [|easy|easy].
           apply not_true_iff_false in L. rewrite dlt_seconds in L by easy.
           apply not_true_iff_false in L1. rewrite dlt_seconds in L1 by easy. lra.
        -- exfalso. subst s. pose proof (max_truth_below _ N Fg). congruence.
    + destruct ready eqn:Er.
      * assert (Bn : best <> None) by now apply Re.
        destruct (A eq_refl) as (a & Ta & La & Le).
        assert (Far : forall g', In g' truths -> near time g' = false).
        { intros g' I'. apply not_true_iff_false. intros N'.
          assert (Tg' : time_stamp (fst g')) by (now apply M').
          destruct (truth_score_seconds Pose time g' T Tg') as [Sg' Fg'].
          destruct (truth_score_seconds Pose time a T Ta) as [Sa Fa].
          apply dlt_seconds in N'; [|easy|easy]. rewrite Sg' in N'.
          apply dlt_seconds in La; [|easy|easy]. rewrite Sa in La.
          apply not_true_iff_false in N. rewrite dlt_seconds in N by easy. rewrite Sg in N.
          pose proof (far_after (seconds time) (seconds (fst a)) (seconds (fst g)) (seconds (fst g')) (seconds max_ground_truth_difference)
            (Le g (or_introl eq_refl)) ltac:(specialize (F g' I'); lra) La ltac:(lra)). lra. }
        destruct best as [b|]; [|easy]. destruct B as (B1 & B2 & B3). split; [easy|]. split; [now left|]. split; [easy|].
        split; [rewrite B3; apply dlt_irrefl|]. intros g' [<-|I'] N'; [congruence|]. rewrite (Far g' I') in N'. discriminate.
      * assert (best = None) as ->. { destruct best; [|easy]. exfalso. assert (false = true) by now apply Re. easy. }
        specialize (IH time false None s T M' B Re ltac:(discriminate)).
        destruct (closest time false None s truths) as [[g1|] s1].
        -- destruct IH as (E & I & N1 & L1 & X). split; [easy|]. split; [right; right; now destruct I|]. split; [easy|]. split; [easy|].
           intros g' [<-|I'] N'; [congruence|now apply X].
        -- destruct IH as [_ X]. split; [easy|]. intros g' [<-|I']; [easy|now apply X].
Qed.

Definition given (l : list (option (dbl * Pose))) : list (dbl * Pose) :=
  flat_map (fun o => match o with Some g => [g] | None => [] end) l.

(** C64: each ground truth pose is attached to at most one frame, and each frame, in their
    order, receives the closest of the poses not attached yet among those less than 0.05 s
    away, and nothing only when there is none. *)
Theorem C64_closest_ground_truth : forall truths (frames : list (data Path)),
  time_map truths -> (forall f, In f frames -> time_stamp (fst (d_rgb f))) ->
  let attached := attach truths frames in
  length attached = length frames /\
  (exists unused, Permutation (given attached ++ unused) truths) /\
  forall k f, nth_error frames k = Some f ->
    let left g := In g truths /\ ~ In g (given (firstn k attached)) in
    match nth_error attached k with
    | Some (Some g) => left g /\ near (fst (d_rgb f)) g = true /\
        (forall g', left g' -> near (fst (d_rgb f)) g' = true ->
           dlt (truth_score (fst (d_rgb f)) g') (truth_score (fst (d_rgb f)) g) = false)
    | Some None => forall g', left g' -> near (fst (d_rgb f)) g' = false
    | None => False
    end.
Proof.
  intros truths frames. revert truths. induction frames as [|f frames IH]; intros truths M Tf attached.
  - split; [easy|]. split; [exists truths; easy|]. intros [|k] f' E; discriminate.
  - assert (T : time_stamp (fst (d_rgb f))) by (apply Tf; now left).
    assert (Tf' : forall f', In f' frames -> time_stamp (fst (d_rgb f'))) by (intros f' I'; apply Tf; now right).
    pose proof (closest_spec truths (fst (d_rgb f)) false None dmax T M eq_refl ltac:(easy) ltac:(discriminate)) as C.
    subst attached. cbn [attach]. destruct (closest (fst (d_rgb f)) false None dmax truths) as [[g|] s].
    + destruct C as (-> & I & N & L & X). destruct I as [I|I]; [discriminate|].
      assert (Fg : is_finite (truth_score (fst (d_rgb f)) g) = true) by (apply truth_score_seconds; [easy|now apply M]).
      rewrite (max_truth_below _ N Fg).
      destruct (IH (erase_key (fst g) truths) (erase_key_map _ _ M) Tf') as (IL & (u & IP) & IK).
      split; [cbn; now rewrite IL|]. split.
      * exists u. cbn [given flat_map app]. apply perm_trans with (g :: erase_key (fst g) truths); [now constructor|now apply erase_key_perm].
      * intros [|k] f' E.
        -- cbn in E. injection E as <-. cbn [nth_error firstn]. split; [split; [easy|now intros []]|]. split; [easy|].
           intros g' [I' _] N'. now apply X.
        -- cbn [nth_error] in *. specialize (IK k f' E). cbn [firstn]. cbv zeta in *.
           set (at_ := attach (erase_key (fst g) truths) frames) in *.
           assert (Eq : forall g', In g' truths /\ ~ In g' (given (Some g :: firstn k at_)) <->
                        In g' (erase_key (fst g) truths) /\ ~ In g' (given (firstn k at_))).
           { intros g'. cbn [given flat_map app In]. split.
             - intros [I' N']. split; [|tauto]. apply in_erase_key; [easy|easy|easy|]. intros ->. tauto.
             - intros [I' N']. split; [now apply erase_key_incl in I'|]. intros [<-|H]; [|easy].
               unfold erase_key in I'. apply filter_In in I'. destruct I' as [_ I']. now rewrite same_key_refl in I'. }
           destruct (nth_error at_ k) as [[h|]|]; [|intros g' I'; now apply IK, Eq|easy].
           destruct IK as (K1 & K2 & K3). split; [now apply Eq|]. split; [easy|]. intros g' I'. now apply K3, Eq.
    + destruct C as [_ X]. destruct (IH truths M Tf') as (IL & (u & IP) & IK).
      split; [cbn; now rewrite IL|]. split; [now exists u|]. intros [|k] f' E.
      * cbn in E. injection E as <-. cbn [nth_error]. intros g' [I' _]. now apply X.
      * cbn [nth_error] in *. exact (IK k f' E).
Qed.

(** the poses attached are less than 0.05 s away (rounded to a double, a little more) *)
Theorem C64_attached_is_close : forall truths (frames : list (data Path)) k f g,
  time_map truths -> (forall f, In f frames -> time_stamp (fst (d_rgb f))) ->
  nth_error frames k = Some f -> nth_error (attach truths frames) k = Some (Some g) ->
  In g truths /\ Rabs (seconds (fst (d_rgb f)) - seconds (fst g)) < seconds max_ground_truth_difference.
Proof.
  intros truths frames k f g M Tf E G. destruct (C64_closest_ground_truth truths frames M Tf) as (_ & _ & K).
  specialize (K k f E). cbv zeta in K. rewrite G in K. destruct K as ((I & _) & N & _). split; [easy|].
  assert (T : time_stamp (fst (d_rgb f))) by (apply Tf; now apply nth_error_In in E).
  destruct (truth_score_seconds Pose (fst (d_rgb f)) g T) as [S F]; [now apply M|].
  apply dlt_seconds in N; [|easy|easy]. rewrite S in N. now apply below_seconds.
Qed.
End Truth.
Print Assumptions C64_closest_ground_truth.
Print Assumptions C64_attached_is_close.

(** ** Examples *)

(** [k] / 64 seconds *)
Definition tick (k : positive) : dbl := binary_normalize 53 1024 dprec demax mode_NE (Zpos k) (-6) false.
Lemma tick_seconds : forall k, (Zpos k < 2 ^ 53)%Z -> is_finite (tick k) = true /\ seconds (tick k) = IZR (Zpos k) / 64.
Proof.
  intros k K. unfold tick, seconds.
  pose proof (binary_normalize_correct 53 1024 dprec demax mode_NE (Zpos k) (-6) false) as G. cbv zeta in G.
  assert (Ef : F2R (Float radix2 (Zpos k) (-6)) = IZR (Zpos k) / 64).
  { unfold F2R. cbn [Fnum Fexp]. change (bpow radix2 (-6)) with (/ IZR (2 ^ 6)). change (2 ^ 6)%Z with 64%Z. unfold Rdiv. reflexivity. }
  assert (Gf : generic_format radix2 (SpecFloat.fexp 53 1024) (F2R (Float radix2 (Zpos k) (-6)))).
  { apply generic_format_FLT. exists (Float radix2 (Zpos k) (-6)); [reflexivity| |cbn; lia]. cbn [Fnum]. change (Z.pow radix2 53) with (2 ^ 53)%Z. rewrite Z.abs_eq by lia. exact K. }
  rewrite round_generic in G; [|apply valid_rnd_round_mode|exact Gf].
  assert (Hlt : Rabs (F2R (Float radix2 (Zpos k) (-6))) < bpow radix2 1024).
  { rewrite Ef. rewrite Rabs_pos_eq by (apply Rmult_le_pos; [apply IZR_le; lia|lra]).
    apply Rlt_trans with (bpow radix2 53); [|apply bpow_lt; lia].
    change (bpow radix2 53) with (IZR 9007199254740992). apply IZR_lt in K. change (2 ^ 53)%Z with 9007199254740992%Z in K.
    assert (0 < IZR (Zpos k)) by (apply IZR_lt; lia). lra. }
  rewrite (Rlt_bool_true _ _ Hlt) in G. destruct G as (G1 & G2 & _). split; [exact G2|]. rewrite G1. exact Ef.
Qed.

Definition ticks (l : list positive) : list (dbl * nat) := combine (map tick l) (seq 0 (length l)).
Lemma ticks_map : forall l, StronglySorted (fun a b => (a < b)%positive) l -> Forall (fun a => (Zpos a < 2 ^ 53)%Z) l -> time_map (ticks l).
Proof.
  intros l S B. unfold ticks. generalize (seq 0 (length l)) as ns.
  induction S as [|x l S IH F]; intros ns.
  - split; [easy|constructor].
  - inversion_clear B as [|? ? B1 B2]. destruct ns as [|n ns]; [split; [easy|constructor]|].
    cbn [map combine]. destruct (IH B2 ns) as [T U]. destruct (tick_seconds x B1) as [Fx Sx].
    split.
    + intros e [<-|I]; [|now apply T]. split; [easy|]. cbn [fst]. rewrite Sx. assert (0 < IZR (Zpos x)) by (apply IZR_lt; lia). lra.
    + constructor; [easy|]. rewrite Forall_forall in *. intros [t m] I. cbn [fst]. apply in_combine_l in I.
      apply in_map_iff in I. destruct I as (y & <- & Y). destruct (tick_seconds y (B2 y Y)) as [_ Sy]. rewrite Sx, Sy.
      specialize (F y Y). assert (IZR (Zpos x) < IZR (Zpos y)) by (apply IZR_lt; lia). lra.
Qed.

(** RGB images at 1 s, 1 s + 1/64 and 2 s; depth images at 1 s + 2/64 and 1 s + 6/64. The
    second RGB image takes the first depth image, the first RGB image takes the second depth
    image, and the third has none. *)
Definition rgbs_example := ticks [64; 65; 128]%positive.
Definition depths_example := ticks [66; 70]%positive.
Definition order_example : list (dbl * dbl) :=
  [(tick 65, tick 66); (tick 64, tick 66); (tick 65, tick 70); (tick 64, tick 70)].
Lemma example_maps : time_map rgbs_example /\ time_map depths_example.
Proof. split; apply ticks_map; repeat constructor; lia. Qed.
Lemma example_candidates : candidates rgbs_example depths_example =
  [(tick 64, tick 66); (tick 64, tick 70); (tick 65, tick 66); (tick 65, tick 70)].
Proof.
  unfold candidates, rgbs_example, depths_example, ticks. cbn [length seq map combine flat_map scan fst app].
  rewrite (eq_refl : dlt (score (tick 64) (tick 66)) max_difference = true),
          (eq_refl : dlt (score (tick 64) (tick 70)) max_difference = true),
          (eq_refl : dlt (score (tick 65) (tick 66)) max_difference = true),
          (eq_refl : dlt (score (tick 65) (tick 70)) max_difference = true),
          (eq_refl : dlt (score (tick 128) (tick 66)) max_difference = false),
          (eq_refl : dlt (score (tick 128) (tick 70)) max_difference = false). reflexivity.
Qed.
Lemma example_sorted : sorted_candidates rgbs_example depths_example order_example.
Proof.
  split.
  - rewrite example_candidates. unfold order_example.
    apply perm_trans with [(tick 64, tick 66); (tick 65, tick 66); (tick 64, tick 70); (tick 65, tick 70)]; [apply perm_skip, perm_swap|].
    apply perm_trans with [(tick 65, tick 66); (tick 64, tick 66); (tick 64, tick 70); (tick 65, tick 70)]; [apply perm_swap|].
    apply perm_skip, perm_skip, perm_swap.
  - unfold order_example. repeat constructor.
Qed.
Example C42_example : associate order_example rgbs_example depths_example =
  [mkData (tick 65, 1%nat) (Some (tick 66, 0%nat)); mkData (tick 64, 0%nat) (Some (tick 70, 1%nat)); mkData (tick 128, 2%nat) None].
Proof.
  unfold associate, order_example, rgbs_example, depths_example, ticks.
  cbn [length seq map combine fold_left pair_step fst snd find_key erase_key find filter].
  Ltac decide_keys := repeat match goal with
    |- context [same_key (tick ?a) (tick ?b)] =>
      let v := eval vm_compute in (same_key (tick a) (tick b)) in
      replace (same_key (tick a) (tick b)) with v by (vm_compute; reflexivity); cbn [negb filter find fold_left pair_step fst snd find_key erase_key app map]
    end.
  decide_keys. reflexivity.
Qed.
Lemma example_frame : forall f, In f (associate order_example rgbs_example depths_example) -> time_stamp (fst (d_rgb f)).
Proof.
  intros f I. destruct example_maps as [R D]. apply R.
  apply (Permutation_in _ (C42_every_rgb_once _ _ _ R D example_sorted)). now apply in_map.
Qed.

(** C44 is false in general: here are frames of a dataset that the comparison puts each
    before the other. *)
Theorem C44_strict_order_refuted :
  exists (rgbs depths : list (dbl * nat)) order a b,
    time_map rgbs /\ time_map depths /\ sorted_candidates rgbs depths order /\
    In a (associate order rgbs depths) /\ In b (associate order rgbs depths) /\ less a b = true /\ less b a = true.
Proof.
  destruct example_maps as [R D].
  exists rgbs_example, depths_example, order_example, (mkData (tick 64, 0%nat) (Some (tick 70, 1%nat))), (mkData (tick 65, 1%nat) (Some (tick 66, 0%nat))).
  split; [exact R|]. split; [exact D|]. split; [exact example_sorted|]. rewrite C42_example.
  split; [now right; left|]. split; [now left|]. split; vm_compute; reflexivity.
Qed.
Print Assumptions C44_strict_order_refuted.

(** the frames of two RGB images and their two depth images do not cross in general *)
Example C44_hypothesis : forall a b : data nat,
  In a [mkData (tick 64, 0%nat) (Some (tick 65, 0%nat)); mkData (tick 80, 1%nat) (Some (tick 81, 1%nat))] ->
  In b [mkData (tick 64, 0%nat) (Some (tick 65, 0%nat)); mkData (tick 80, 1%nat) (Some (tick 81, 1%nat))] -> ~ crossing a b.
Proof.
  intros a b Ia Ib (x & y & Ea & Eb & H1 & H2).
  destruct (tick_seconds 64 ltac:(lia)) as [_ S1], (tick_seconds 65 ltac:(lia)) as [_ S2], (tick_seconds 80 ltac:(lia)) as [_ S3], (tick_seconds 81 ltac:(lia)) as [_ S4].
  destruct Ia as [<-|[<-|[]]], Ib as [<-|[<-|[]]]; cbn [d_depth d_rgb fst] in *; injection Ea as <-; injection Eb as <-; cbn [fst] in *; lra.
Qed.

(** ground truth at 1 s + 1/64 and 3 s: the first frame of the list takes the first pose, the
    two others have none *)
Example C64_example :
  attach (ticks [65; 192]%positive) (associate order_example rgbs_example depths_example) = [Some (tick 65, 0%nat); None; None].
Proof.
  rewrite C42_example. unfold ticks. cbn [length seq map combine].
  Ltac decide_scores := repeat match goal with
    | |- context [dlt (truth_score (tick ?a) (tick ?b, ?p)) max_ground_truth_difference] =>
      let t := constr:(dlt (truth_score (tick a) (tick b, p)) max_ground_truth_difference) in
      let v := eval vm_compute in t in replace t with v by (vm_compute; reflexivity); cbn [closest attach d_rgb fst erase_key filter negb]
    | |- context [dlt (truth_score (tick ?a) (tick ?b, ?p)) dmax] =>
      let t := constr:(dlt (truth_score (tick a) (tick b, p)) dmax) in
      let v := eval vm_compute in t in replace t with v by (vm_compute; reflexivity); cbn [closest attach d_rgb fst erase_key filter negb]
    | |- context [same_key (tick ?a) (tick ?b)] =>
      let t := constr:(same_key (tick a) (tick b)) in
      let v := eval vm_compute in t in replace t with v by (vm_compute; reflexivity); cbn [closest attach d_rgb fst erase_key filter negb]
    end.
  cbn [closest attach d_rgb fst]. decide_scores. reflexivity.
Qed.

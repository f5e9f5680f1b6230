(** Proofs about the growth of the regions of the line segment detector. *)
From Verif Require Import LsdSpec.
From Coq Require Import Reals ZArith List Bool Lia Lra ZifyBool ZifyNat Permutation.
Import ListNotations.
Local Open Scope R_scope.

Lemma rle_spec a b : reflect (a <= b) (rle a b).
Proof. unfold rle. destruct (Rle_dec a b); constructor; auto. Qed.
Lemma rlt_spec a b : reflect (a < b) (rlt a b).
Proof. unfold rlt. destruct (Rlt_dec a b); constructor; auto. Qed.
Lemma pixel_eqb_spec p q : reflect (p = q) (pixel_eqb p q).
Proof.
  destruct p as [a b], q as [c d]. unfold pixel_eqb; cbn.
  destruct (Z.eqb_spec a c); [destruct (Z.eqb_spec b d)|]; constructor; congruence.
Qed.
Lemma pixel_dec (p q : pixel) : {p = q} + {p <> q}.
Proof. decide equality; apply Z.eq_dec. Qed.

Lemma abs_le_inv a b : Rabs a <= b -> - b <= a <= b.
Proof. unfold Rabs. destruct (Rcase_abs a); lra. Qed.

(** ** Ranges *)
Lemma zseq_in a n x : In x (zseq a n) <-> (a <= x < a + Z.of_nat n)%Z.
Proof. revert a. induction n as [|n IH]; intros a; cbn [zseq In]; [lia|]. rewrite IH. lia. Qed.
Lemma zrange_in a b x : In x (zrange a b) <-> (a <= x <= b)%Z.
Proof. unfold zrange. rewrite zseq_in. lia. Qed.
Lemma zseq_nodup a n : NoDup (zseq a n).
Proof. revert a. induction n as [|n IH]; intros a; cbn; constructor; auto. rewrite zseq_in. lia. Qed.
Lemma zseq_length a n : length (zseq a n) = n.
Proof. revert a. induction n; cbn; intros; auto. Qed.
Lemma pixels_of_in x0 x1 y0 y1 p :
  In p (pixels_of x0 x1 y0 y1) <-> (x0 <= fst p <= x1 /\ y0 <= snd p <= y1)%Z.
Proof.
  unfold pixels_of. rewrite in_flat_map. split.
  - intros (y & Y & H). apply in_map_iff in H as (x & <- & X). apply zrange_in in X, Y. cbn. lia.
  - intros [X Y]. exists (snd p). split; [apply zrange_in; lia|]. apply in_map_iff. exists (fst p).
    split; [symmetry; apply surjective_pairing | apply zrange_in; lia].
Qed.
Lemma pixels_of_length x0 x1 y0 y1 :
  length (pixels_of x0 x1 y0 y1) = (Z.to_nat (x1 - x0 + 1) * Z.to_nat (y1 - y0 + 1))%nat.
Proof.
  unfold pixels_of, zrange. remember (Z.to_nat (y1 - y0 + 1)) as n. clear. revert y0.
  induction n as [|n IH]; intros y0; cbn; [lia|]. rewrite app_length, IH, map_length, zseq_length. lia.
Qed.
Lemma pixels_of_nodup x0 x1 y0 y1 : NoDup (pixels_of x0 x1 y0 y1).
Proof.
  unfold pixels_of, zrange. remember (Z.to_nat (y1 - y0 + 1)) as n. clear. revert y0.
  induction n as [|n IH]; intros y0; cbn [zseq flat_map]; [constructor|].
  assert (D : forall (l1 l2 : list pixel), NoDup l1 -> NoDup l2 -> (forall p, In p l1 -> ~ In p l2) -> NoDup (l1 ++ l2)).
  { induction l1 as [|a l1 IH1]; intros l2 N1 N2 A; cbn; auto. inversion N1; subst. constructor.
    - rewrite in_app_iff. intros [H|H]; [tauto|]. apply (A a); cbn; auto.
    - apply IH1; auto. intros p P. apply A. cbn. auto. }
  apply D; auto.
  - apply FinFun.Injective_map_NoDup; [intros u v E; congruence | apply zseq_nodup].
  - intros p P Q. apply in_map_iff in P as (x & <- & _). apply in_flat_map in Q as (y & Y & Q).
    apply in_map_iff in Q as (x' & E & _). apply zseq_in in Y. injection E as _ E. lia.
Qed.

(** ** Alignment *)
Lemma near_angle_sym e a b : near_angle e a b -> near_angle e b a.
Proof.
  intros [k K]. exists (- k)%Z. rewrite opp_IZR.
  replace (b - a + 2 * PI * - IZR k) with (- (a - b + 2 * PI * IZR k)) by ring. rewrite Rabs_Ropp. exact K.
Qed.
Lemma near_angle_cases e a b :
  0 <= a < 2 * PI -> 0 <= b < 2 * PI -> e < PI ->
  near_angle e a b <-> (Rabs (a - b) <= e \/ 2 * PI - Rabs (a - b) <= e).
Proof.
  intros A B E. pose proof PI_RGT_0 as P. split.
  - intros [k K]. apply abs_le_inv in K.
    assert (k = -1 \/ k = 0 \/ k = 1)%Z as C.
    { assert (-2 < k < 2)%Z; [|lia]. split; apply lt_IZR; nra. }
    destruct C as [-> | [-> | ->]]; unfold Rabs; destruct (Rcase_abs (a - b)); lra.
  - intros [H | H].
    + exists 0%Z. replace (a - b + 2 * PI * IZR 0) with (a - b) by ring. exact H.
    + unfold Rabs in H. destruct (Rcase_abs (a - b)).
      * exists 1%Z. apply Rabs_le. lra.
      * exists (-1)%Z. apply Rabs_le. lra.
Qed.
Lemma is_aligned_near f q t prec :
  sound_field f -> 0 <= t < 2 * PI -> prec < PI / 2 ->
  is_aligned f q t prec = true <-> f_angle f q <> None /\ near_angle prec (angle_at f q) t.
Proof.
  intros S T E. pose proof PI_RGT_0 as P. unfold is_aligned, angle_at.
  destruct (f_angle f q) as [a|] eqn:A.
  - destruct (S q a A) as (X & Y & RA & _).
    destruct ((fst q <? 0)%Z || (snd q <? 0)%Z || (f_cols f <=? fst q)%Z || (f_rows f <=? snd q)%Z) eqn:B; [lia|].
    rewrite (near_angle_cases prec a t RA T) by lra.
    assert ((if rlt (t - a) 0 then - (t - a) else t - a) = Rabs (a - t)) as ->.
    { destruct (rlt_spec (t - a) 0); unfold Rabs; destruct (Rcase_abs (a - t)); lra. }
    assert (0 <= Rabs (a - t) < 2 * PI) as G.
    { split; [apply Rabs_pos|]. apply Rabs_def1; lra. }
    destruct (rlt_spec (3 * PI / 2) (Rabs (a - t))).
    + destruct (rlt_spec (Rabs (a - t) - 2 * PI) 0) as [L|L]; [|lra].
      destruct (rle_spec (- (Rabs (a - t) - 2 * PI)) prec) as [H|H].
      * split; [intros _; split; [discriminate|right; lra] | auto].
      * split; [discriminate|]. intros (_ & [H' | H']); lra.
    + destruct (rle_spec (Rabs (a - t)) prec) as [H|H].
      * split; [intros _; split; [discriminate|left; lra] | auto].
      * split; [discriminate|]. intros (_ & [H' | H']); lra.
  - destruct ((fst q <? 0)%Z || (snd q <? 0)%Z || (f_cols f <=? fst q)%Z || (f_rows f <=? snd q)%Z);
      (split; [discriminate | intros [H _]; congruence]).
Qed.

(** ** Growth *)
Lemma sum_app l m : sum (l ++ m) = sum l + sum m.
Proof. unfold sum. induction l as [|a l IH]; cbn; [ring|]. rewrite IH. ring. Qed.

Section Growth.
Variable fa : R -> R -> R.
Variable f : field.
Variable used : pixel -> bool.
Variable s : pixel.
Variable prec : R.
Hypothesis SF : sound_field f.
Hypothesis SA : f_angle f s <> None.
Hypothesis SU : used s = false.

Lemma region_angle_range reg : in_degrees fa -> reg <> [] -> (forall p, In p reg -> f_angle f p <> None) -> 0 <= region_angle fa f reg < 2 * PI.
Proof.
  intros FA N A. pose proof PI_RGT_0 as P.
  assert (G : forall y x, 0 <= fa y x * (PI / 180) < 2 * PI) by (intros y x; destruct (FA y x); split; nra).
  destruct reg as [|p [|q t]]; [congruence| |apply G]. cbn.
  specialize (A p (or_introl eq_refl)). unfold angle_at. destruct (f_angle f p) as [a|] eqn:E; [|congruence].
  apply (SF p a E).
Qed.
(** The state of the growth, [done] being the pixels already examined around [p]. *)
Definition refused (reg : list pixel) (u : pixel -> bool) (p q : pixel) : Prop :=
  u q = true \/ f_angle f q = None \/
  exists before after, reg = before ++ after /\ In p before /\ is_aligned f q (region_angle fa f before) prec = false.
Record inv (st : growth) : Prop := {
  i_seed : exists t, g_reg st = s :: t;
  i_once : NoDup (g_reg st);
  i_free : forall p, In p (g_reg st) -> used p = false /\ f_angle f p <> None;
  i_used : forall q, g_used st q = true <-> used q = true \/ In q (g_reg st);
  i_angle : g_angle st = region_angle fa f (g_reg st);
  i_dx : g_dx st = sum (map (fun p => cos (angle_at f p)) (g_reg st));
  i_dy : g_dy st = sum (map (fun p => sin (angle_at f p)) (g_reg st));
  i_step : forall before q after, g_reg st = before ++ q :: after -> before <> [] ->
    (exists p, In p before /\ adjacent p q) /\ is_aligned f q (region_angle fa f before) prec = true }.

Lemma is_aligned_defined q t e : is_aligned f q t e = true -> f_angle f q <> None.
Proof.
  unfold is_aligned. destruct (_ || _ || _ || _); [discriminate|]. destruct (f_angle f q); [discriminate|discriminate].
Qed.
Lemma mark_true u p q : mark u p true q = true <-> u q = true \/ q = p.
Proof. unfold mark. destruct (pixel_eqb_spec q p); [subst|]; intuition. Qed.

Lemma inv_seed : inv (seed_growth f used s).
Proof.
  constructor; cbn.
  - eauto.
  - repeat constructor. intros [].
  - intros p [<- | []]. auto.
  - intros q. rewrite mark_true. intuition.
  - reflexivity.
  - ring.
  - ring.
  - intros before q after E N. destruct before as [|b before]; [congruence|]. cbn in E. injection E as _ E.
    destruct before; discriminate.
Qed.
Lemma reg_not_nil st : inv st -> g_reg st <> [].
Proof. intros I. destruct (i_seed _ I) as [t ->]. discriminate. Qed.

Lemma refused_more reg u p q reg' u' ext :
  reg' = reg ++ ext -> (forall x, u x = true -> u' x = true) -> refused reg u p q -> refused reg' u' p q.
Proof.
  intros -> M [H | [H | (b & a & E & P & N)]]; [left; auto | right; left; auto|].
  right. right. exists b, (a ++ ext). rewrite E, app_assoc. auto.
Qed.
Lemma region_angle_snoc reg q : reg <> [] ->
  region_angle fa f (reg ++ [q]) =
  fa (sum (map (fun p => sin (angle_at f p)) reg) + sin (angle_at f q)) (sum (map (fun p => cos (angle_at f p)) reg) + cos (angle_at f q)) * (PI / 180).
Proof.
  intros N. unfold region_angle. destruct reg as [|a [|b t]]; [congruence| |].
  - cbn. rewrite !Rplus_0_r. reflexivity.
  - cbn [app]. f_equal. f_equal; [set (h := fun p => sin (angle_at f p)) | set (h := fun p => cos (angle_at f p))];
      change (a :: b :: t ++ [q]) with ((a :: b :: t) ++ [q]); rewrite map_app, sum_app; subst h; cbn; ring.
Qed.

Lemma try_pixel_inv st p q :
  inv st -> In p (g_reg st) -> q = p \/ adjacent p q ->
  let st' := try_pixel fa f prec st q in
  inv st' /\ (exists ext, g_reg st' = g_reg st ++ ext) /\ (forall x, g_used st x = true -> g_used st' x = true) /\
  refused (g_reg st') (g_used st') p q.
Proof.
  intros I P A. pose proof (reg_not_nil st I) as N. unfold try_pixel.
  destruct (g_used st q) eqn:U; cbn [negb andb].
  { split; [exact I|]. split; [exists []; symmetry; apply app_nil_r|]. split; [auto|]. left. exact U. }
  destruct (is_aligned f q (g_angle st) prec) eqn:IA.
  - pose proof (is_aligned_defined _ _ _ IA) as D.
    assert (Q : ~ In q (g_reg st)).
    { intros H. assert (g_used st q = true) by (apply (i_used _ I); auto). congruence. }
    assert (UQ : used q = false).
    { destruct (used q) eqn:UQ; auto. assert (g_used st q = true) by (apply (i_used _ I); auto). congruence. }
    cbn zeta. split; [|cbn [g_reg g_used]; split; [eauto|]; split; [intros x X; apply mark_true; auto | left; apply mark_true; auto]].
    constructor; cbn [g_reg g_used g_angle g_dx g_dy].
    + destruct (i_seed _ I) as [t ->]. exists (t ++ [q]). reflexivity.
    + apply (Permutation_NoDup (l := q :: g_reg st)); [apply Permutation_cons_append|]. constructor; auto. apply (i_once _ I).
    + intros x X. apply in_app_iff in X as [X | [<- | []]]; [apply (i_free _ I x X) | auto].
    + intros x. rewrite mark_true, in_app_iff, (i_used _ I). cbn.
      split; [intros [[H | H] | ->] | intros [H | [H | [-> | []]]]]; auto.
    + rewrite region_angle_snoc by auto. rewrite <- (i_dx _ I), <- (i_dy _ I). reflexivity.
    + rewrite map_app, sum_app, (i_dx _ I). cbn. ring.
    + rewrite map_app, sum_app, (i_dy _ I). cbn. ring.
    + intros b x a E B.
      destruct (exists_last (l := x :: a)) as (a' & z & E'); [discriminate|].
      destruct a' as [|y a'].
      * cbn in E'. injection E' as -> ->. apply app_inj_tail in E as [<- <-]. split.
        { exists p. split; auto. destruct A as [-> | A]; auto. contradiction. }
        rewrite <- (i_angle _ I). exact IA.
      * rewrite E', app_assoc in E. apply app_inj_tail in E as [E _].
        cbn in E'. injection E' as -> E'. exact (i_step _ I b y a' E B).
  - split; [exact I|]. split; [exists []; symmetry; apply app_nil_r|]. split; [auto|].
    right. destruct (f_angle f q) as [a|] eqn:D; [right|left; reflexivity].
    exists (g_reg st), []. split; [symmetry; apply app_nil_r|]. split; [exact P|].
    rewrite <- (i_angle _ I). exact IA.
Qed.
Lemma visit_inv st p l :
  inv st -> In p (g_reg st) -> (forall q, In q l -> q = p \/ adjacent p q) ->
  let st' := fold_left (try_pixel fa f prec) l st in
  inv st' /\ (exists ext, g_reg st' = g_reg st ++ ext) /\ (forall x, g_used st x = true -> g_used st' x = true) /\
  (forall q, In q l -> refused (g_reg st') (g_used st') p q).
Proof.
  revert st. induction l as [|q l IH]; intros st I P A; cbn [fold_left].
  { split; [exact I|]. split; [exists []; symmetry; apply app_nil_r|]. split; [auto|]. intros q []. }
  destruct (try_pixel_inv st p q I P (A q (or_introl eq_refl))) as (I' & (ext & E) & M & R).
  assert (P' : In p (g_reg (try_pixel fa f prec st q))) by (rewrite E; apply in_app_iff; auto).
  destruct (IH _ I' P' (fun x X => A x (or_intror X))) as (I2 & (ext2 & E2) & M2 & R2).
  split; [exact I2|]. split; [exists (ext ++ ext2); rewrite E2, E, app_assoc; reflexivity|]. split; [auto|].
  intros x [<- | X]; [|auto]. eapply refused_more; [exact E2 | exact M2 | exact R].
Qed.
Lemma neighbours_in p q : In q (neighbours f p) <->
  ((0 <= fst q < f_cols f /\ 0 <= snd q < f_rows f) /\ (q = p \/ adjacent p q))%Z.
Proof.
  unfold neighbours. rewrite pixels_of_in. unfold adjacent. split.
  - intros H. split; [lia|]. destruct (pixel_dec q p); [auto|right]. repeat split; try lia. congruence.
  - intros [H [-> | (_ & A)]]; lia.
Qed.
Definition visited (i : nat) (st : growth) : Prop :=
  forall k p q, (k < i)%nat -> nth_error (g_reg st) k = Some p -> adjacent p q -> f_angle f q <> None ->
    refused (g_reg st) (g_used st) p q.

Lemma bounded st : inv st -> (length (g_reg st) <= Z.to_nat (f_cols f * f_rows f))%nat.
Proof.
  intros I. assert (SS : incl (g_reg st) (pixels_of 0 (f_cols f - 1) 0 (f_rows f - 1))).
  { intros p P. destruct (i_free _ I p P) as [_ D]. destruct (f_angle f p) as [a|] eqn:A; [|congruence].
    destruct (SF p a A) as (X & Y & _). apply pixels_of_in. lia. }
  pose proof (NoDup_incl_length (i_once _ I) SS) as L. rewrite pixels_of_length in L.
  assert (0 < f_cols f /\ 0 < f_rows f)%Z.
  { destruct (f_angle f s) as [a|] eqn:A; [|congruence]. destruct (SF s a A) as (X & Y & _). lia. }
  rewrite <- Z2Nat.inj_mul in L by lia. replace (f_cols f - 1 - 0 + 1)%Z with (f_cols f) in L by lia.
  replace (f_rows f - 1 - 0 + 1)%Z with (f_rows f) in L by lia. exact L.
Qed.

Lemma grow_loop_inv fuel i st :
  inv st -> visited i st -> (i <= length (g_reg st))%nat -> (Z.to_nat (f_cols f * f_rows f) < fuel + i)%nat ->
  exists st', grow_loop fa fuel f prec i st = Some st' /\ inv st' /\ visited (length (g_reg st')) st'.
Proof.
  revert i st. induction fuel as [|fuel IH]; intros i st I V L F.
  { pose proof (bounded st I). lia. }
  cbn [grow_loop]. destruct (nth_error (g_reg st) i) as [p|] eqn:E.
  - assert (P : In p (g_reg st)) by (apply nth_error_In in E; exact E).
    assert (A : forall q, In q (neighbours f p) -> q = p \/ adjacent p q) by (intros q Q; apply neighbours_in in Q; tauto).
    destruct (visit_inv st p (neighbours f p) I P A) as (I' & (ext & X) & M & R).
    set (st' := fold_left (try_pixel fa f prec) (neighbours f p) st) in *.
    assert (LI : (i < length (g_reg st))%nat) by (apply nth_error_Some; congruence).
    apply IH; auto; [| rewrite X, app_length; lia | lia].
    intros k p' q K N D AN. destruct (Nat.eq_dec k i) as [->|NK].
    + rewrite X, nth_error_app1 in N by lia. rewrite E in N. injection N as <-. apply R.
      apply neighbours_in. split; [|right; exact D].
      destruct (f_angle f q) as [a|] eqn:AQ; [|congruence]. destruct (SF q a AQ) as (? & ? & _). lia.
    + rewrite X, nth_error_app1 in N by lia. eapply refused_more; [exact X | exact M |]. apply (V k p' q); auto. lia.
  - exists st. split; [reflexivity|]. split; [exact I|]. apply nth_error_None in E.
    replace (length (g_reg st)) with i by lia. exact V.
Qed.

Lemma region_grow_inv :
  exists g, region_grow fa f used s prec = Some g /\ inv g /\ visited (length (g_reg g)) g.
Proof.
  unfold region_grow.
  destruct (grow_loop_inv (grow_fuel f) 0 (seed_growth f used s) inv_seed) as (g & E & I & V).
  - intros k p q K. lia.
  - lia.
  - unfold grow_fuel. lia.
  - eauto.
Qed.
Lemma region_grow_ok :
  in_degrees fa -> prec < PI / 2 ->
  exists g, region_grow fa f used s prec = Some g /\ grown fa f used s prec (g_reg g) /\
    g_angle g = region_angle fa f (g_reg g) /\
    (forall q, g_used g q = true <-> used q = true \/ In q (g_reg g)).
Proof.
  intros FA PR. destruct region_grow_inv as (g & E & I & V).
  exists g. split; [exact E|]. split; [|split; [apply (i_angle _ I) | apply (i_used _ I)]].
  assert (AL : forall before after q, g_reg g = before ++ after -> before <> [] ->
     is_aligned f q (region_angle fa f before) prec = true <-> f_angle f q <> None /\ near_angle prec (angle_at f q) (region_angle fa f before)).
  { intros before after q EQ N. apply is_aligned_near; auto. apply region_angle_range; auto.
    intros p P. apply (i_free _ I p). rewrite EQ. apply in_app_iff. auto. }
  destruct I as [S1 O F U A DX DY ST]. constructor; auto.
  - intros before q after EQ N. destruct (ST before q after EQ N) as [H1 H2]. split; [exact H1|].
    apply (AL before (q :: after) q EQ N). exact H2.
  - intros p q P AD AN NI. apply In_nth_error in P as [k K].
    destruct (V k p q) as [H | [H | (b & a & E1 & E2 & E3)]]; auto.
    + apply nth_error_Some. congruence.
    + left. apply U in H. tauto.
    + right. exists b, a. split; [exact E1|]. split; [exact E2|]. intros NE.
      assert (is_aligned f q (region_angle fa f b) prec = true); [|congruence].
      apply (AL b a q E1); auto. intros ->. contradiction.
Qed.
End Growth.

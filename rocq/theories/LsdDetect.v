(** Proofs about the detection of line segments in an image. *)
From Verif Require Import LsdSpec LsdGrow LsdRect.
From Coq Require Import Reals ZArith List Bool Lia Lra ZifyBool Permutation Sorted.
Import ListNotations.
Local Open Scope R_scope.

Lemma grown_two fa f used s prec reg : (2 <= length reg)%nat -> grown fa f used s prec reg ->
  exists p q, In p reg /\ In q reg /\ p <> q.
Proof.
  intros L G. pose proof (grown_once _ _ _ _ _ _ G) as N. destruct reg as [|p [|q t]]; cbn in L; try lia.
  exists p, q. cbn. inversion N as [|? ? H]; subst. cbn in H. repeat split; auto.
Qed.
Lemma grown_norm fa f used s prec reg p : sound_field f -> grown fa f used s prec reg -> In p reg -> 0 < f_norm f p.
Proof.
  intros SF G P. destruct (grown_free _ _ _ _ _ _ G p P) as [_ D]. destruct (f_angle f p) as [a|] eqn:A; [|congruence].
  apply (SF p a A).
Qed.

Section Search.
Variables (fa : R -> R -> R) (f : field) (prec density_th : R) (min_size : Z) (fuel : nat).
Variable strength : pixel -> Z.
Hypothesis FA : in_degrees fa.
Hypothesis SF : sound_field f.
Hypothesis PR : prec < PI / 2.
Hypothesis MS : (2 <= min_size)%Z.

Definition big (reg : list pixel) : bool := (min_size <=? Z.of_nat (length reg))%Z.
Record state_ok (seen rest : list pixel) (st : search) (parts : list (list pixel)) : Prop := {
  s_once : NoDup (concat parts);
  s_def : forall p, In p (concat parts) -> f_angle f p <> None;
  s_seen : forall p, In p seen -> f_angle f p <> None -> In p (concat parts);
  s_marked : forall q, s_used st q = true <-> In q (concat parts);
  s_grown : forall before reg after, parts = before ++ reg :: after ->
    exists s used, grown fa f used s prec reg /\ (forall q, used q = true <-> In q (concat before)) /\
      forall q, f_angle f q <> None -> ~ In q (concat before) -> (strength q <= strength s)%Z;
  s_regions : map fst (s_found st) = filter big parts;
  s_rects : forall reg r, In (reg, r) (s_found st) -> region2rect fa f reg (region_angle fa f reg) prec = Some r }.

Lemma concat_snoc {A} (l : list (list A)) x : concat (l ++ [x]) = concat l ++ x.
Proof. rewrite concat_app. cbn. rewrite app_nil_r. reflexivity. Qed.
Lemma nodup_app {A} (l m : list A) : NoDup l -> NoDup m -> (forall x, In x l -> ~ In x m) -> NoDup (l ++ m).
Proof.
  induction l as [|a l IH]; intros N1 N2 D; cbn; auto. inversion N1; subst. constructor.
  - rewrite in_app_iff. intros [H|H]; [tauto|]. apply (D a); cbn; auto.
  - apply IH; auto. intros p P. apply D. cbn. auto.
Qed.
Lemma seed_step seen s rest st parts :
  (forall p, f_angle f p <> None -> In p (seen ++ s :: rest)) ->
  (forall p, In p rest -> (strength p <= strength s)%Z) ->
  state_ok seen (s :: rest) st parts ->
  exists st' parts', try_seed fa fuel false f prec density_th min_size (Some st) s = Some st' /\
    state_ok (seen ++ [s]) rest st' parts'.
Proof.
  intros ALL STR [O D SN M G RG RC]. cbn [try_seed].
  assert (SN' : forall ps, (f_angle f s <> None -> In s (concat ps)) -> (forall p, In p (concat parts) -> In p (concat ps)) ->
            forall p, In p (seen ++ [s]) -> f_angle f p <> None -> In p (concat ps)).
  { intros ps H1 H2 p P DP. apply in_app_iff in P as [P | [<- | []]]; auto. }
  destruct (s_used st s) eqn:U; [|destruct (f_angle f s) as [a|] eqn:A].
  - exists st, parts. split; [reflexivity|]. constructor; auto. apply SN'; auto. intros _. apply M. exact U.
  - assert (DA : f_angle f s <> None) by congruence.
    destruct (region_grow_ok fa f (s_used st) s prec SF DA U FA PR) as (g & E & GR & GA & GU). rewrite E.
    assert (NEW : forall p, In p (g_reg g) -> ~ In p (concat parts)).
    { intros p P Q. apply M in Q. destruct (grown_free _ _ _ _ _ _ GR p P). congruence. }
    assert (S1 : In s (g_reg g)) by (destruct (grown_seed _ _ _ _ _ _ GR) as [t ->]; left; reflexivity).
    assert (ORD : forall q, f_angle f q <> None -> ~ In q (concat parts) -> (strength q <= strength s)%Z).
    { intros q Q NQ. pose proof (ALL q Q) as H. apply in_app_iff in H as [H | [<- | H]]; [|lia|auto].
      exfalso. apply NQ. apply SN; auto. }
    assert (OK : forall fnd, map fst fnd = filter big (parts ++ [g_reg g]) ->
       (forall reg r, In (reg, r) fnd -> region2rect fa f reg (region_angle fa f reg) prec = Some r) ->
       state_ok (seen ++ [s]) rest (mkSearch (g_used g) fnd) (parts ++ [g_reg g])).
    { intros fnd H1 H2. constructor; cbn [s_used s_found]; auto.
      - rewrite concat_snoc. apply nodup_app; auto; [apply (grown_once _ _ _ _ _ _ GR)|].
        intros x X1 X2. exact (NEW x X2 X1).
      - intros p P. rewrite concat_snoc in P. apply in_app_iff in P as [P | P]; auto. apply (grown_free _ _ _ _ _ _ GR p P).
      - apply SN'; rewrite concat_snoc; intros; apply in_app_iff; auto.
      - intros q. rewrite GU, concat_snoc, in_app_iff, M. reflexivity.
      - intros before reg after EQ. destruct (exists_last (l := reg :: after)) as (a' & z & E'); [discriminate|].
        rewrite E', app_assoc in EQ. apply app_inj_tail in EQ as [EQ1 EQ2].
        destruct a' as [|y a'].
        + cbn in E'. injection E' as -> ->. rewrite app_nil_r in EQ1. subst before z. exists s, (s_used st). auto.
        + cbn in E'. injection E' as <- E'. apply (G before reg a'). exact EQ1. }
    destruct (Z.ltb_spec (Z.of_nat (length (g_reg g))) min_size) as [L|L].
    + exists (mkSearch (g_used g) (s_found st)), (parts ++ [g_reg g]). split; [reflexivity|]. apply OK; auto.
      rewrite filter_app. cbn [filter]. unfold big at 2. destruct (Z.leb_spec min_size (Z.of_nat (length (g_reg g)))); [lia|].
      rewrite app_nil_r. exact RG.
    + destruct (region2rect fa f (g_reg g) (g_angle g) prec) as [r|] eqn:RR.
      * exists (mkSearch (g_used g) (s_found st ++ [(g_reg g, r)])), (parts ++ [g_reg g]). split; [reflexivity|]. apply OK.
        { etransitivity; [apply map_app|]. etransitivity; [apply f_equal2; [exact RG | reflexivity]|].
          rewrite filter_app. cbn [filter map fst]. unfold big at 3.
          destruct (Z.leb_spec min_size (Z.of_nat (length (g_reg g)))); [reflexivity|lia]. }
        intros reg r' I. apply in_app_iff in I as [I | [I | []]]; auto. injection I as <- <-. rewrite <- GA. exact RR.
      * exfalso. revert RR. apply region2rect_defined.
        { intros p P. eapply grown_norm; eauto. }
        eapply grown_two; [|exact GR]. lia.
  - exists st, parts. split; [reflexivity|]. constructor; auto. apply SN'; auto. intros H. congruence.
Qed.
Lemma seeds_ok rest : forall seen st parts,
  (forall p, f_angle f p <> None -> In p (seen ++ rest)) ->
  StronglySorted (fun p q => (strength q <= strength p)%Z) rest ->
  state_ok seen rest st parts ->
  exists st' parts', fold_left (try_seed fa fuel false f prec density_th min_size) rest (Some st) = Some st' /\
    state_ok (seen ++ rest) [] st' parts'.
Proof.
  induction rest as [|s rest IH]; intros seen st parts ALL SS OK.
  - exists st, parts. rewrite app_nil_r. auto.
  - apply StronglySorted_inv in SS as [SS HD]. rewrite Forall_forall in HD.
    destruct (seed_step seen s rest st parts ALL HD OK) as (st' & parts' & E & OK').
    cbn [fold_left]. rewrite E.
    assert (ALL' : forall p, f_angle f p <> None -> In p ((seen ++ [s]) ++ rest)).
    { intros p P. rewrite <- app_assoc. apply ALL. exact P. }
    destruct (IH (seen ++ [s]) st' parts' ALL' SS OK') as (st2 & parts2 & E2 & OK2).
    exists st2, parts2. rewrite <- app_assoc in OK2. auto.
Qed.
Lemma search_ok order :
  (forall p, f_angle f p <> None -> In p order) ->
  StronglySorted (fun p q => (strength q <= strength p)%Z) order ->
  exists st parts, fold_left (try_seed fa fuel false f prec density_th min_size) order (Some (mkSearch (fun _ => false) [])) = Some st /\
    segmentation fa f strength prec parts /\ map fst (s_found st) = filter big parts /\
    (forall reg r, In (reg, r) (s_found st) -> region2rect fa f reg (region_angle fa f reg) prec = Some r).
Proof.
  intros ALL SS.
  destruct (seeds_ok order [] (mkSearch (fun _ => false) []) []) as (st & parts & E & OK); auto.
  - constructor; cbn; try tauto; try constructor; try discriminate; try tauto. intros before reg after H. destruct before; discriminate.
  - exists st, parts. destruct OK as [O D SN M G RG RC]. split; [exact E|]. split; [|auto].
    constructor; auto. intros p. split; auto.
Qed.
End Search.

(** ** The field of an image *)
Lemma gradient_norm_nonneg im p : 0 <= gradient_norm im p.
Proof. unfold gradient_norm. destruct (gradient im p). apply sqrt_pos. Qed.
Lemma pixel_angle_defined fa im t p : pixel_angle fa im t p <> None ->
  (0 <= fst p < cols im - 1 /\ 0 <= snd p < rows im - 1)%Z /\ t < gradient_norm im p.
Proof.
  unfold pixel_angle. destruct (gradient im p) as [gx gy].
  destruct ((0 <=? fst p)%Z && (fst p <? cols im - 1)%Z && (0 <=? snd p)%Z && (snd p <? rows im - 1)%Z) eqn:B; [|congruence].
  destruct (rle_spec (gradient_norm im p) t); [congruence|]. intros _. split; [lia|lra].
Qed.
Lemma ll_field_sound fa im t : in_degrees fa -> 0 <= t -> sound_field (ll_field fa im t).
Proof.
  intros FA T p a A. cbn in *. pose proof (pixel_angle_defined fa im t p) as D. rewrite A in D.
  destruct D as [B N]; [congruence|]. split; [lia|]. split; [lia|]. split; [|lra].
  unfold pixel_angle in A. destruct (gradient im p) as [gx gy].
  destruct ((0 <=? fst p)%Z && (fst p <? cols im - 1)%Z && (0 <=? snd p)%Z && (snd p <? rows im - 1)%Z); [|congruence].
  destruct (rle (gradient_norm im p) t); [congruence|]. injection A as <-. unfold to_radians.
  pose proof (FA (IZR gx) (- IZR gy)). pose proof PI_RGT_0. split; [|].
  - apply Rmult_le_pos; lra.
  - replace (2 * PI) with (360 * (PI / 180)) by field. apply Rmult_lt_compat_r; lra.
Qed.
Lemma inner_pixels_in im p : In p (inner_pixels im) <-> (0 <= fst p < cols im - 1 /\ 0 <= snd p < rows im - 1)%Z.
Proof. unfold inner_pixels. rewrite pixels_of_in. lia. Qed.
Lemma sorted_pixels sort im t n :
  sorts sort ->
  let order := map fst (sort (binned_points im t n)) in
  (forall p, In p order <-> In p (inner_pixels im)) /\
  StronglySorted (fun p q => (bin_of im t n q <= bin_of im t n p)%Z) order.
Proof.
  intros S. cbn zeta. destruct (S (binned_points im t n)) as [P SS]. split.
  - intros p. rewrite in_map_iff. split.
    + intros ((q & k) & <- & I). apply Permutation_sym in P. apply (Permutation_in _ P) in I.
      unfold binned_points in I. apply in_map_iff in I as (u & E & I). injection E as <- _. exact I.
    + intros I. exists (p, bin_of im t n p). split; [reflexivity|]. apply (Permutation_in _ P).
      unfold binned_points. apply in_map_iff. eauto.
  - assert (B : Forall (fun x => snd x = bin_of im t n (fst x)) (sort (binned_points im t n))).
    { apply Forall_forall. intros x X. apply Permutation_sym in P. apply (Permutation_in _ P) in X.
      unfold binned_points in X. apply in_map_iff in X as (u & <- & _). reflexivity. }
    clear P S. induction SS as [|x l SS IH F]; cbn; [constructor|]. inversion B as [|? ? B1 B2]; subst.
    constructor; [auto|]. rewrite Forall_forall in *. intros q Q. apply in_map_iff in Q as (z & <- & Z).
    rewrite <- B1, <- (B2 z Z). apply F. exact Z.
Qed.

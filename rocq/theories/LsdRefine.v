(** Proofs about the refinement of the regions of the line segment detector. *)
From Verif Require Import LsdSpec LsdGrow LsdRect.
From Coq Require Import Reals ZArith List Bool Lia Lra Psatz ZifyBool Permutation.
Import ListNotations.
Local Open Scope R_scope.

Definition rotate (t : list pixel) : list pixel := match t with [] => [] | _ => last t (0, 0)%Z :: removelast t end.
Lemma rotate_perm t : Permutation (rotate t) t.
Proof.
  destruct t as [|a t]; [constructor|]. unfold rotate.
  rewrite (app_removelast_last (l := a :: t) (0, 0)%Z) at 3 by discriminate.
  apply Permutation_cons_append.
Qed.
Lemma rotate_length t : length (rotate t) = length t.
Proof. apply Permutation_length, rotate_perm. Qed.
Lemma set_nth_app pre q p t : set_nth (length pre) q (pre ++ p :: t) = pre ++ q :: t.
Proof. induction pre as [|a pre IH]; cbn; [reflexivity|]. rewrite IH. reflexivity. Qed.
Lemma swap_pop_app pre p t : swap_pop (length pre) (pre ++ p :: t) = pre ++ rotate t.
Proof.
  unfold swap_pop. destruct (pre ++ p :: t) as [|z0 z1] eqn:E; [destruct pre; discriminate|]. rewrite <- E. clear E z0 z1.
  rewrite set_nth_app, removelast_app by discriminate. f_equal.
  destruct t as [|b t].
  - reflexivity.
  - replace (last (pre ++ p :: b :: t) (0, 0)%Z) with (last (b :: t) (0, 0)%Z); [reflexivity|].
    clear. induction pre as [|a pre IH]; [reflexivity|]. cbn [app]. rewrite IH.
    destruct (pre ++ p :: b :: t) as [|z0 z1] eqn:E; [destruct pre; discriminate|]. reflexivity.
Qed.
Lemma mark_false u p q : mark u p false q = true <-> u q = true /\ q <> p.
Proof. unfold mark. destruct (pixel_eqb_spec q p); [subst|]; intuition congruence. Qed.

(** ** Removal of the far pixels *)
Section Reduce.
Variables (s : pixel) (rad : R).
Definition near_seed (p : pixel) : bool := negb (far s rad p).
Lemma remove_far_ok fuel : forall pre rest used,
  (length rest < fuel)%nat ->
  exists rest' used', remove_far fuel s rad (length pre) (pre ++ rest) used = Some (pre ++ rest', used') /\
    Permutation rest' (filter near_seed rest) /\
    (forall q, used' q = true <-> used q = true /\ ~ (In q rest /\ far s rad q = true)) /\
    (forall p t, rest = p :: t -> far s rad p = false -> exists t', rest' = p :: t').
Proof.
  induction fuel as [|fuel IH]; intros pre rest used L; [lia|]. cbn [remove_far].
  destruct rest as [|p t].
  - exists [], used. rewrite app_nil_r, (proj2 (nth_error_None pre (length pre))) by lia.
    split; [reflexivity|]. split; [constructor|]. split; [cbn; tauto | discriminate].
  - rewrite nth_error_app2, Nat.sub_diag by lia. cbn [nth_error].
    destruct (far s rad p) eqn:F.
    + rewrite swap_pop_app. cbn [length] in L.
      destruct (IH pre (rotate t) (mark used p false)) as (r' & u' & E & P & U & _); [rewrite rotate_length; lia|].
      exists r', u'. split; [exact E|]. split; [|split].
      * cbn [filter]. unfold near_seed at 1. rewrite F. cbn [negb].
        etransitivity; [exact P|]. assert (G : forall l m, Permutation l m -> Permutation (filter near_seed l) (filter near_seed m)).
        { induction 1; cbn; try (destruct (near_seed x)); try (destruct (near_seed y)); eauto using Permutation. }
        apply G, rotate_perm.
      * intros q. rewrite U, mark_false. cbn [In].
        assert (R : In q (rotate t) <-> In q t) by (split; apply Permutation_in; [|symmetry]; apply rotate_perm).
        rewrite R. split.
        { intros [[H1 H2] H3]. split; auto. intros [[-> | H4] H5]; [congruence | tauto]. }
        { intros [H1 H2]. split; [split; auto; intros ->; tauto | tauto]. }
      * intros p' t' EQ F'. injection EQ as <- <-. congruence.
    + cbn [length] in L.
      destruct (IH (pre ++ [p]) t used) as (r' & u' & E & P & U & _); [lia|].
      rewrite app_length in E. cbn [length] in E. rewrite Nat.add_1_r, <- app_assoc in E. cbn [app] in E.
      exists (p :: r'), u'. split; [rewrite E, <- app_assoc; reflexivity|]. split; [|split].
      * cbn [filter]. unfold near_seed at 1. rewrite F. cbn [negb]. constructor. exact P.
      * intros q. rewrite U. cbn [In]. split.
        { intros [H1 H2]. split; auto. intros [[<- | H3] H4]; [congruence | tauto]. }
        { intros [H1 H2]. tauto. }
      * intros p' t' EQ _. injection EQ as <- <-. eauto.
Qed.
Lemma far_seed : 0 <= rad -> far s rad s = false.
Proof.
  intros R. unfold far, dist_sq. destruct (rlt_spec rad ((px s - px s) * (px s - px s) + (py s - py s) * (py s - py s))); [nra|auto].
Qed.
Lemma far_others p : rad < 1 -> p <> s -> far s rad p = true.
Proof.
  intros R N. unfold far. destruct (rlt_spec rad (dist_sq (px s) (py s) (px p) (py p))) as [H|H]; auto. exfalso.
  unfold dist_sq, px, py in H. rewrite <- !minus_IZR, <- !mult_IZR, <- plus_IZR in H.
  assert (1 <= (fst p - fst s) * (fst p - fst s) + (snd p - snd s) * (snd p - snd s))%Z as D.
  { assert (fst p - fst s <> 0 \/ snd p - snd s <> 0)%Z as G.
    { destruct (Z.eq_dec (fst p) (fst s)) as [E1|]; [|lia]. destruct (Z.eq_dec (snd p) (snd s)) as [E2|]; [|lia].
      exfalso. apply N. rewrite (surjective_pairing p), (surjective_pairing s), E1, E2. reflexivity. }
    pose proof (Z.square_nonneg (fst p - fst s)). pose proof (Z.square_nonneg (snd p - snd s)).
    assert (Q : forall z, z <> 0%Z -> (1 <= z * z)%Z) by (intros z; nia).
    destruct G as [G | G]; apply Q in G; lia. }
  apply IZR_le in D. lra.
Qed.
End Reduce.

Lemma too_sparse_dense reg r th : too_sparse reg r th = false <-> dense reg r th.
Proof.
  unfold too_sparse, dense, dist, dist_sq.
  match goal with |- rlt ?u ?v = false <-> ?w <= _ => destruct (rlt_spec u v) as [L|L] end.
  - split; [discriminate|]. intros H. exfalso. exact (Rlt_not_le _ _ L H).
  - split; [|reflexivity]. intros _. exact (Rnot_lt_le _ _ L).
Qed.

Section Refine.
Variables (fa : R -> R -> R) (f : field) (prec th : R).
Hypothesis SF : sound_field f.

(** the reductions of a region whose seed is [s] *)
Definition shrink (rad : R) (k : nat) : R := rad * (9 / 16) ^ k.
Inductive reduced (s : pixel) (a rad : R) (used : pixel -> bool) (reg : list pixel) (r : rect) : refined -> Prop :=
| reduced_kept : forall k u reg' r',
    NoDup reg' -> hd_error reg' = Some s ->
    (forall p, In p reg' <-> In p reg /\ (k = O \/ dist_sq (px s) (py s) (px p) (py p) <= shrink rad k)) ->
    (k = O /\ r' = r /\ reg' = reg \/ (2 <= length reg')%nat /\ region2rect fa f reg' a prec = Some r') -> dense reg' r' th ->
    (forall q, u q = true <-> used q = true /\ (In q reg -> In q reg')) ->
    reduced s a rad used reg r (Kept u reg' r')
| reduced_discarded : forall u, (forall q, u q = true <-> used q = true /\ (In q reg -> q = s)) ->
    reduced s a rad used reg r (Discarded u).

Lemma shrink_next rad k : shrink (rad * (75 / 100 * (75 / 100))) k = shrink rad (S k).
Proof. unfold shrink. cbn [pow]. field. Qed.
Lemma pow_small rad : exists n, shrink rad (S n) < 1.
Proof.
  unfold shrink. destruct (Rle_dec rad 0) as [H|H].
  - exists O. cbn. lra.
  - destruct (pow_lt_1_zero (9 / 16)) with (y := / rad) as [n N].
    + rewrite Rabs_pos_eq; lra.
    + apply Rinv_0_lt_compat. lra.
    + exists n. specialize (N (S n) ltac:(lia)). rewrite Rabs_pos_eq in N by (apply pow_le; lra).
      apply (Rmult_lt_compat_l rad) in N; [|lra]. rewrite Rinv_r in N by lra. exact N.
Qed.
Lemma shrink_le rad k j : 0 <= rad -> (k <= j)%nat -> shrink rad j <= shrink rad k.
Proof.
  intros R L. unfold shrink. apply Rmult_le_compat_l; auto.
  induction L as [|j L IH]; [lra|]. eapply Rle_trans; [|exact IH]. cbn. pose proof (pow_le (9 / 16) j ltac:(lra)). nra.
Qed.
Lemma reduce_loop_ok : forall n m s a rad used reg r,
  0 <= rad -> shrink rad (S n) < 1 -> NoDup reg -> hd_error reg = Some s ->
  (forall p, In p reg -> 0 < f_norm f p) -> (forall p, In p reg -> used p = true) ->
  reduced s a rad used reg r (reduce_loop fa (S n + m) f s a prec th rad used reg r).
Proof.
  induction n as [|n IH]; intros m s a rad used reg r R0 SM ND HD NP US.
  all: change (S ?x + m)%nat with (S (x + m)); cbn [reduce_loop]; destruct (too_sparse reg r th) eqn:TS;
    [| apply too_sparse_dense in TS; apply (reduced_kept s a rad used reg r 0); auto; [intuition | intuition]].
  all: set (rad' := rad * (75 / 100 * (75 / 100))).
  all: assert (R0' : 0 <= rad') by (unfold rad'; nra).
  all: destruct (remove_far_ok s rad' (S (length reg)) [] reg used) as (reg' & u' & E & P & U & H); [lia|].
  all: cbn [app length] in E; rewrite E.
  all: destruct reg as [|s0 t]; cbn in HD; [discriminate|]; injection HD as ->.
  all: destruct (H s t eq_refl (far_seed s rad' R0')) as [t' ->].
  all: assert (ND' : NoDup (s :: t')) by (apply (Permutation_NoDup (l := filter (near_seed s rad') (s :: t))); [symmetry; exact P | apply NoDup_filter; exact ND]).
  all: assert (IN : forall p, In p (s :: t') <-> In p (s :: t) /\ far s rad' p = false)
    by (intros p; transitivity (In p (filter (near_seed s rad') (s :: t)));
        [split; apply Permutation_in; [|symmetry]; exact P | rewrite filter_In; unfold near_seed; rewrite negb_true_iff; reflexivity]).
  all: assert (U' : forall q, u' q = true <-> used q = true /\ (In q (s :: t) -> In q (s :: t')))
    by (intros q; rewrite U, IN; destruct (far s rad' q); intuition congruence).
  - destruct t' as [|b t']; cbn [length Nat.ltb Nat.leb].
    + constructor. intros q. rewrite U'. cbn. intuition.
    + exfalso. assert (B : b <> s) by (inversion ND'; subst; cbn in *; intuition).
      pose proof (proj1 (IN b) (or_intror (or_introl eq_refl))) as [_ F].
      rewrite far_others in F; [discriminate | | exact B]. unfold shrink in SM. cbn in SM. unfold rad'. lra.
  - destruct (length (s :: t') <? 2)%nat eqn:LT.
    + destruct t' as [|b t']; cbn in LT; [|discriminate]. constructor. intros q. rewrite U'. cbn. intuition.
    + destruct (region2rect fa f (s :: t') a prec) as [r'|] eqn:RR.
      * assert (SM' : shrink rad' (S n) < 1) by (unfold rad'; rewrite shrink_next; exact SM).
        assert (NP' : forall p, In p (s :: t') -> 0 < f_norm f p) by (intros p Q; apply NP; apply IN in Q; tauto).
        assert (US' : forall p, In p (s :: t') -> u' p = true) by (intros p Q; apply U'; split; [apply US; apply IN in Q; tauto | auto]).
        pose proof (IH m s a rad' u' (s :: t') r' R0' SM' ND' eq_refl NP' US') as RD.
        change (S (n + m)) with (S n + m)%nat.
        destruct RD as [k u reg2 r2 D1 D2 D3 D4 D5 D6 | u D].
        { apply (reduced_kept s a rad used (s :: t) r (S k)); auto.
          - intros p. rewrite D3, IN. unfold rad'. rewrite shrink_next.
            assert (FE : far s rad' p = false <-> dist_sq (px s) (py s) (px p) (py p) <= shrink rad 1).
            { unfold far. destruct (rlt_spec rad' (dist_sq (px s) (py s) (px p) (py p))) as [G|G]; unfold shrink, rad' in *; cbn; split; intros; try discriminate; auto; lra. }
            fold rad'. rewrite FE. pose proof (shrink_le rad 1 (S k) R0 ltac:(lia)). split.
            + intros [[I1 I2] [-> | I3]]; split; auto.
            + intros [I1 [I2 | I2]]; [discriminate|]. split; [split; [auto | lra] | auto].
          - right. destruct D4 as [(-> & -> & ->) | D4]; auto. split; [|exact RR]. apply Nat.ltb_ge in LT. exact LT.
          - intros q. rewrite D6, U'. split.
            + intros [[I1 I2] I3]. split; auto.
            + intros [I1 I2]. split; [split; auto; intros I3; apply I2 in I3; apply D3 in I3; tauto|].
              intros I3. apply I2. apply IN in I3. tauto. }
        { constructor. intros q. rewrite D, U'. split.
          - intros [[H1 H2] H3]. split; auto.
          - intros [H1 H2]. split; [split; auto; intros H3; left; symmetry; auto|]. intros H3. apply H2. apply IN in H3. tauto. }
      * exfalso. revert RR. apply region2rect_defined.
        { intros p Q. apply NP. apply IN in Q. tauto. }
        { destruct t' as [|b t']; [discriminate|]. exists s, b. cbn. repeat split; auto. inversion ND'; subst; cbn in *; intuition. }
Qed.

Lemma exists_max s (l : list pixel) : exists m, forall p, In p l -> dist_sq (px s) (py s) (px p) (py p) <= m.
Proof.
  induction l as [|a l [m M]]; [exists 0; intros p []|].
  exists (Rmax m (dist_sq (px s) (py s) (px a) (py a))). intros p [<- | P]; [apply Rmax_r|].
  eapply Rle_trans; [apply M, P | apply Rmax_l].
Qed.
Lemma freed_used reg : forall used q, fold_left (fun u p => mark u p false) reg used q = true <-> used q = true /\ ~ In q reg.
Proof.
  induction reg as [|a reg IH]; intros used q; cbn [fold_left In]; [tauto|].
  rewrite IH, mark_false. intuition.
Qed.
Lemma dist_sq_nonneg a b c d : 0 <= dist_sq a b c d.
Proof. unfold dist_sq. pose proof (Rle_0_sqr (c - a)). pose proof (Rle_0_sqr (d - b)). unfold Rsqr in *. lra. Qed.

Lemma refine_ok used reg r s :
  hd_error reg = Some s -> f_angle f s <> None ->
  exists n, forall m,
    (dense reg r th -> refine fa (n + m) f prec th used reg r = Kept used reg r) /\
    (~ dense reg r th -> exists g,
       region_grow fa f (fold_left (fun u p => mark u p false) reg used) s (refined_tolerance f reg r) = Some g /\
       refinement fa f prec th s used reg g (refine fa (n + m) f prec th used reg r)).
Proof.
  intros HD SA.
  assert (FS : fold_left (fun u p => mark u p false) reg used s = false).
  { destruct (fold_left (fun u p => mark u p false) reg used s) eqn:E; auto. apply freed_used in E as [_ E].
    exfalso. apply E. destruct reg; cbn in HD; [discriminate|]. injection HD as ->. left. reflexivity. }
  destruct (region_grow_inv fa f (fold_left (fun u p => mark u p false) reg used) s (refined_tolerance f reg r) SF SA FS) as (g & E & I & _).
  assert (HS : hd (0, 0)%Z reg = s) by (destruct reg; cbn in *; [discriminate|congruence]).
  destruct (i_seed _ _ _ _ _ _ I) as [t GE].
  assert (GU : forall q, g_used g q = true <-> (used q = true /\ ~ In q reg) \/ In q (g_reg g)).
  { intros q. rewrite (i_used _ _ _ _ _ _ I), freed_used. reflexivity. }
  assert (FREE : forall q, In q (g_reg g) -> ~ (used q = true /\ ~ In q reg)).
  { intros q Q H. destruct (i_free _ _ _ _ _ _ I q Q) as [H' _]. apply freed_used in H. congruence. }
  assert (NP : forall p, In p (g_reg g) -> 0 < f_norm f p).
  { intros p P. destruct (i_free _ _ _ _ _ _ I p P) as [_ D]. destruct (f_angle f p) as [a|] eqn:A; [|congruence]. apply (SF p a A). }
  destruct (region2rect fa f (g_reg g) (g_angle g) prec) as [r'|] eqn:RR.
  - set (xa := dist_sq (px s) (py s) (x1 r') (y1 r')). set (xb := dist_sq (px s) (py s) (x2 r') (y2 r')).
    destruct (pow_small (if rlt xb xa then xa else xb)) as [n N]. exists (S n). intros m.
    unfold refine. rewrite HS. split.
    + intros D. apply too_sparse_dense in D. rewrite D. reflexivity.
    + intros ND. destruct (too_sparse reg r th) eqn:TS; [|exfalso; apply ND, too_sparse_dense, TS]. exists g. split; [exact E|].
      rewrite E. destruct (length (g_reg g) <? 2)%nat eqn:LT.
      { constructor. intros q. rewrite GU. rewrite GE in *. destruct t; [|discriminate]. cbn. intuition. }
      apply Nat.ltb_ge in LT. rewrite RR. destruct (too_sparse (g_reg g) r' th) eqn:TS2.
      * unfold reduce_region_radius. replace (hd (0, 0)%Z (g_reg g)) with s by (rewrite GE; reflexivity). fold xa xb. cbn zeta.
        assert (R0 : 0 <= (if rlt xb xa then xa else xb)) by (destruct (rlt xb xa); apply dist_sq_nonneg).
        assert (HG : hd_error (g_reg g) = Some s) by (rewrite GE; reflexivity).
        assert (UG : forall p, In p (g_reg g) -> g_used g p = true) by (intros p P; apply GU; auto).
        pose proof (reduce_loop_ok n m s (g_angle g) _ (g_used g) (g_reg g) r' R0 N (i_once _ _ _ _ _ _ I) HG NP UG) as RD.
        destruct RD as [k u reg2 r2 D1 D2 D3 D4 D5 D6 | u D].
        { constructor; auto.
          - destruct D4 as [(-> & -> & ->) | [D4 _]]; auto.
          - destruct k as [|k].
            + destruct D4 as [(_ & -> & ->) | [_ D4]]; [auto|]. right.
              destruct (exists_max s (g_reg g)) as [M MX]. exists M. intros p. rewrite D3.
              split; [intros [H1 _]; split; [auto | exact (MX p H1)] | intros [H1 _]; auto].
            + right. exists (shrink (if rlt xb xa then xa else xb) (S k)). intros p. rewrite D3.
              split; [intros [H1 [H2 | H2]]; [discriminate | auto] | intros [H1 H2]; auto].
          - destruct D4 as [(_ & -> & ->) | [_ D4]]; auto.
          - intros q. rewrite D6, GU. split.
            + intros [[H1 | H1] H2]; auto.
            + intros [H1 | H1]; [split; [auto|] | split; [right; apply D3 in H1; tauto | auto]].
              intros H2. exfalso. exact (FREE q H2 H1). }
        { constructor. intros q. rewrite D, GU. split.
          - intros [[H1 | H1] H2]; auto.
          - intros [H1 | ->]; [split; [auto|] | split; [right; rewrite GE; left; reflexivity | auto]].
            intros H2. exfalso. exact (FREE q H2 H1). }
      * apply too_sparse_dense in TS2. constructor; auto; [apply (i_once _ _ _ _ _ _ I) | rewrite GE; reflexivity].
  - exists O. intros m. unfold refine. rewrite HS. split.
    + intros D. apply too_sparse_dense in D. rewrite D. reflexivity.
    + intros ND. destruct (too_sparse reg r th) eqn:TS; [|exfalso; apply ND, too_sparse_dense, TS]. exists g. split; [exact E|].
      rewrite E. destruct (length (g_reg g) <? 2)%nat eqn:LT.
      { constructor. intros q. rewrite GU. rewrite GE in *. destruct t; [|discriminate]. cbn. intuition. }
      exfalso. revert RR. apply region2rect_defined; auto. apply Nat.ltb_ge in LT.
      pose proof (i_once _ _ _ _ _ _ I) as O. rewrite GE in *. destruct t as [|b t]; cbn in LT; [lia|].
      exists s, b. cbn. repeat split; auto. inversion O; subst; cbn in *; intuition.
Qed.
End Refine.

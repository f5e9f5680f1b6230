(** The filling of the rings: theorems. *)
From Verif Require Import FillSpec.
From Coq Require Import List ZArith Bool Arith Lia ZifyBool ZifyNat Permutation.
Import ListNotations.
Local Open Scope Z_scope.

Section fill.
  Variables (polygon point : Type) (inside : polygon -> point -> bool) (clockwise : polygon -> Prop).
  Variables (intersects : polygon -> polygon -> bool) (union : polygon -> polygon -> list polygon).
  Variables (covered_by : polygon -> polygon -> bool) (difference : list polygon -> list polygon -> list polygon) (reversed : polygon -> polygon).
  Hypothesis laws : polygon_laws polygon point inside clockwise intersects union covered_by difference reversed.
  Let result_combine := result_combine polygon intersects union.
  Let result_combine_multiple := result_combine_multiple polygon intersects union.
  Let fill := fill polygon intersects union covered_by difference reversed.
  Let scored := scored polygon covered_by reversed.
  Let add_scores := add_scores polygon covered_by.
  Let correct_polygon := correct_polygon polygon intersects union covered_by difference reversed.

  Lemma any_app a b p : inside_any inside (a ++ b) p = inside_any inside a p || inside_any inside b p.
  Proof. apply existsb_app. Qed.
  Lemma loop_inside p : forall after before back, Forall clockwise before -> Forall clockwise after -> clockwise back ->
    Forall clockwise (combine_loop polygon intersects union before after back) /\
    inside_any inside (combine_loop polygon intersects union before after back) p = inside_any inside before p || inside_any inside after p || inside back p.
  Proof.
    induction after as [|x l IH]; intros before back Cb Ca C; cbn [combine_loop].
    - split; [apply Forall_app; auto|]. rewrite any_app. cbn. destruct (inside_any inside before p), (inside back p); reflexivity.
    - inversion Ca as [|? ? Cx Cl]; subst.
      assert (K : Forall clockwise (combine_loop polygon intersects union (before ++ [x]) l back) /\
                  inside_any inside (combine_loop polygon intersects union (before ++ [x]) l back) p = inside_any inside before p || inside_any inside (x :: l) p || inside back p).
      { destruct (IH (before ++ [x]) back) as [A B]; [apply Forall_app; auto|auto|auto|]. split; [exact A|]. rewrite B, any_app. cbn.
        destruct (inside_any inside before p), (inside x p); cbn; try reflexivity; now destruct (existsb _ l). }
      destruct (intersects x back); cbn [negb]; [|exact K]. destruct (union_law _ _ _ _ _ _ _ _ _ laws x back Cx C) as [Cu U]. specialize (U p).
      destruct (union x back) as [|u [|u' us]]; [exact K| |exact K]. inversion Cu; subst. destruct (IH before u) as [A B]; auto. split; [exact A|]. rewrite B. cbn in U |- *. rewrite orb_false_r in U. rewrite U.
      fold (inside_any inside l p). destruct (inside_any inside before p), (inside x p), (inside_any inside l p), (inside back p); reflexivity.
  Qed.
  Lemma pairs_app {A} (R : A -> A -> Prop) a b : ForallOrdPairs R (a ++ b) <-> ForallOrdPairs R a /\ ForallOrdPairs R b /\ forall x y, In x a -> In y b -> R x y.
  Proof.
    induction a as [|z a IH]; cbn [app].
    - split; [intros H; split; [constructor|]; split; [exact H|easy]|intros (_ & H & _); exact H].
    - split.
      + intros H. inversion H as [|? ? F G]; subst. apply IH in G as (G1 & G2 & G3). rewrite Forall_forall in F. repeat split; auto.
        * constructor; [|exact G1]. apply Forall_forall. intros y Y. apply F, in_or_app. now left.
        * intros x y [<-|X] Y; [apply F, in_or_app; now right|auto].
      + intros (H & G2 & G3). inversion H as [|? ? F G]; subst. rewrite Forall_forall in F. constructor.
        * apply Forall_forall. intros y Y. apply in_app_or in Y as [Y|Y]; [auto|apply G3; [now left|exact Y]].
        * apply IH. repeat split; auto. intros x y X. apply G3. now right.
  Qed.
  Lemma loop_separate : forall after before back, Forall clockwise before -> Forall clockwise after -> clockwise back -> separate inside (before ++ after) ->
    (forall x, In x before -> forall p, inside x p = true -> inside back p = false) ->
    separate inside (combine_loop polygon intersects union before after back).
  Proof.
    unfold separate. induction after as [|x l IH]; intros before back Cb Ca C S B; cbn [combine_loop].
    - rewrite app_nil_r in S. apply pairs_app. split; [exact S|]. split; [constructor; constructor|]. intros a y A [<-|[]]. now apply B.
    - inversion Ca as [|? ? Cx Cl]; subst.
      assert (K : (forall p, inside x p = true -> inside back p = false) -> ForallOrdPairs (fun a b => forall p, inside a p = true -> inside b p = false) (combine_loop polygon intersects union (before ++ [x]) l back)).
      { intros Q. apply IH; [apply Forall_app; auto|auto|auto|now rewrite <- app_assoc|]. intros y Y. apply in_app_or in Y as [Y|[<-|[]]]; [exact (B y Y)|exact Q]. }
      destruct (intersects x back) eqn:E; cbn [negb]; [|apply K; apply (apart_law _ _ _ _ _ _ _ _ _ laws); assumption].
      destruct (union_law _ _ _ _ _ _ _ _ _ laws x back Cx C) as [Cu U]. pose proof (fun p => pieces_law _ _ _ _ _ _ _ _ _ laws x back p Cx C) as P.
      assert (Q : length (union x back) <> 1%nat -> forall p, inside x p = true -> inside back p = false).
      { intros N p X. destruct (inside back p) eqn:Y; [|reflexivity]. destruct (N (P p X Y)). }
      destruct (union x back) as [|u [|u' us]]; [apply K, Q; discriminate| |apply K, Q; discriminate]. inversion Cu; subst.
      apply pairs_app in S as (S1 & S2 & S3). inversion S2 as [|? ? F G]; subst. apply IH; auto.
      + apply pairs_app. repeat split; auto. intros a b A D. apply S3; [exact A|now right].
      + intros y Y p Z. specialize (U p). cbn in U. rewrite orb_false_r in U. rewrite U. rewrite (B y Y p Z), (S3 y x Y (or_introl eq_refl) p Z). reflexivity.
  Qed.
  (** Adding polygons to a list of separate polygons covers the points of all of them, and the
      polygons are still separate. *)
Theorem C109_combined : forall elements result, Forall clockwise result -> Forall clockwise elements -> separate inside result ->
    Forall clockwise (result_combine_multiple result elements) /\ separate inside (result_combine_multiple result elements) /\
    forall p, inside_any inside (result_combine_multiple result elements) p = inside_any inside result p || inside_any inside elements p.
  Proof.
    induction elements as [|x l IH]; intros result Cr Ce S; cbn.
    - split; [exact Cr|]. split; [exact S|]. intros p. now rewrite orb_false_r.
    - inversion Ce as [|? ? Cx Cl]; subst. pose proof (fun p => loop_inside p result [] x (Forall_nil _) Cr Cx) as LI.
      assert (Cq : Forall clockwise (result_combine result x)).
      { destruct result as [|y r]; [constructor; auto|]. destruct l as [|z l']; unfold result_combine, FillModel.result_combine; revert Cr; generalize (y :: r); intros r' Cr; clear -laws Cr Cx.
        all: assert (G : forall before, Forall clockwise before -> Forall clockwise (combine_loop polygon intersects union before r' x)); [|apply G; constructor].
        all: clear -laws Cr Cx; revert x Cx; induction Cr as [|w r' Cw Cr IH]; intros x Cx before Cb; cbn [combine_loop]; [apply Forall_app; auto|].
        all: destruct (intersects w x); cbn [negb]; [|apply IH; [exact Cx|apply Forall_app; auto]].
        all: destruct (union_law _ _ _ _ _ _ _ _ _ laws w x Cw Cx) as [Cu _]; destruct (union w x) as [|u [|u' us]]; try (apply IH; [exact Cx|apply Forall_app; auto]).
        all: inversion Cu; subst; apply IH; auto. }
      destruct (IH (result_combine result x)) as (A & B & D); [exact Cq|exact Cl|apply loop_separate; auto; easy|]. split; [exact A|]. split; [exact B|]. intros p. specialize (D p).
      etransitivity; [exact D|]. unfold result_combine, FillModel.result_combine. rewrite (proj2 (LI p)). cbn. destruct (inside_any inside result p), (inside x p); reflexivity.
  Qed.
  Lemma updates_fst a s l : map fst (map (fun e => if covered_by (fst e) a then (fst e, snd e + s) else e) l) = map (@fst polygon Z) l.
  Proof. rewrite map_map. apply map_ext. intros [q t]. cbn. now destruct (covered_by q a). Qed.
  Lemma scores_fst : forall n l, map fst (add_scores n l) = map fst l.
  Proof.
    induction n as [|n IH]; intros [|[q s] l]; try reflexivity. unfold add_scores in *. cbn [FillModel.add_scores map fst]. now rewrite IH, updates_fst.
  Qed.
  Lemma scored_clockwise sorted : Forall (ring_area clockwise) sorted -> Forall (fun e => clockwise (fst e)) (scored sorted).
  Proof.
    intros R. rewrite <- (Forall_map fst clockwise). unfold scored, FillModel.scored. fold add_scores. rewrite scores_fst, map_map. cbn [fst]. unfold normalized. rewrite map_map.
    apply Forall_map. rewrite Forall_forall in *. intros [q a] I. specialize (R _ I). unfold ring_area in R. cbn [fst snd] in *. destruct (Z.ltb_spec a 0) as [L|L]; cbn.
    - destruct R as [[R _]|[_ R]]; [lia|]. now apply (reversed_law _ _ _ _ _ _ _ _ _ laws).
    - destruct R as [[_ R]|[R _]]; [exact R|lia].
  Qed.
  Lemma combined_inside keep sorted p : Forall (ring_area clockwise) sorted ->
    Forall clockwise (combined polygon intersects union covered_by reversed keep sorted) /\
    inside_any inside (combined polygon intersects union covered_by reversed keep sorted) p = existsb (fun e => inside (fst e) p && keep (snd e)) (scored sorted).
  Proof.
    intros R. apply scored_clockwise in R. unfold combined. destruct (C109_combined (map fst (filter (fun e => keep (snd e)) (scored sorted))) []) as (C & _ & H); [constructor| |constructor|].
    - apply Forall_map. rewrite Forall_forall in *. intros e I. apply filter_In in I as [I _]. auto.
    - split; [exact C|]. unfold result_combine_multiple, scored in *. rewrite H. cbn [inside_any existsb orb]. generalize (FillModel.scored polygon covered_by reversed sorted) as l. clear.
      induction l as [|[q s] l IH]; [reflexivity|]. cbn. destruct (keep s); cbn; fold (inside_any inside (map fst (filter (fun e => keep (snd e)) l)) p); unfold inside_any in *; rewrite IH; [now rewrite andb_true_r|now rewrite andb_false_r].
  Qed.
  Lemma fill_clockwise sorted : Forall (ring_area clockwise) sorted -> Forall clockwise (fill sorted).
  Proof.
    intros R. destruct (difference_law _ _ _ _ _ _ _ _ _ laws (combined polygon intersects union covered_by reversed (fun s => negb (s =? 0)) sorted)
      (combined polygon intersects union covered_by reversed (fun s => s =? 0) sorted)) as [C _]; [| |exact C].
    - unfold combined. apply C109_combined; [constructor| |constructor]. apply Forall_map. apply scored_clockwise in R. rewrite Forall_forall in *. intros e I. apply filter_In in I as [I _]. now apply R.
    - unfold combined. apply C109_combined; [constructor| |constructor]. apply Forall_map. apply scored_clockwise in R. rewrite Forall_forall in *. intros e I. apply filter_In in I as [I _]. now apply R.
  Qed.
  Lemma fill_inside sorted p : Forall (ring_area clockwise) sorted -> inside_any inside (fill sorted) p =
    let around := filter (fun e => inside (fst e) p) (scored sorted) in
    existsb (fun e => negb (snd e =? 0)) around && negb (existsb (fun e => snd e =? 0) around).
  Proof.
    intros R. destruct (combined_inside (fun s => negb (s =? 0)) sorted p R) as [C1 E1], (combined_inside (fun s => s =? 0) sorted p R) as [C2 E2].
    unfold fill, FillModel.fill. unfold inside_any at 1. rewrite (proj2 (difference_law _ _ _ _ _ _ _ _ _ laws _ _ C1 C2)). unfold inside_any in E1, E2. rewrite E1, E2.
    assert (K : forall (f : Z -> bool) l, existsb (fun e : polygon * Z => inside (fst e) p && f (snd e)) l = existsb (fun e => f (snd e)) (filter (fun e => inside (fst e) p) l)).
    { clear. intros f. induction l as [|[q s] l IH]; [reflexivity|]. cbn. rewrite IH. destruct (inside q p); reflexivity. }
    rewrite (K (fun s => negb (s =? 0))), (K (fun s => s =? 0)). reflexivity.
  Qed.
  Definition updated (a : polygon) (s : Z) (l : list (polygon * Z)) : list (polygon * Z) :=
    map (fun e => if covered_by (fst e) a then (fst e, snd e + s) else e) l.
  Lemma filter_updated a s p l : filter (fun e => inside (fst e) p) (updated a s l) = updated a s (filter (fun e => inside (fst e) p) l).
  Proof.
    unfold updated. induction l as [|[q t] l IH]; [reflexivity|]. cbn [map fst snd]. destruct (covered_by q a) eqn:C; cbn [filter fst]; rewrite IH; destruct (inside q p); cbn; rewrite ?C; reflexivity.
  Qed.
  (** only the polygons around a point matter at this point *)
  Lemma filter_scores p : forall n l k, Forall (fun e => clockwise (fst e)) l -> (length l <= n)%nat -> (length l <= k)%nat ->
    filter (fun e => inside (fst e) p) (add_scores n l) = add_scores k (filter (fun e => inside (fst e) p) l).
  Proof.
    induction n as [|n IH]; intros [|[q s] l] k C0 L M; cbn in L, M; try lia; [now destruct k|now destruct k|]. inversion C0 as [|? ? Cq Cl]; subst.
    assert (Cup : Forall (fun e => clockwise (fst e)) (updated q s l)) by (rewrite <- (Forall_map fst clockwise); unfold updated; rewrite updates_fst; now apply Forall_map).
    unfold add_scores in *. cbn [FillModel.add_scores]. fold (updated q s l). cbn [filter fst]. destruct (inside q p) eqn:Q.
    - destruct k as [|k]; [lia|]. cbn [FillModel.add_scores]. f_equal. fold (updated q s (filter (fun e => inside (fst e) p) l)). rewrite <- filter_updated. apply IH; [exact Cup| |]; unfold updated; rewrite map_length; lia.
    - rewrite (IH _ k Cup) by (unfold updated; rewrite map_length; lia). f_equal. rewrite filter_updated. unfold updated.
      rewrite <- (map_id (filter (fun e => inside (fst e) p) l)) at 2. apply map_ext_in. intros [r t] I. apply filter_In in I as [I0 I]. rewrite Forall_forall in Cl. pose proof (Cl _ I0) as Cr. cbn in I, Cr, Cq |- *.
      destruct (covered_by r q) eqn:C; [|reflexivity]. rewrite (proj1 (covered_law _ _ _ _ _ _ _ _ _ laws r q Cr Cq) C p I) in Q. discriminate.
  Qed.
  (** all the polygons around the point are nested *)
  Definition chain (l : list (polygon * Z)) : Prop := ForallOrdPairs (fun a b => covered_by (fst b) (fst a) = true) l.
  Definition unit (e : polygon * Z) : Prop := snd e = 1 \/ snd e = -1.
  Definition shifted (t : Z) (l : list (polygon * Z)) : list (polygon * Z) := map (fun e => (fst e, snd e + t)) l.
  Lemma updated_chain a s t u l : chain ((a, u) :: l) -> updated a s (shifted t l) = shifted (t + s) l.
  Proof.
    intros C. inversion C as [|? ? F _]; subst. rewrite Forall_forall in F. unfold updated, shifted. rewrite map_map. apply map_ext_in. intros e E. cbn [fst snd]. specialize (F e E). cbn [fst] in F. rewrite F. cbn. f_equal. lia.
  Qed.
  Lemma large_scores : forall n l t, chain l -> Forall unit l -> (2 <= Z.abs t) -> existsb (fun e : polygon * Z => snd e =? 0) (add_scores n (shifted t l)) = false.
  Proof.
    induction n as [|n IH]; intros l t C U T.
    - cbn. induction l as [|e l IHl]; [reflexivity|]. cbn [shifted map existsb snd]. inversion U as [|? ? U1 U2]; subst. inversion C as [|? ? _ C2]; subst. destruct U1 as [U1|U1]; rewrite U1; fold (shifted t l); rewrite IHl by assumption; lia.
    - destruct l as [|[a u] l]; [reflexivity|]. unfold add_scores in *. cbn [shifted map FillModel.add_scores fst snd]. fold (shifted t l). fold (updated a (u + t) (shifted t l)).
      rewrite (updated_chain a _ t u) by exact C. inversion U as [|? ? U1 U2]; subst. inversion C as [|? ? _ C2]; subst. cbn [existsb snd]. destruct U1 as [U1|U1]; cbn in U1; subst u; rewrite IH by (auto; lia); lia.
  Qed.
  Lemma chain_filled : forall l n, (length l <= n)%nat -> chain l -> Forall unit l ->
    existsb (fun e => negb (snd e =? 0)) (add_scores n l) && negb (existsb (fun e => snd e =? 0) (add_scores n l)) =
    match map (fun e => 0 <? snd e) l with [] => false | [_] => true | a :: b :: _ => Bool.eqb a b end.
  Proof.
    intros l n L C U. destruct l as [|[a u] l]; [now destruct n|]. destruct n as [|n]; [cbn in L; lia|]. unfold add_scores in *. cbn [FillModel.add_scores]. fold (updated a u l).
    assert (S0 : shifted 0 l = l) by (unfold shifted; rewrite <- (map_id l) at 2; apply map_ext; intros [q s]; cbn; f_equal; lia).
    rewrite <- S0 at 1 2. rewrite (updated_chain a u 0 u) by exact C. inversion U as [|? ? U1 U2]; subst. inversion C as [|? ? C1 C2]; subst. cbn [existsb snd map].
    destruct l as [|[b v] l].
    - cbn. destruct n; cbn; destruct U1 as [U1|U1]; cbn in U1; subst u; reflexivity.
    - destruct n as [|n]; [cbn in L; lia|]. cbn [shifted map fst snd FillModel.add_scores]. fold (shifted (0 + u) l). fold (updated b (v + (0 + u)) (shifted (0 + u) l)).
      rewrite (updated_chain b _ _ v) by exact C2. inversion U2 as [|? ? V1 V2]; subst. inversion C2 as [|? ? _ C3]; subst. cbn [existsb snd].
      destruct U1 as [U1|U1], V1 as [V1|V1]; cbn in U1, V1; subst u v; cbn [Z.add Z.eqb negb orb andb Z.ltb Z.compare Bool.eqb Z.pos_sub Pos.pred_double Pos.add Pos.succ]; try reflexivity.
      + rewrite (large_scores n l) by (auto; cbn; lia). reflexivity.
      + rewrite (large_scores n l) by (auto; cbn; lia). reflexivity.
  Qed.
  Lemma pairs_perm {A} (R : A -> A -> Prop) (sym : forall a b, R a b -> R b a) l l' : Permutation l l' -> ForallOrdPairs R l -> ForallOrdPairs R l'.
  Proof.
    induction 1 as [|x l l' P IH|x y l|l l' l'' P1 IH1 P2 IH2]; intros H; auto.
    - inversion H as [|? ? F G]; subst. constructor; [now rewrite <- P|auto].
    - inversion H as [|? ? F G]; subst. inversion F as [|? ? F1 F2]; subst. inversion G as [|? ? G1 G2]; subst. constructor; [constructor; auto|]. constructor; assumption.
  Qed.
  Lemma pairs_both {A} (R S T : A -> A -> Prop) l : (forall a b, R a b -> S a b -> T a b) -> ForallOrdPairs R l -> ForallOrdPairs S l -> ForallOrdPairs T l.
  Proof.
    intros H F. induction F as [|a l F1 F2 IH]; intros G; [constructor|]. inversion G as [|? ? G1 G2]; subst. constructor; [|auto].
    rewrite Forall_forall in *. intros b B. auto.
  Qed.
  Lemma pairs_filter {A} (R S : A -> A -> Prop) (f : A -> bool) l : (forall a b, R a b -> f a = true -> f b = true -> S a b) -> ForallOrdPairs R l -> ForallOrdPairs S (filter f l).
  Proof.
    intros H. induction 1 as [|a l F1 F2 IH]; [constructor|]. cbn. destruct (f a) eqn:E; [|exact IH]. constructor; [|exact IH].
    rewrite Forall_forall in *. intros b B. apply filter_In in B as [B B']. auto.
  Qed.
  Lemma pairs_map {A B} (R : B -> B -> Prop) (f : A -> B) l : ForallOrdPairs (fun a b => R (f a) (f b)) l -> ForallOrdPairs R (map f l).
  Proof. induction 1 as [|a l F1 F2 IH]; [constructor|]. cbn. constructor; [|exact IH]. now apply Forall_map. Qed.

  Lemma pairs_in {A} (l : list A) : ForallOrdPairs (fun a b => In a l /\ In b l) l.
  Proof.
    assert (G : forall l', incl l' l -> ForallOrdPairs (fun a b => In a l /\ In b l) l'); [|apply G, incl_refl].
    induction l' as [|a l' IH]; intros I; constructor; [|apply IH; intros x X; apply I; now right].
    apply Forall_forall. intros b B. split; apply I; [now left|now right].
  Qed.
  (** A point is in the result exactly when it is in a ring and the two largest rings around it
      turn the same way. *)
Theorem C109_filled : forall rings sorted p, Forall (ring_area clockwise) rings -> ForallOrdPairs (nested inside) rings -> by_area rings sorted ->
    inside_any inside (fill sorted) p = two_largest_agree inside sorted p.
  Proof.
    intros rings sorted p R0 N [P S].
    assert (R : Forall (ring_area clockwise) sorted) by (rewrite Forall_forall in *; intros r I; apply R0; eapply Permutation_in; [symmetry; exact P|exact I]).
    rewrite fill_inside by exact R. cbv zeta. unfold scored, FillModel.scored. fold add_scores.
    set (f := fun i : polygon * Z => (if snd i <? 0 then reversed (fst i) else fst i, sign (snd i))).
    assert (E : map (fun i => (fst i, sign (snd i))) (normalized polygon reversed sorted) = map f sorted).
    { unfold normalized. rewrite map_map. apply map_ext. intros [q a]. unfold f. cbn. now destruct (a <? 0). }
    assert (F : forall i, In i sorted -> clockwise (fst (f i)) /\ forall p, inside (fst (f i)) p = inside (fst i) p).
    { intros [q a] I. rewrite Forall_forall in R. specialize (R _ I). unfold ring_area, f in *. cbn [fst snd] in *. destruct (Z.ltb_spec a 0) as [L|L].
      - destruct R as [[R _]|[_ R]]; [lia|]. now apply (reversed_law _ _ _ _ _ _ _ _ _ laws).
      - destruct R as [[_ R]|[R _]]; [split; [exact R|reflexivity]|lia]. }
    rewrite E, (filter_scores p (length sorted) (map f sorted) (length sorted)) by (rewrite ?map_length; try lia; apply Forall_map, Forall_forall; intros i I; now apply F).
    assert (G : filter (fun e => inside (fst e) p) (map f sorted) = map f (filter (fun e => inside (fst e) p) sorted)).
    { clear -F. induction sorted as [|i l IH]; [reflexivity|]. cbn [map filter]. rewrite (proj2 (F i (or_introl eq_refl))), IH by (intros; apply F; now right). now destruct (inside (fst i) p). }
    rewrite G. rewrite chain_filled.
    - unfold two_largest_agree. rewrite map_map. replace (map (fun x => 0 <? snd (f x)) (filter (fun e => inside (fst e) p) sorted)) with (map (fun r => 0 <? snd r) (filter (fun r => inside (fst r) p) sorted)); [reflexivity|].
      apply map_ext. intros [q a]. unfold f, sign. cbn. now destruct (0 <? a).
    - rewrite map_length. clear. induction sorted as [|i l IH]; [cbn; lia|]. cbn [filter length]. destruct (inside (fst i) p); cbn [length]; lia.
    - unfold chain. apply pairs_map. apply (pairs_filter (fun a b => (nested inside a b /\ Z.abs (snd b) <= Z.abs (snd a)) /\ In a sorted /\ In b sorted)).
      + intros a b [[H L] [Ia Ib]] A B. apply (covered_law _ _ _ _ _ _ _ _ _ laws); [now apply F|now apply F|]. intros q. rewrite !(fun i I => proj2 (F i I)) by assumption. destruct H as [H|[[H _]|[_ H]]]; [rewrite (H p A) in B; discriminate|lia|apply H].
      + apply (pairs_both (fun a b => In a sorted /\ In b sorted) (fun a b => nested inside a b /\ Z.abs (snd b) <= Z.abs (snd a))); [auto|apply pairs_in|].
        apply (pairs_both (nested inside) (fun a b => Z.abs (snd b) <= Z.abs (snd a))); [auto| |exact S].
        apply (pairs_perm (nested inside)) with (2 := P); [|exact N]. intros a b [H|[[H1 H2]|[H1 H2]]]; [left|right; right; auto|right; left; auto].
        intros q B. destruct (inside (fst a) q) eqn:A; [rewrite (H q A) in B; discriminate|reflexivity].
    - apply Forall_forall. intros e I. apply in_map_iff in I as ([q a] & <- & _). unfold unit, f, sign. cbn. destruct (0 <? a); auto.
  Qed.
  Lemma turns_perm p : forall l l', Permutation l l' -> turns inside l p = turns inside l' p /\ depth inside l p = depth inside l' p.
  Proof.
    induction 1 as [|[x a] l l' P [IH1 IH2]|[x a] [y b] l|l l' l'' P1 [A B] P2 [C D]]; cbn [turns depth]; split; try lia.
  Qed.
  Fixpoint around (l : list bool) : Z := match l with [] => 0 | b :: l => (if b then 1 else -1) + around l end.
  Lemma turns_around p l : turns inside l p = around (map (fun r => 0 <? snd r) (filter (fun r => inside (fst r) p) l)).
  Proof. induction l as [|[x a] l IH]; [reflexivity|]. cbn. rewrite IH. destruct (inside x p); cbn; [now destruct (0 <? a)|reflexivity]. Qed.
  Lemma depth_around p l : depth inside l p = length (map (fun r : polygon * Z => 0 <? snd r) (filter (fun r => inside (fst r) p) l)).
  Proof. rewrite map_length. induction l as [|[x a] l IH]; [reflexivity|]. cbn. rewrite IH. destruct (inside x p); reflexivity. Qed.
  (** It is exactly where the rings turn, when no more than two rings are around the point. *)
Theorem C109_shallow : forall rings sorted p, Forall (ring_area clockwise) rings -> ForallOrdPairs (nested inside) rings -> by_area rings sorted -> (depth inside rings p <= 2)%nat ->
    inside_any inside (fill sorted) p = negb (turns inside rings p =? 0).
  Proof.
    intros rings sorted p R N S D. rewrite (C109_filled rings sorted p R N S). destruct (turns_perm p _ _ (proj1 S)) as [T D']. rewrite T, turns_around. rewrite D', depth_around in D.
    unfold two_largest_agree. destruct (map _ _) as [|[] [|[] [|c l]]]; cbn in *; try lia; reflexivity.
  Qed.
  (** It is exactly where the rings turn, when they all turn the same way around the point. *)
Theorem C109_same_way : forall rings sorted p way, Forall (ring_area clockwise) rings -> ForallOrdPairs (nested inside) rings -> by_area rings sorted ->
    (forall r, In r rings -> inside (fst r) p = true -> (0 <? snd r) = way) ->
    inside_any inside (fill sorted) p = negb (turns inside rings p =? 0) /\ inside_any inside (fill sorted) p = inside_any inside (map fst rings) p.
  Proof.
    intros rings sorted p way R N S W. rewrite (C109_filled rings sorted p R N S). destruct (turns_perm p _ _ (proj1 S)) as [T _]. rewrite T, turns_around.
    assert (I : inside_any inside (map fst rings) p = inside_any inside (map fst sorted) p).
    { apply eq_true_iff_eq. unfold inside_any. rewrite !existsb_exists. split; intros (x & X & Y); exists x; (split; [|exact Y]); (eapply Permutation_in; [|exact X]); apply Permutation_map; [exact (proj1 S)|symmetry; exact (proj1 S)]. }
    rewrite I. unfold two_largest_agree. assert (L : forall b, In b (map (fun r => 0 <? snd r) (filter (fun r => inside (fst r) p) sorted)) -> b = way).
    { intros b B. apply in_map_iff in B as (r & <- & R0). apply filter_In in R0 as [R1 R2]. apply W; [|exact R2]. eapply Permutation_in; [symmetry; exact (proj1 S)|exact R1]. }
    assert (J : inside_any inside (map fst sorted) p = negb (Nat.eqb (length (map (fun r : polygon * Z => 0 <? snd r) (filter (fun r => inside (fst r) p) sorted))) 0)).
    { rewrite map_length. clear. induction sorted as [|[x a] l IH]; [reflexivity|]. cbn in *. destruct (inside x p); [reflexivity|exact IH]. }
    rewrite J. clear J I. set (l := map _ _) in *. clearbody l. clear -L.
    assert (A : l = repeat way (length l)) by (induction l as [|b l IH]; [reflexivity|]; cbn; f_equal; [apply L; now left|apply IH; intros; apply L; now right]).
    assert (B : around l = (if way then Z.of_nat (length l) else - Z.of_nat (length l))).
    { rewrite A at 1. generalize (length l) as n. clear. induction n as [|n IH]; [now destruct way|]. cbn [repeat around]. destruct way; lia. }
    rewrite B. destruct l as [|a [|b l]]; [now destruct way|now destruct way|]. rewrite (L a), (L b) by (cbn; auto). rewrite Bool.eqb_reflx. cbn [length Nat.eqb negb]. destruct way; split; try reflexivity; lia.
  Qed.
  (** The polygon with holes: the points of the outer outline that are in no hole. *)
Theorem C109_holes : forall outer inners p, Forall (ring_area clockwise) outer -> Forall (Forall (ring_area clockwise)) inners ->
    inside_any inside (correct_polygon outer inners) p = inside_any inside (fill outer) p && negb (existsb (fun r => inside_any inside (fill r) p) inners).
  Proof.
    intros outer inners p Ro Ri.
    assert (D : forall r, Forall (ring_area clockwise) r -> Forall clockwise (difference (fill r) []) /\ inside_any inside (difference (fill r) []) p = inside_any inside (fill r) p).
    { intros r R. destruct (difference_law _ _ _ _ _ _ _ _ _ laws (fill r) [] (fill_clockwise r R) (Forall_nil _)) as [C E]. split; [exact C|]. unfold inside_any. rewrite E. cbn. now rewrite andb_true_r. }
    assert (G : forall c, Forall clockwise c -> separate inside c -> let c' := fold_left (fun c r => FillModel.result_combine_multiple polygon intersects union c (difference (fill r) [])) inners c in
      Forall clockwise c' /\ inside_any inside c' p = inside_any inside c p || existsb (fun r => inside_any inside (fill r) p) inners).
    { induction Ri as [|r l Rr Rl IH]; intros c C S; cbn [fold_left existsb]; [split; [exact C|now rewrite orb_false_r]|].
      destruct (D r Rr) as [Cd Ed]. destruct (C109_combined (difference (fill r) []) c C Cd S) as (A1 & A2 & A3).
      destruct (IH _ A1 A2) as [B1 B2]. split; [exact B1|]. unfold result_combine_multiple in *. rewrite B2, A3, Ed, orb_assoc. reflexivity. }
    destruct (G [] (Forall_nil _) (FOP_nil _)) as [Cg Eg].
    unfold correct_polygon, FillModel.correct_polygon. unfold inside_any at 1. rewrite (proj2 (difference_law _ _ _ _ _ _ _ _ _ laws _ _ (fill_clockwise outer Ro) Cg)).
    fold fill. unfold inside_any at 1. f_equal. f_equal. exact Eg.
  Qed.
End fill.
Print Assumptions C109_combined. Print Assumptions C109_filled. Print Assumptions C109_shallow. Print Assumptions C109_same_way. Print Assumptions C109_holes.

(** The constructor: a valid concave outline is kept, else the first polygon of the corrected
    one, else the convex hull. *)
Theorem C109_kept : forall polygon is_valid (concave convex : polygon) corrected,
  (is_valid concave = true -> kept_polygon polygon is_valid concave convex corrected = concave) /\
  (is_valid concave = false -> corrected = [] -> kept_polygon polygon is_valid concave convex corrected = convex) /\
  (is_valid concave = false -> forall p l, corrected = p :: l -> kept_polygon polygon is_valid concave convex corrected = p).
Proof. intros. unfold kept_polygon. repeat split; intros; subst; destruct (is_valid concave); easy. Qed.
Print Assumptions C109_kept.

(** ** Polygons made of the cells of a grid, with an order; without the clockwise order the
    operations see nothing *)
Definition cells := (bool * list Z)%type.
Definition seen (c : cells) : list Z := if fst c then snd c else [].
Definition has (c : list Z) (p : Z) : bool := existsb (Z.eqb p) c.
Definition in_cells (c : cells) (p : Z) : bool := has (snd c) p.
Definition meets (a b : cells) : bool := existsb (has (seen b)) (seen a).
Definition joined (a b : cells) : list cells := if meets a b then [(true, seen a ++ seen b)] else [(true, seen a); (true, seen b)].
Definition within (a b : cells) : bool := forallb (has (seen b)) (seen a).
Definition without (a b : list cells) : list cells :=
  map (fun c => (true, filter (fun p => negb (existsb (fun u => has (seen u) p) b)) (seen c))) a.
Definition turned (c : cells) : cells := (negb (fst c), snd c).
Definition cells_clockwise (c : cells) : Prop := fst c = true.
Lemma has_in c p : has c p = true <-> In p c.
Proof. unfold has. rewrite existsb_exists. split; [intros (x & X & E); apply Z.eqb_eq in E; now subst|intros I; exists p; split; [exact I|apply Z.eqb_refl]]. Qed.
Lemma seen_clockwise c : cells_clockwise c -> seen c = snd c.
Proof. unfold cells_clockwise, seen. now intros ->. Qed.
Lemma cells_laws : polygon_laws cells Z in_cells cells_clockwise meets joined within without turned.
Proof.
  assert (M : forall a b p, cells_clockwise a -> cells_clockwise b -> in_cells a p = true -> in_cells b p = true -> meets a b = true).
  { intros a b p Ca Cb A B. unfold meets. rewrite !seen_clockwise by assumption. apply existsb_exists. exists p. split; [now apply has_in|exact B]. }
  assert (App : forall a b p, has (a ++ b) p = has a p || has b p) by (intros; apply existsb_app).
  split.
  - intros a b Ca Cb N p A. destruct (in_cells b p) eqn:B; [|reflexivity]. rewrite (M a b p Ca Cb A B) in N. discriminate.
  - intros a b Ca Cb. split.
    + unfold joined. destruct (meets a b); repeat constructor.
    + intros p. unfold joined, in_cells. rewrite !seen_clockwise by assumption. destruct (meets a b); cbn [existsb snd]; rewrite ?App, ?orb_false_r; reflexivity.
  - intros a b p Ca Cb A B. unfold joined. now rewrite (M a b p Ca Cb A B).
  - intros a b Ca Cb. unfold within, in_cells. rewrite !seen_clockwise by assumption. rewrite forallb_forall. split; intros H p P; apply H; now apply has_in.
  - intros a b Fa Fb. split; [apply Forall_map, Forall_forall; intros; reflexivity|]. intros p. unfold without.
    assert (Eb : existsb (fun u => has (seen u) p) b = existsb (fun u => in_cells u p) b).
    { clear -Fb. induction Fb as [|u b C F IH]; [reflexivity|]. cbn. now rewrite seen_clockwise, IH. }
    induction Fa as [|c a Cc Fa IH]; [reflexivity|]. cbn [map existsb]. rewrite IH.
    assert (E : in_cells (true, filter (fun p => negb (existsb (fun u => has (seen u) p) b)) (seen c)) p = in_cells c p && negb (existsb (fun u => in_cells u p) b)).
    { apply eq_true_iff_eq. unfold in_cells at 1. cbn [snd]. rewrite has_in, filter_In, andb_true_iff, seen_clockwise, Eb by exact Cc. unfold in_cells at 2. rewrite has_in. reflexivity. }
    rewrite E. now destruct (in_cells c p), (existsb (fun u => in_cells u p) a), (existsb (fun u => in_cells u p) b).
  - intros [[] c] C; [now destruct C|]. split; reflexivity.
Qed.
Ltac pairs := repeat (apply FOP_cons || apply FOP_nil || apply Forall_cons || apply Forall_nil).
Definition fill_cells := fill cells meets joined within without turned.
(** Defect: an island in a hole is lost, around which the outline turns once. *)
Theorem C109_island_refuted : exists rings sorted p, Forall (ring_area cells_clockwise) rings /\ ForallOrdPairs (nested in_cells) rings /\ by_area rings sorted /\
  turns in_cells rings p = 1 /\ inside_any in_cells (fill_cells sorted) p = false.
Proof.
  exists [((true, [1; 2; 3; 4; 5]), 5); ((false, [2; 3; 4]), -3); ((true, [3]), 1)], [((true, [1; 2; 3; 4; 5]), 5); ((false, [2; 3; 4]), -3); ((true, [3]), 1)], 3.
  assert (W : forall a b, within (true, snd a) (true, snd b) = true -> forall p, in_cells a p = true -> in_cells b p = true) by (intros a b; apply (covered_law _ _ _ _ _ _ _ _ _ cells_laws (true, snd a) (true, snd b)); reflexivity).
  assert (D : forall a b, meets (true, snd a) (true, snd b) = false -> forall p, in_cells a p = true -> in_cells b p = false) by (intros a b; apply (apart_law _ _ _ _ _ _ _ _ _ cells_laws (true, snd a) (true, snd b)); reflexivity).
  repeat split; try reflexivity.
  - pairs; unfold ring_area, cells_clockwise; cbn; intuition (lia || discriminate).
  - pairs; right; right; (split; [cbn; lia|]); apply W; reflexivity.
  - pairs; cbn; lia.
Qed.
Print Assumptions C109_island_refuted.
(** Defect: a part around which the outline does not turn, in four rings, is filled. *)
Theorem C109_hole_filled_refuted : exists rings sorted p, Forall (ring_area cells_clockwise) rings /\ ForallOrdPairs (nested in_cells) rings /\ by_area rings sorted /\
  turns in_cells rings p = 0 /\ inside_any in_cells (fill_cells sorted) p = true.
Proof.
  exists [((true, [1; 2; 3; 4]), 4); ((true, [2; 3; 4]), 3); ((false, [3; 4]), -2); ((false, [3]), -1)], [((true, [1; 2; 3; 4]), 4); ((true, [2; 3; 4]), 3); ((false, [3; 4]), -2); ((false, [3]), -1)], 3.
  assert (W : forall a b, within (true, snd a) (true, snd b) = true -> forall p, in_cells a p = true -> in_cells b p = true) by (intros a b; apply (covered_law _ _ _ _ _ _ _ _ _ cells_laws (true, snd a) (true, snd b)); reflexivity).
  assert (D : forall a b, meets (true, snd a) (true, snd b) = false -> forall p, in_cells a p = true -> in_cells b p = false) by (intros a b; apply (apart_law _ _ _ _ _ _ _ _ _ cells_laws (true, snd a) (true, snd b)); reflexivity).
  repeat split; try reflexivity.
  - pairs; unfold ring_area, cells_clockwise; cbn; intuition (lia || discriminate).
  - pairs; right; right; (split; [cbn; lia|]); apply W; reflexivity.
  - pairs; cbn; lia.
Qed.
Print Assumptions C109_hole_filled_refuted.
(** Defect: the polygon which is kept is not the largest one: one that is joined to a later one
    goes to the end. *)
Theorem C109_largest_refuted : exists rings sorted first other, Forall (ring_area cells_clockwise) rings /\ ForallOrdPairs (nested in_cells) rings /\ by_area rings sorted /\
  (exists rest, fill_cells sorted = first :: rest /\ In other rest) /\
  (forall valid concave convex, valid concave = false -> kept_polygon cells valid concave convex (fill_cells sorted) = first) /\
  (length (nodup Z.eq_dec (snd first)) < length (nodup Z.eq_dec (snd other)))%nat.
Proof.
  exists [((true, [1; 2; 3; 4]), 4); ((false, [7; 8]), -2); ((true, [3]), 1)], [((true, [1; 2; 3; 4]), 4); ((false, [7; 8]), -2); ((true, [3]), 1)], (true, [7; 8]), (true, [1; 2; 3; 4; 3]).
  assert (W : forall a b, within (true, snd a) (true, snd b) = true -> forall p, in_cells a p = true -> in_cells b p = true) by (intros a b; apply (covered_law _ _ _ _ _ _ _ _ _ cells_laws (true, snd a) (true, snd b)); reflexivity).
  assert (D : forall a b, meets (true, snd a) (true, snd b) = false -> forall p, in_cells a p = true -> in_cells b p = false) by (intros a b; apply (apart_law _ _ _ _ _ _ _ _ _ cells_laws (true, snd a) (true, snd b)); reflexivity).
  repeat split; try reflexivity.
  - pairs; unfold ring_area, cells_clockwise; cbn; intuition (lia || discriminate).
  - pairs.
    + left. apply D. reflexivity.
    + right. right. split; [cbn; lia|]. apply W. reflexivity.
    + left. apply D. reflexivity.
  - pairs; cbn; lia.
  - exists [(true, [1; 2; 3; 4; 3])]. split; [reflexivity|now left].
  - intros valid concave convex V. unfold kept_polygon. now rewrite V.
  - cbn. lia.
Qed.
Print Assumptions C109_largest_refuted.
(** The theorems apply: an outline with a hole, and a part with two turns. *)
Example C109_example : let rings := [((false, [3; 4]), -2); ((true, [1; 2; 3; 4]), 4); ((true, [7]), 1); ((true, [6; 7]), 2)] in
  let sorted := [((true, [1; 2; 3; 4]), 4); ((false, [3; 4]), -2); ((true, [6; 7]), 2); ((true, [7]), 1)] in
  Forall (ring_area cells_clockwise) rings /\ ForallOrdPairs (nested in_cells) rings /\ by_area rings sorted /\ fill_cells sorted = [(true, [1; 2]); (true, [6; 7; 7])].
Proof.
  cbv zeta. assert (W : forall a b, within (true, snd a) (true, snd b) = true -> forall p, in_cells a p = true -> in_cells b p = true) by (intros a b; apply (covered_law _ _ _ _ _ _ _ _ _ cells_laws (true, snd a) (true, snd b)); reflexivity).
  assert (D : forall a b, meets (true, snd a) (true, snd b) = false -> forall p, in_cells a p = true -> in_cells b p = false) by (intros a b; apply (apart_law _ _ _ _ _ _ _ _ _ cells_laws (true, snd a) (true, snd b)); reflexivity).
  split; [|split; [|split; [split|]]].
  - pairs; unfold ring_area, cells_clockwise; cbn; intuition (lia || discriminate).
  - pairs; try (left; apply D; reflexivity).
    + right. left. split; [cbn; lia|]. apply W. reflexivity.
    + right. left. split; [cbn; lia|]. apply W. reflexivity.
  - apply NoDup_Permutation_bis; [repeat constructor; cbn; intuition discriminate|cbn; lia|]. intros x. cbn. tauto.
  - pairs; cbn; lia.
  - reflexivity.
Qed.

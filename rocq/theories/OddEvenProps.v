(** The odd-even correction of polygons. *)
From Verif Require Import OddEvenModel OddEvenSpec.
From Coq Require Import List ZArith Bool Arith Permutation Lia ZifyBool ZifyNat.
Import ListNotations.

Section OddEven.
  Context {polygon point : Type}.
  Variable inside : polygon -> point -> bool.
  Variable clockwise : polygon -> Prop.
  Variable valid : list polygon -> Prop.
  Variable sym_difference : list polygon -> list polygon -> list polygon.
  Variable reversed : polygon -> polygon.
  Variable sort : list (list polygon * Z) -> list (list polygon * Z).
  Hypothesis laws : odd_even_laws inside clockwise valid sym_difference reversed.
  Hypothesis sorted : forall l, Permutation l (sort l).
  Notation part := (list polygon * Z)%type.
  Notation covers := (covers inside).

  Definition parity (l : list part) (p : point) : bool := fold_right (fun e b => xorb (covers (fst e) p) b) false l.
  Definition good (l : list part) : Prop := Forall (fun e => valid (fst e)) l.

  Lemma parity_app l m p : parity (l ++ m) p = xorb (parity l p) (parity m p).
  Proof. induction l as [|e l IH]; cbn [app parity fold_right]; [now rewrite xorb_false_l|]. fold (parity (l ++ m) p) (parity l p). rewrite IH. now rewrite xorb_assoc. Qed.
  Lemma parity_perm l m p : Permutation l m -> parity l p = parity m p.
  Proof.
    induction 1 as [|e l m _ IH|e f l|l m n _ IH _ IH']; cbn [parity fold_right]; [reflexivity| | |congruence].
    - fold (parity l p) (parity m p). now rewrite IH.
    - rewrite <- !xorb_assoc. f_equal. apply xorb_comm.
  Qed.

  Fixpoint zip (a b : list part) : list part :=
    match a, b with
    | x :: a, y :: b => (sym_difference (fst y) (fst x), snd x) :: zip a b
    | _, _ => a
    end.
  Lemma zip_length a b : length (zip a b) = length a.
  Proof. revert b. induction a as [|x a IH]; intros [|y b]; cbn; auto. Qed.
  Lemma zip_good a b : length b <= length a -> good a -> good b -> good (zip a b) /\ forall p, parity (zip a b) p = xorb (parity a p) (parity b p).
  Proof.
    revert b. induction a as [|x a IH]; intros [|y b] L A B; cbn in L; try lia; cbn [zip].
    - split; [exact A|reflexivity].
    - split; [exact A|]. intros p. now rewrite xorb_false_r.
    - inversion A; subst. inversion B; subst. destruct (IH b ltac:(lia) H2 H4) as [G E].
      destruct (difference_law _ _ _ _ _ laws (fst y) (fst x) H3 H1) as [V D]. split; [constructor; auto|].
      intros p. cbn [parity fold_right fst]. fold (parity (zip a b) p) (parity a p) (parity b p). rewrite E, D.
      now destruct (covers (fst x) p), (covers (fst y) p), (parity a p), (parity b p).
  Qed.

  Lemma nth_middle_ {A} (l : list A) x m : nth_error (l ++ x :: m) (length l) = Some x.
  Proof. rewrite nth_error_app2 by lia. now rewrite Nat.sub_diag. Qed.
  Lemma assign_middle m a l x : assign polygon (length l) m (l ++ (x, a) :: nil) = l ++ [(m, a)].
  Proof. induction l as [|[y b] l IH]; cbn; [reflexivity|]. now rewrite IH. Qed.
  Lemma assign_app m l e k : assign polygon (length l) m (l ++ e :: k) = l ++ (m, snd e) :: k.
  Proof. induction l as [|[y b] l IH]; destruct e; cbn; [reflexivity|]. now rewrite IH. Qed.

  Lemma pass_zip (b2 : list part) : forall (a1 a2 b1 : list part) d, length a1 = length b1 -> d = length a1 + length a2 -> length b2 <= length a2 ->
    pass polygon sym_difference (length b2) (length a1) d (a1 ++ a2 ++ b1 ++ b2) = Some (a1 ++ zip a2 b2 ++ b1 ++ b2).
  Proof.
    induction b2 as [|y b2 IH]; intros a1 a2 b1 d L D G; [destruct a2; reflexivity|].
    destruct a2 as [|x a2]; [cbn in G; lia|]. cbn [length pass zip].
    assert (((length a1 + d) <? length (a1 ++ (x :: a2) ++ b1 ++ y :: b2)) = true) as ->
      by (rewrite !app_length; cbn [length] in *; lia).
    assert (nth_error (a1 ++ (x :: a2) ++ b1 ++ y :: b2) (length a1 + d) = Some y) as ->.
    { rewrite !app_assoc. replace (length a1 + d) with (length ((a1 ++ x :: a2) ++ b1)) by (rewrite !app_length; cbn [length] in *; lia). apply nth_middle_. }
    assert (nth_error (a1 ++ (x :: a2) ++ b1 ++ y :: b2) (length a1) = Some x) as -> by apply nth_middle_.
    cbn [app]. rewrite assign_app.
    pose proof (IH (a1 ++ [(sym_difference (fst y) (fst x), snd x)]) a2 (b1 ++ [y]) d) as H.
    rewrite !app_length in H. cbn [length] in H, D, G. specialize (H ltac:(lia) ltac:(lia) ltac:(lia)).
    rewrite Nat.add_1_r in H. rewrite <- !app_assoc in H. cbn [app] in H. exact H.
  Qed.

  Lemma halve_parity fuel : forall l, length l <= fuel -> good l ->
    exists l' : list part, halve polygon sym_difference fuel l = Some l' /\ good l' /\ length l' = Nat.min 1 (length l) /\ forall p, parity l' p = parity l p.
  Proof.
    induction fuel as [|fuel IH]; intros l F G; cbn [halve].
    - destruct l; [|cbn in F; lia]. cbn. eexists. repeat split; auto.
    - destruct (1 <? length l) eqn:E; [|exists l; repeat split; auto; destruct l as [|x [|y l]]; cbn in *; lia || reflexivity].
      apply Nat.ltb_lt in E. set (d := length l / 2 + length l mod 2). set (k := length l / 2).
      assert (N : length l = d + k /\ k <= d /\ 1 <= k) .
      { unfold d, k. pose proof (Nat.div_mod (length l) 2 ltac:(lia)). pose proof (Nat.mod_upper_bound (length l) 2 ltac:(lia)). lia. }
      clearbody d k. assert (S : l = firstn d l ++ skipn d l) by (symmetry; apply firstn_skipn).
      assert (L1 : length (firstn d l) = d) by (rewrite firstn_length; lia).
      assert (L2 : length (skipn d l) = k) by (rewrite skipn_length; lia).
      set (a := firstn d l) in *. set (b := skipn d l) in *.
      assert (P : pass polygon sym_difference k 0 d l = Some (zip a b ++ b)).
      { rewrite S. rewrite <- L2. apply (pass_zip b [] a [] d); rewrite ?L1, ?L2; cbn [length Nat.add]; lia || reflexivity. }
      rewrite P. assert (firstn d (zip a b ++ b) = zip a b) as ->.
      { rewrite firstn_app, zip_length, L1, Nat.sub_diag. cbn. rewrite app_nil_r. apply firstn_all2. rewrite zip_length. lia. }
      assert (GA : good a /\ good b) by (rewrite S in G; apply Forall_app in G; exact G).
      destruct (zip_good a b ltac:(lia) (proj1 GA) (proj2 GA)) as [Gz Pz].
      destruct (IH (zip a b)) as (l' & H & G' & L' & P'); [rewrite zip_length; lia|exact Gz|].
      exists l'. split; [exact H|]. split; [exact G'|]. split; [rewrite L', zip_length; lia|].
      intros p. rewrite P', Pz, S, parity_app. reflexivity.
  Qed.

  Lemma around_parity rings : Forall (oriented clockwise) rings ->
    good (normalize polygon reversed (parts polygon rings)) /\ forall p, parity (normalize polygon reversed (parts polygon rings)) p = Nat.odd (around inside rings p).
  Proof.
    induction 1 as [|[r a] l O _ [G P]]; [split; [constructor|reflexivity]|]. cbn [parts map normalize fst snd] in *.
    unfold around in *. cbn [filter fst].
    assert (W : clockwise (if (a <? 0)%Z then reversed r else r) /\ forall p, inside (if (a <? 0)%Z then reversed r else r) p = inside r p).
    { destruct O as [[A C]|[A C]]; cbn [fst snd] in *.
      - assert ((a <? 0)%Z = false) as -> by lia. auto.
      - assert ((a <? 0)%Z = true) as -> by lia. destruct (reversed_law _ _ _ _ _ laws r C). auto. }
    destruct W as [C I]. split; [constructor; [now apply (single_law _ _ _ _ _ laws)|exact G]|].
    intros p. cbn [parity fold_right fst map]. unfold parity, normalize, parts in P. rewrite P. unfold OddEvenSpec.covers. cbn [existsb]. rewrite I, orb_false_r.
    destruct (inside r p); cbn [length]; rewrite ?Nat.odd_succ, <- ?Nat.negb_odd; [now destruct (Nat.odd _)|now destruct (Nat.odd _)].
  Qed.
  Lemma normalize_perm l m : Permutation l m -> Permutation (normalize polygon reversed l) (normalize polygon reversed m).
  Proof. apply Permutation_map. Qed.
  Lemma good_perm l m : Permutation l m -> good l -> good m.
  Proof. intros P. unfold good. rewrite !Forall_forall. intros G e I. apply G. eapply Permutation_in; [symmetry; exact P|exact I]. Qed.

  (** the filling of the rings *)
  Lemma filled rings : Forall (oriented clockwise) rings ->
    exists l : list part, fill_odd_even polygon sym_difference reversed sort (parts polygon rings) = Some l /\ good l /\
      length l = Nat.min 1 (length rings) /\ forall p, parity l p = Nat.odd (around inside rings p).
  Proof.
    intros O. destruct (around_parity rings O) as [G P]. pose proof (normalize_perm _ _ (sorted (parts polygon rings))) as N.
    unfold fill_odd_even.
    assert (L : length (normalize polygon reversed (sort (parts polygon rings))) = length rings).
    { rewrite <- (Permutation_length N). unfold normalize, parts. now rewrite !map_length. }
    destruct (halve_parity (length (parts polygon rings)) (normalize polygon reversed (sort (parts polygon rings)))) as (l & H & Gl & Ll & Pl).
    - rewrite L. unfold parts. rewrite map_length. lia.
    - eapply good_perm; eauto.
    - exists l. split; [exact H|]. split; [exact Gl|]. split; [now rewrite Ll, L|]. intros p. rewrite Pl, <- P. symmetry. now apply parity_perm.
  Qed.

  (** C117: the rings of an outline are filled where a point is in an odd number of them: the loop
      ends and reads no missing element, in whatever order the rings are sorted. *)
Theorem C117_filled rings : Forall (oriented clockwise) rings -> rings <> [] ->
    exists m a, fill_odd_even polygon sym_difference reversed sort (parts polygon rings) = Some [(m, a)] /\ valid m /\
      forall p, covers m p = Nat.odd (around inside rings p).
  Proof.
    intros O E. destruct (filled rings O) as (l & H & G & L & P). destruct rings as [|r rings]; [contradiction|]. cbn [length Nat.min] in L.
    destruct l as [|[m a] [|? ?]]; [discriminate| |discriminate]. exists m, a. split; [exact H|]. inversion G; subst. split; [assumption|].
    intros p. rewrite <- P. cbn. now rewrite xorb_false_r.
  Qed.

  Lemma outline_parity outer inners : Forall (oriented clockwise) outer -> valid inners ->
    exists m, correct_outline polygon sym_difference reversed sort outer inners = Some m /\ valid m /\
      forall p, covers m p = match outer with [] => false | _ => xorb (Nat.odd (around inside outer p)) (covers inners p) end.
  Proof.
    intros O V. unfold correct_outline. destruct outer as [|r outer].
    - destruct (filled [] O) as (l & H & G & L & P). rewrite H. cbn in L. destruct l; [|discriminate].
      exists []. split; [reflexivity|]. split; [apply (empty_law _ _ _ _ _ laws)|reflexivity].
    - destruct (C117_filled (r :: outer) O) as (m & a & -> & Vm & P); [discriminate|].
      destruct (difference_law _ _ _ _ _ laws m inners Vm V) as [W D]. eexists. split; [reflexivity|]. split; [exact W|].
      intros p. cbn [fst]. now rewrite D, P.
  Qed.
  Lemma odd_app l m p : Nat.odd (around inside (l ++ m) p) = xorb (Nat.odd (around inside l p)) (Nat.odd (around inside m p)).
  Proof. unfold around. rewrite filter_app, app_length. apply Nat.odd_add. Qed.
  Lemma holes_parity holes : Forall (Forall (oriented clockwise)) holes -> forall combined, valid combined ->
    exists m, combine_holes polygon sym_difference reversed sort holes combined = Some m /\ valid m /\
      forall p, covers m p = xorb (covers combined p) (Nat.odd (around inside (concat holes) p)).
  Proof.
    induction 1 as [|h holes O _ IH]; intros c V; cbn [combine_holes concat].
    - exists c. split; [reflexivity|]. split; [exact V|]. intros p. symmetry. apply xorb_false_r.
    - destruct (outline_parity h [] O (empty_law _ _ _ _ _ laws)) as (m & -> & Vm & P).
      destruct (difference_law _ _ _ _ _ laws c m V Vm) as [W D]. destruct (IH _ W) as (m' & H & V' & P').
      exists m'. split; [exact H|]. split; [exact V'|]. intros p. rewrite P', D, P, odd_app, xorb_assoc. f_equal. f_equal.
      destruct h; [reflexivity|]. apply xorb_false_r.
  Qed.

  (** C117: the corrected polygons cover the points which are in an odd number of the rings of all
      the polygons, holes included. *)
Theorem C117_corrected input : Forall (all_oriented clockwise) input ->
    exists m, correct_odd_even polygon sym_difference reversed sort input [] = Some m /\ valid m /\
      forall p, covers m p = Nat.odd (around_all inside input p).
  Proof.
    intros O.
    assert (K : forall output, valid output -> exists m, correct_odd_even polygon sym_difference reversed sort input output = Some m /\ valid m /\
      forall p, covers m p = xorb (covers output p) (Nat.odd (around_all inside input p))).
    { induction O as [|[outer holes] input [O1 O2] _ IH]; intros output V; cbn [correct_odd_even].
      - exists output. split; [reflexivity|]. split; [exact V|]. intros p. symmetry. apply xorb_false_r.
      - unfold correct_polygon. cbn [fst snd] in O1, O2.
        destruct (holes_parity holes O2 [] (empty_law _ _ _ _ _ laws)) as (i & -> & Vi & Pi).
        destruct (outline_parity outer i O1 Vi) as (m & -> & Vm & Pm).
        destruct (difference_law _ _ _ _ _ laws output m V Vm) as [W D]. destruct (IH _ W) as (m' & H & V' & P').
        exists m'. split; [exact H|]. split; [exact V'|]. intros p. rewrite P', D, Pm, xorb_assoc. f_equal.
        unfold around_all. cbn [fold_right]. fold (around_all inside input p). rewrite Nat.odd_add. f_equal.
        unfold around_polygon. cbn [fst snd]. destruct outer; [reflexivity|]. rewrite Nat.odd_add, Pi. change (covers [] p) with false. now rewrite xorb_false_l. }
    destruct (K [] (empty_law _ _ _ _ _ laws)) as (m & H & V & P). exists m. split; [exact H|]. split; [exact V|].
    intros p. rewrite P. change (covers [] p) with false. now rewrite xorb_false_l.
  Qed.
  (** C117: the order of the rings, of the polygons and the direction of the outlines do not matter. *)
Theorem C117_order input input' : Forall (all_oriented clockwise) input -> Permutation input input' ->
    exists m m', correct_odd_even polygon sym_difference reversed sort input [] = Some m /\
      correct_odd_even polygon sym_difference reversed sort input' [] = Some m' /\ forall p, covers m p = covers m' p.
  Proof.
    intros O P. assert (O' : Forall (all_oriented clockwise) input').
    { rewrite Forall_forall in *. intros x I. apply O. eapply Permutation_in; [symmetry; exact P|exact I]. }
    destruct (C117_corrected input O) as (m & H & _ & C). destruct (C117_corrected input' O') as (m' & H' & _ & C').
    exists m, m'. split; [exact H|]. split; [exact H'|]. intros p. rewrite C, C'. f_equal. unfold around_all.
    clear -P. induction P; cbn [fold_right]; lia.
  Qed.
End OddEven.

(** Polygons made of the cells of a line, the flag is the clockwise order. *)
Definition cells : Type := bool * list Z.
Definition in_cells (c : cells) (z : Z) : bool := existsb (Z.eqb z) (snd c).
Definition cells_clockwise (c : cells) : Prop := fst c = true.
Definition cells_valid (m : list cells) : Prop := Forall cells_clockwise m.
Definition cells_reversed (c : cells) : cells := (negb (fst c), snd c).
Definition cells_difference (a b : list cells) : list cells :=
  let u := concat (map snd a) in let v := concat (map snd b) in
  [(true, filter (fun z => negb (existsb (Z.eqb z) v)) u ++ filter (fun z => negb (existsb (Z.eqb z) u)) v)].
Lemma cells_laws : odd_even_laws in_cells cells_clockwise cells_valid cells_difference cells_reversed.
Proof.
  assert (E : forall z l, existsb (Z.eqb z) l = true <-> In z l).
  { intros z l. rewrite existsb_exists. split; [intros (x & I & H); apply Z.eqb_eq in H; now subst|intros I; exists z; split; [exact I|apply Z.eqb_refl]]. }
  assert (C : forall m p, covers in_cells m p = existsb (Z.eqb p) (concat (map snd m))).
  { intros m p. unfold covers, in_cells. induction m as [|c m IH]; [reflexivity|]. cbn [existsb map concat]. now rewrite IH, existsb_app. }
  split.
  - constructor.
  - intros a A. constructor; [exact A|constructor].
  - intros a b A B. split; [constructor; [reflexivity|constructor]|]. intros p. rewrite !C. unfold cells_difference. cbn [map snd concat].
    rewrite app_nil_r. set (u := concat (map snd a)). set (v := concat (map snd b)).
    destruct (existsb (Z.eqb p) u) eqn:U, (existsb (Z.eqb p) v) eqn:V; cbn [xorb].
    + apply not_true_is_false. rewrite E. intros I. apply in_app_or in I as [I|I]; apply filter_In in I as [_ I]; rewrite ?U, ?V in I; discriminate.
    + apply E, in_or_app. left. apply filter_In. rewrite V. apply E in U. auto.
    + apply E, in_or_app. right. apply filter_In. rewrite U. apply E in V. auto.
    + apply not_true_is_false. rewrite E. intros I. apply in_app_or in I as [I|I]; apply filter_In in I as [I _]; apply E in I; congruence.
  - intros [b l] N. unfold cells_clockwise in *. cbn in *. split; [now destruct b|reflexivity].
Qed.
(** Three nested rings, the second one turning the other way, and a hole: the point 3, in the three
    rings, is covered, the point 4, in the two first, is not, the point 1, in the first one and in
    the hole, is not. *)
Example C117_example :
  let outer := [((true, [1; 2; 3; 4; 5]), 5); ((false, [2; 3; 4]), -3); ((true, [3]), 1)]%Z in
  let holes := [[((false, [1]), -1)]]%Z in
  Forall (all_oriented cells_clockwise) [(outer, holes)] /\
  exists m, correct_odd_even cells cells_difference cells_reversed (fun l => l) [(outer, holes)] [] = Some m /\
    map (covers in_cells m) [1; 2; 3; 4; 5; 6]%Z = [false; false; true; false; true; false].
Proof.
  intros outer holes. split.
  - constructor; [|constructor]. split; cbn [fst snd]; repeat (apply Forall_cons || apply Forall_nil); unfold oriented, cells_clockwise; cbn; (left; split; [lia|reflexivity]) || (right; split; [lia|discriminate]).
  - eexists. split; reflexivity.
Qed.
Print Assumptions C117_filled. Print Assumptions C117_corrected. Print Assumptions C117_order.

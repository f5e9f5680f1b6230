(** C125: the matches of all the maps are gathered, in an order that depends on addresses. *)
From Coq Require Import List ZArith Lia Bool Permutation Sorted Arith.
From Coq Require Import ZifyBool ZifyNat.
From Verif Require Import GatherModel GatherSpec PoseOptModel RansacDrawModel RansacDrawProps.
Import ListNotations.

Section Gather.
Context {D Det Ctx View Mt U : Type}.
Variable addr : Mt -> Z.
Notation maps := (lmaps D Det Ctx View Mt U).
Notation merge := (merge addr).
Notation gather := (@gather D Det Ctx View Mt U addr).

Lemma merge_nil_l b : merge [] b = b.
Proof. now destruct b. Qed.
Lemma merge_nil_r a : merge a [] = a.
Proof. now destruct a. Qed.
Lemma merge_cons x a y b : merge (x :: a) (y :: b) = if (addr y <? addr x)%Z then y :: merge (x :: a) b else x :: merge a (y :: b).
Proof. reflexivity. Qed.
Lemma merge_ind (P : list Mt -> list Mt -> list Mt -> Prop) :
  (forall b, P [] b b) -> (forall a, P a [] a) ->
  (forall x a y b, (addr y < addr x)%Z -> P (x :: a) b (merge (x :: a) b) -> P (x :: a) (y :: b) (y :: merge (x :: a) b)) ->
  (forall x a y b, (addr x <= addr y)%Z -> P a (y :: b) (merge a (y :: b)) -> P (x :: a) (y :: b) (x :: merge a (y :: b))) ->
  forall a b, P a b (merge a b).
Proof.
  intros N M L R. induction a as [|x a IHa]; [intros b; rewrite merge_nil_l; apply N|].
  induction b as [|y b IHb]; [rewrite merge_nil_r; apply M|]. rewrite merge_cons.
  destruct (Z.ltb_spec (addr y) (addr x)); auto.
Qed.
Lemma Forall2_len {A B} (R : A -> B -> Prop) l m : Forall2 R l m -> length l = length m.
Proof. induction 1; cbn; congruence. Qed.
Lemma sub_refl {A} (l : list A) : subsequence l l.
Proof. induction l; constructor; auto. Qed.
Lemma sub_nil_l {A} (l : list A) : subsequence [] l.
Proof. induction l; constructor; auto. Qed.
Lemma sub_trans {A} (b c : list A) : subsequence b c -> forall a, subsequence a b -> subsequence a c.
Proof.
  induction 1 as [|x b c S IH|x b c S IH]; intros a H; [assumption| |constructor; auto].
  inversion H; subst; constructor; auto.
Qed.
Lemma merge_perm : forall a b, Permutation (a ++ b) (merge a b).
Proof.
  apply (merge_ind (fun a b l => Permutation (a ++ b) l)); intros; cbn [app]; auto.
  - now rewrite app_nil_r.
  - change (x :: a ++ y :: b) with ((x :: a) ++ y :: b). rewrite <- Permutation_middle. now constructor.
Qed.
Lemma merge_sub : forall a b, subsequence a (merge a b) /\ subsequence b (merge a b).
Proof.
  apply (merge_ind (fun a b l => subsequence a l /\ subsequence b l)); intros.
  - split; [apply sub_nil_l|apply sub_refl].
  - split; [apply sub_refl|apply sub_nil_l].
  - destruct H0. split; constructor; auto.
  - destruct H0. split; constructor; auto.
Qed.
Lemma merge_sorted : forall a b, in_address_order addr a -> in_address_order addr b -> in_address_order addr (merge a b).
Proof.
  unfold in_address_order.
  assert (T : forall (x : Mt) l, (forall z, In z l -> (addr x <= addr z)%Z) -> Forall (fun y => (addr x <= addr y)%Z) l) by (intros; now apply Forall_forall).
  induction a as [|x a IHa]; [intros b; now rewrite merge_nil_l|]. induction b as [|y b IHb]; [now rewrite merge_nil_r|].
  intros A B. rewrite merge_cons. inversion A as [|? ? A1 A2]; subst. inversion B as [|? ? B1 B2]; subst.
  rewrite Forall_forall in A2, B2. destruct (Z.ltb_spec (addr y) (addr x)) as [L|L]; constructor; auto; apply T; intros z I;
    apply (Permutation_in z (Permutation_sym (merge_perm _ _))), in_app_iff in I.
  - destruct I as [[<-|I]|I]; [lia|apply A2 in I; lia|apply B2 in I; lia].
  - destruct I as [I|[<-|I]]; [apply A2 in I; lia|lia|apply B2 in I; lia].
Qed.

(** the matches of each map *)
Definition found v (dets : @detections Det) (ms r : maps) (ls : list (list Mt)) : Prop :=
  Forall2 (fun ps prl => get_matches (fst ps) v (p_min_features (fst ps)) (dets (p_kind (fst ps))) (snd ps) = Ret (snd (fst prl), snd prl) /\ fst (fst prl) = fst ps)
    ms (combine r ls) /\ length r = length ls.

Lemma gather_found v dets : forall ms acc r out, gather v dets ms acc = Ret (r, out) ->
  exists ls, @found v dets ms r ls /\ gathered (acc :: ls) out /\
    (in_address_order addr acc -> (forall l, In l ls -> in_address_order addr l) -> in_address_order addr out).
Proof.
  induction ms as [|(p, s) ms IH]; intros acc r out H; cbn [GatherModel.gather] in H.
  - injection H as <- <-. exists []. repeat split.
    + constructor.
    + cbn. now rewrite app_nil_r.
    + intros m [<-|[]]. apply sub_refl.
    + auto.
  - unfold bind in H. destruct (get_matches p v (p_min_features p) (dets (p_kind p)) s) as [(s', mt)| |] eqn:G; try discriminate.
    destruct (gather v dets ms (merge acc mt)) as [(r', o)| |] eqn:R; try discriminate. injection H as <- <-.
    apply IH in R as (ls & (F & L) & (P & S) & O). exists (mt :: ls). repeat split.
    + cbn [combine]. constructor; [split; [exact G|reflexivity]|exact F].
    + cbn [length]. now rewrite L.
    + cbn [concat] in *. rewrite <- P, app_assoc. apply Permutation_app_tail, merge_perm.
    + destruct (merge_sub acc mt) as (Sa & Sm). assert (Sx := S _ (or_introl eq_refl)).
      intros m [<-|[<-|I]]; [now apply (sub_trans _ _ Sx)|now apply (sub_trans _ _ Sx)|apply S; now right].
    + intros A Ls. apply O; [apply merge_sorted; auto; apply Ls; now left|intros; apply Ls; now right].
Qed.
Lemma lm_find_found v dets : forall (ms : maps) r ls, @found v dets ms r ls -> lm_find v dets ms = Ret (r, concat ls).
Proof.
  induction ms as [|(p, s) ms IH]; intros r ls (F & L).
  - inversion F as [E|]. destruct r, ls; try discriminate. reflexivity.
  - destruct r as [|(q, s') r], ls as [|l ls]; try discriminate; cbn [combine] in F; inversion F as [|? ? ? ? (G & E) F']; subst.
    cbn [fst snd] in *. subst q. cbn [lm_find]. rewrite G. cbn [bind]. rewrite (IH r ls); [reflexivity|]. split; [exact F'|]. now injection L.
Qed.
Lemma gather_as_find v dets : forall ms acc,
  match gather v dets ms acc, lm_find v dets ms with
  | Ret (r, _), Ret (r', _) => r = r' | UB, UB => True | Diverge, Diverge => True | _, _ => False
  end.
Proof.
  induction ms as [|(p, s) ms IH]; intros acc; cbn [GatherModel.gather lm_find]; [reflexivity|].
  destruct (get_matches p v (p_min_features p) (dets (p_kind p)) s) as [(s', mt)| |]; cbn [bind]; auto.
  specialize (IH (merge acc mt)). destruct (gather v dets ms (merge acc mt)) as [(r, o)| |], (lm_find v dets ms) as [(r', o')| |]; cbn [bind]; try contradiction; auto.
  now rewrite IH.
Qed.

(** Every match of every map is in the list given to the pose optimization, once for each time it was
    found and in the order of its map, whatever the addresses; and the maps are left in the same state. *)
Theorem C125_gathered : forall v (dets : @detections Det) (ms : maps),
  match find_feature_matches addr v dets ms, lm_find v dets ms with
  | Ret (r, out), Ret (r', l) => r = r' /\ Permutation l out
  | UB, UB => True | Diverge, Diverge => True | _, _ => False
  end /\
  forall r out, find_feature_matches addr v dets ms = Ret (r, out) ->
    exists ls, length ls = length ms /\ gathered ls out /\
      forall i p s, nth_error ms i = Some (p, s) ->
        exists s' l, get_matches p v (p_min_features p) (dets (p_kind p)) s = Ret (s', l) /\ nth_error r i = Some (p, s') /\ nth_error ls i = Some l.
Proof.
  intros v dets ms. unfold find_feature_matches. split.
  - assert (A := gather_as_find v dets ms []). destruct (gather v dets ms []) as [(r, out)| |] eqn:G, (lm_find v dets ms) as [(r', l)| |] eqn:F; auto.
    split; [exact A|]. apply gather_found in G as (ls & Fo & (P & _) & _). apply lm_find_found in Fo. rewrite F in Fo. injection Fo as _ ->. exact P.
  - intros r out G. apply gather_found in G as (ls & (Fo & L) & (P & S) & _). exists ls.
    assert (Lm : length ms = length r) by (apply Forall2_len in Fo; rewrite combine_length, L, Nat.min_id in Fo; congruence). split; [congruence|]. split.
    + split; [exact P|]. intros m I. apply S. now right.
    + clear - Fo L. revert r ls Fo L. induction ms as [|ps ms IH]; intros r ls Fo L i p s N; [destruct i; discriminate|].
      destruct r as [|(q, s') r], ls as [|l ls]; try discriminate; cbn [combine] in Fo; inversion Fo as [|? ? ? ? (G & E) F']; subst.
      destruct i as [|i].
      * injection N as ->. cbn [fst snd] in *. subst q. exists s', l. auto.
      * cbn [nth_error] in *. apply (IH r ls F' ltac:(now injection L) i p s N).
Qed.
(** When each map finds its matches at increasing addresses, as the standard asks, the list is in this
    order too. *)
Theorem C125_sorted : forall v (dets : @detections Det) (ms : maps) r out, find_feature_matches addr v dets ms = Ret (r, out) ->
  (forall p s s' l, In (p, s) ms -> get_matches p v (p_min_features p) (dets (p_kind p)) s = Ret (s', l) -> in_address_order addr l) ->
  in_address_order addr out.
Proof.
  intros v dets ms r out G A. apply gather_found in G as (ls & (Fo & L) & _ & O). apply O; [constructor|]. clear - Fo L A.
  revert r ls Fo L. induction ms as [|(p, s) ms IH]; intros r ls Fo L l I.
  - inversion Fo as [E|]. destruct r, ls; try discriminate. contradiction.
  - destruct r as [|(q, s') r], ls as [|l' ls]; try discriminate; cbn [combine] in Fo; inversion Fo as [|? ? ? ? (G & E) F']; subst.
    cbn [fst snd] in *. destruct I as [<-|I].
    + apply (A p s s' l'); [now left|exact G].
    + apply (IH ltac:(intros p' s0 s1 l0 I0; apply A; now right) r ls F' ltac:(now injection L) l I).
Qed.
End Gather.
Print Assumptions C125_gathered.
Print Assumptions C125_sorted.

(** ** Concrete maps: a feature whose payload is [m] finds the match [m] *)
Definition echo (kind : nat) : policy nat nat unit unit nat unit :=
  mkPolicy (fun _ _ => false) (fun _ _ => false) (fun _ => false) (fun _ => false) (fun _ _ => true)
    (fun _ _ _ _ f _ => ([f_data f], [f_data f])) (fun _ d _ => (d, true)) (fun _ => true) (fun _ _ => COk 0) Some (fun _ _ => None) kind 1 (fun _ => None).
Definition holding (l : list nat) : fstate nat :=
  mkFState true (map (fun m => (N.of_nat (S m), mkFeat (N.of_nat (S m)) 0 0 [] m)) l) [] [].
Definition two_maps : lmaps nat nat unit unit nat unit := [(echo 0, holding [0]); (echo 1, holding [1; 2; 3; 4; 5])].
Definition six (k : nat) : list nat := repeat 0 6.

(** The list of a map is in the order of its features, not of the addresses: the merge is called outside
    of what the standard defines. *)
Theorem C125_standard_refuted : exists (addr : nat -> Z) (p : policy nat nat unit unit nat unit) (s : fstate nat) s' l,
  get_matches p tt (p_min_features p) (six 0) s = Ret (s', l) /\ ~ in_address_order addr l.
Proof.
  exists (fun m => (10 - Z.of_nat m)%Z), (echo 0), (holding [1; 2]). do 2 eexists. split; [reflexivity|].
  intros S. inversion S as [|? ? _ F]; subst. inversion F; subst. cbn in *. lia.
Qed.
(** The order depends on the addresses: the same frame and maps, and the same random numbers, give two
    different subsets to the RANSAC, one with only inliers and one without. *)
Theorem C125_reproducible_refuted : exists addr1 addr2 r out1 out2 (inlier : nat -> bool),
  find_feature_matches addr1 tt six two_maps = Ret (r, out1) /\ find_feature_matches addr2 tt six two_maps = Ret (r, out2) /\
  (forall x y, addr1 x = addr1 y -> x = y) /\ (forall x y, addr2 x = addr2 y -> x = y) /\
  draws_inliers (fun _ => Point) inlier out1 = true /\ draws_inliers (fun _ => Point) inlier out2 = false.
Proof.
  exists (fun m => (- Z.of_nat m)%Z), Z.of_nat. do 3 eexists. exists (fun m => negb (Nat.eqb m 0)).
  split; [reflexivity|]. split; [reflexivity|]. split; [intros; lia|]. split; [intros; lia|].
  split; (rewrite draws_first; [reflexivity|discriminate|cbn; lia]).
Qed.
Example C125_example : forall addr, (forall m, addr m = Z.of_nat m) ->
  find_feature_matches addr tt six [(echo 0, holding [1; 3; 4]); (echo 1, holding [0; 2; 5])] =
  Ret ([(echo 0, mkFState true (map (fun m => (N.of_nat (S m), mkFeat (N.of_nat (S m)) 0 0 [m] m)) [1; 3; 4]) [] [false; true; false; true; true; false]);
        (echo 1, mkFState true (map (fun m => (N.of_nat (S m), mkFeat (N.of_nat (S m)) 0 0 [m] m)) [0; 2; 5]) [] [true; false; true; false; false; true])], [0; 1; 2; 3; 4; 5]).
Proof. intros addr A. unfold find_feature_matches. cbn. rewrite ?A. cbn. rewrite ?A. cbn. reflexivity. Qed.
Print Assumptions C125_standard_refuted.
Print Assumptions C125_reproducible_refuted.

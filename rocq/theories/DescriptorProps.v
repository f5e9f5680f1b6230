(** C122: each keypoint and each feature of the map keeps its own descriptor, although the matrices are shared. *)
From Coq Require Import List Arith NArith Bool Lia.
From Verif Require Import DescriptorModel DescriptorSpec.
Import ListNotations.
Local Open Scope nat_scope.

(** ** The container of followed keypoints *)
Section Container.
Context {position : Type}.
Lemma held_spec (l : list (container_call position)) : forall c before,
  length (points c) = length (ids c) -> combine (ids c) (points c) = before ->
  let c' := fold_left container_step l c in
  length (points c') = length (ids c') /\ combine (ids c') (points c') = held l before.
Proof.
  induction l as [|[|n|id p] l IH]; intros c before L C; cbn [fold_left held].
  - auto.
  - apply IH; reflexivity.
  - apply IH; assumption.
  - apply IH; cbn [container_step points ids]; [rewrite !app_length; cbn; lia|].
    rewrite <- C. clear -L. destruct c as [ps is]. cbn [points ids] in *. revert is L.
    induction ps as [|q ps IH]; intros [|i is] L; try discriminate L; [reflexivity|]. cbn. f_equal. apply IH. cbn in L. lia.
Qed.
Lemma nth_error_combine {A B} (l : list A) : forall (m : list B) i, length m = length l ->
  nth_error (combine l m) i = match nth_error l i, nth_error m i with Some a, Some b => Some (a, b) | _, _ => None end.
Proof.
  induction l as [|a l IH]; intros [|b m] [|i] L; try discriminate L; try reflexivity. cbn. apply IH. cbn in L. lia.
Qed.
Theorem C122_container :
  forall l : list (container_call position),
  let c := fold_left container_step l (mkFollowed [] []) in
  container_size c = Some (length (held l [])) /\
  (forall i, container_at c i = nth_error (held l []) i) /\
  map snd (held l []) = points c /\ map fst (held l []) = ids c.
Proof.
  intros l c. destruct (held_spec l (mkFollowed [] []) [] eq_refl eq_refl) as (L & C). fold c in L, C.
  assert (S : container_size c = Some (length (held l []))).
  { unfold container_size. rewrite L, Nat.eqb_refl. rewrite <- C, combine_length, L, Nat.min_id. reflexivity. }
  split; [exact S|]. split; [|split].
  - intros i. unfold container_at. rewrite S. destruct (Nat.ltb_spec i (length (held l []))) as [I|I].
    + rewrite <- C. rewrite nth_error_combine by exact L. reflexivity.
    + symmetry. apply nth_error_None. exact I.
  - rewrite <- C. clear - L. destruct c as [ps is]. cbn [points ids] in *. revert is L.
    induction ps as [|q ps IH]; intros [|i is] L; try discriminate L; [reflexivity|]. cbn. f_equal. apply IH. cbn in L. lia.
  - rewrite <- C. clear - L. destruct c as [ps is]. cbn [points ids] in *. revert is L.
    induction ps as [|q ps IH]; intros [|i is] L; try discriminate L; [reflexivity|]. cbn. f_equal. apply IH. cbn in L. lia.
Qed.
End Container.
Print Assumptions C122_container.

(** ** The descriptors *)
Section Values.
Context {position keypoint descriptor : Type}.
Variable measure : position -> keypoint.
Notation state := (state keypoint descriptor).
Notation ideal := (ideal keypoint descriptor).
Notation action := (action position descriptor).

Definition seen (h : heap descriptor) (m : header) : bool := match content h m with Some _ => false | None => true end.
Definition related (s : state) (t : ideal) : Prop :=
  map (content (memory s)) (features s) = map Some (values t) /\
  (forall index, (index < 2 ^ 32)%N ->
     match at_index (memory s) (current s) index with
     | None => nth_error (known t) (N.to_nat index) = None
     | Some (p, d) => nth_error (known t) (N.to_nat index) = Some (p, content (memory s) d) /\ is_empty (memory s) d = seen (memory s) d
     end).
Lemma content_app h b m v : content h m = Some v -> content (descriptor := descriptor) (h ++ b) m = Some v.
Proof.
  destruct m as [|w|w i]; cbn; try discriminate. destruct (nth_error h w) eqn:E; [|discriminate].
  rewrite nth_error_app1, E by (apply nth_error_Some; congruence). auto.
Qed.
Lemma contents_app h b l vs : map (content h) l = map Some vs -> map (content (descriptor := descriptor) (h ++ b)) l = map Some vs.
Proof.
  revert vs. induction l as [|m l IH]; intros [|v vs] H; try discriminate H; [reflexivity|]. cbn in *. injection H as H1 H2.
  rewrite (content_app _ _ _ _ H1), (IH _ H2). reflexivity.
Qed.
Lemma index_small i : (i < 2 ^ 32)%N -> N.to_nat (i mod 2 ^ 32)%N = N.to_nat i.
Proof. intros H. rewrite N.mod_small by exact H. reflexivity. Qed.
Lemma nth_map_some {A B} (f : A -> B) l i : nth_error (map f l) i = option_map f (nth_error l i).
Proof. apply nth_error_map. Qed.

Lemma frame_related s t f : related s t ->
  let '(h, detected, m) := describe (memory s) f in
  related (mkState h (set measure detected m (flow f)) (features s)) (mkIdeal (expected_keypoints measure f) (values t)).
Proof.
  intros (F & _). unfold describe.
  assert (E : detection f && negb match found f with [] => true | _ => false end = false ->
     related (mkState (memory s) (set measure [] Empty (flow f)) (features s)) (mkIdeal (expected_keypoints measure f) (values t))).
  { intros N. split; [exact F|]. intros index I. unfold at_index, expected_keypoints. cbn [current memory known keypoints set descriptors map app rows].
    rewrite N. cbn [app]. rewrite (index_small _ I), !nth_map_some. destruct (nth_error (points (flow f)) (N.to_nat index)); cbn; [|reflexivity].
    split; reflexivity. }
  destruct (detection f) eqn:D; [|apply E; reflexivity].
  destruct (found f) as [|q qs] eqn:Q; [apply E; reflexivity|]. clear E.
  set (kept := extract f (q :: qs)). split; cbn [memory features values].
  - apply contents_app, F.
  - intros index I. unfold at_index, expected_keypoints. cbn [current memory known keypoints set descriptors rows]. rewrite D, Q. cbn [andb negb]. fold kept.
    rewrite (index_small _ I). set (i := N.to_nat index).
    assert (B : nth (length (memory s)) (memory s ++ [map snd kept]) [] = map snd kept) by (rewrite app_nth2, Nat.sub_diag by lia; reflexivity).
    assert (B' : nth_error (memory s ++ [map snd kept]) (length (memory s)) = Some (map snd kept)) by (rewrite nth_error_app2, Nat.sub_diag by lia; reflexivity).
    rewrite B, map_length. destruct (Nat.ltb_spec i (length kept)) as [L|L].
    + rewrite !nth_error_app1 by (rewrite !map_length; exact L). rewrite !map_map, !nth_map_some.
      destruct (nth_error kept i) as [[p d]|] eqn:K; [|apply nth_error_None in K; lia]. cbn. rewrite B', nth_map_some, K. cbn.
      split; [reflexivity|]. unfold seen. cbn. rewrite B', nth_map_some, K. reflexivity.
    + rewrite !nth_error_app2 by (rewrite !map_length; exact L). rewrite !map_length, !nth_map_some.
      destruct (nth_error (points (flow f)) (i - length kept)); cbn; [|reflexivity]. split; reflexivity.
Qed.
Lemma features_nth s t i : related s t -> option_map (content (memory s)) (nth_error (features s) i) = option_map Some (nth_error (values t) i).
Proof. intros (F & _). rewrite <- !nth_error_map, F. reflexivity. Qed.
Lemma map_firstn_skipn {A B} (f : A -> B) i l : map f (firstn i l) = firstn i (map f l) /\ map f (skipn i l) = skipn i (map f l).
Proof. split; [symmetry; apply firstn_map|symmetry; apply skipn_map]. Qed.

Lemma step_related s t a : related s t -> small a ->
  match step measure s a, ideal_step measure t a with
  | Some s', Some t' => related s' t'
  | None, None => True
  | _, _ => False
  end.
Proof.
  intros R S. pose proof R as (F & K). destruct a as [f|index|i index ok|i|i]; cbn [step ideal_step small] in *.
  - pose proof (frame_related s t f R) as H. destruct (describe (memory s) f) as [[h d] m]. exact H.
  - specialize (K index S). destruct (at_index _ _ index) as [[p d]|]; [|rewrite K; exact I]. destruct K as (-> & E). unfold seen in E.
    destruct (content (memory s) d) as [v|] eqn:C; rewrite E; [|exact R].
    split; cbn [memory features values current known]; [rewrite !map_app, F; cbn; rewrite C; reflexivity|].
    apply (proj2 R).
  - pose proof (features_nth s t i R) as Fi. specialize (K index S).
    destruct (nth_error (features s) i) as [m|] eqn:Ni; destruct (nth_error (values t) i) as [v|]; try discriminate Fi; [|exact I].
    destruct (at_index _ _ index) as [[p d]|]; [|rewrite K; exact I]. destruct K as (-> & E). unfold seen in E.
    destruct (content (memory s) d) as [w|] eqn:C; rewrite E; destruct ok; cbn [andb negb]; try exact R.
    split; cbn [memory features values current known]; [|apply (proj2 R)].
    unfold replace. rewrite map_app. cbn [map]. rewrite (proj1 (map_firstn_skipn _ _ _)), (proj2 (map_firstn_skipn _ _ _)), F, C.
    rewrite map_app. cbn [map]. rewrite firstn_map, skipn_map. reflexivity.
  - pose proof (features_nth s t i R) as Fi.
    destruct (nth_error (features s) i) as [m|] eqn:Ni; destruct (nth_error (values t) i) as [v|]; try discriminate Fi; [|exact I].
    cbn in Fi. injection Fi as Fi. split; cbn [memory features values current known]; [rewrite !map_app, F; cbn; rewrite Fi; reflexivity|].
    apply (proj2 R).
  - pose proof (features_nth s t i R) as Fi.
    destruct (nth_error (features s) i) as [m|] eqn:Ni; destruct (nth_error (values t) i) as [v|]; try discriminate Fi; [|exact I].
    split; cbn [memory features values current known]; [|apply (proj2 R)].
    unfold remove. rewrite !map_app, (proj1 (map_firstn_skipn _ _ _)), (proj2 (map_firstn_skipn _ _ _)), F.
    rewrite firstn_map, skipn_map. reflexivity.
Qed.
Lemma run_related l : forall s t, related s t -> Forall small l ->
  match run measure s l, ideal_run measure t l with
  | Some s', Some t' => related s' t'
  | None, None => True
  | _, _ => False
  end.
Proof.
  induction l as [|a l IH]; intros s t R S; cbn [run ideal_run]; [exact R|]. inversion S as [|? ? Sa Sl]; subst.
  pose proof (step_related s t a R Sa) as H. destruct (step measure s a), (ideal_step measure t a); try contradiction; [|exact I].
  apply IH; assumption.
Qed.

(** In every history, the keypoints of the last frame are the expected ones, each with its own
    descriptor or without any, and the descriptors of the features of the map, read through the
    shared matrices, are the values that they were given: later frames do not change them. *)
Theorem C122_values :
  forall l : list action, Forall small l ->
  match run measure start l, ideal_run measure (mkIdeal [] []) l with
  | None, None => True
  | Some s, Some t =>
      map (content (memory s)) (features s) = map Some (values t) /\
      forall index, (index < 2 ^ 32)%N ->
        option_map (fun pd => (fst pd, content (memory s) (snd pd))) (at_index (memory s) (current s) index) =
        nth_error (known t) (N.to_nat index)
  | _, _ => False
  end.
Proof.
  intros l S. assert (R : related start (mkIdeal [] [])).
  { split; [reflexivity|]. intros index _. unfold at_index. cbn. destruct (N.to_nat (index mod _)); destruct (N.to_nat index); reflexivity. }
  pose proof (run_related l _ _ R S) as H. destruct (run measure start l) as [s|], (ideal_run _ _ l) as [t|]; try exact H.
  destruct H as (F & K). split; [exact F|]. intros index I. specialize (K index I).
  destruct (at_index _ _ index) as [[p d]|]; cbn; [symmetry; apply K|symmetry; exact K].
Qed.

Lemma ideal_last_frame (t : ideal) (f : frame position descriptor) : ideal_step measure t (NewFrame f) = Some (mkIdeal (expected_keypoints measure f) (values t)).
Proof using. reflexivity. Qed.
(** A keypoint followed by the optical flow never becomes a new feature, and a match with it
    leaves the descriptor of the feature. *)
Theorem C122_followed :
  forall (l : list action) (s : state) (f : frame position descriptor) (s' : state) index,
  Forall small l -> run measure start l = Some s -> step measure s (NewFrame f) = Some s' ->
  (index < 2 ^ 32)%N ->
  (length (if detection f then match found f with [] => [] | q => extract f q end else []) <= N.to_nat index <
    length (if detection f then match found f with [] => [] | q => extract f q end else []) + length (points (flow f))) ->
  step measure s' (Detected index) = Some s' /\
  forall i ok, i < length (features s') -> step measure s' (Matched i index ok) = Some s'.
Proof.
  intros l s f s' index S Hr Hs I B.
  assert (R0 : related start (mkIdeal [] [])).
  { split; [reflexivity|]. intros j _. unfold at_index. cbn. destruct (N.to_nat (j mod _)); destruct (N.to_nat j); reflexivity. }
  pose proof (run_related l _ _ R0 S) as H. rewrite Hr in H. destruct (ideal_run _ _ l) as [t|]; [|contradiction].
  pose proof (step_related s t (NewFrame f) H Logic.I) as H'. rewrite Hs, ideal_last_frame in H'. destruct H' as (F & K).
  specialize (K index I). cbn [known] in K.
  assert (E : exists p, nth_error (expected_keypoints measure f) (N.to_nat index) = Some (p, None)).
  { unfold expected_keypoints. set (kept := if detection f then match found f with [] => [] | q => extract f q end else []) in B.
    assert (Q : (if detection f && negb match found f with [] => true | _ => false end
       then map (fun pd => (measure (fst pd), Some (snd pd))) (extract f (found f)) else []) = map (fun pd => (measure (fst pd), Some (snd pd))) kept).
    { unfold kept. destruct (detection f); [|reflexivity]. destruct (found f); reflexivity. }
    rewrite Q, nth_error_app2 by (rewrite map_length; lia). rewrite map_length, nth_map_some.
    destruct (nth_error (points (flow f)) (N.to_nat index - length kept)) eqn:N; [eexists; reflexivity|]. apply nth_error_None in N. lia. }
  destruct E as (p & E). cbn [step]. destruct (at_index (memory s') (current s') index) as [[q d]|]; [|congruence].
  destruct K as (K & Em). rewrite E in K. injection K as -> C. unfold seen in Em. rewrite <- C in Em. rewrite Em. split; [reflexivity|].
  intros i ok L. destruct (nth_error (features s') i) eqn:N; [|apply nth_error_None in N; lia]. rewrite andb_false_r. reflexivity.
Qed.
End Values.
Print Assumptions C122_values.
Print Assumptions C122_followed.

(** ** A case that meets the hypotheses: two frames; the feature made in the first one keeps its
    descriptor 11 while it is followed, and takes 25 when it is matched with a detection. *)
Definition frame1 : frame nat nat := mkFrame true [1; 2] (fun l => map (fun p => (p, 10 + p)) l) (mkFollowed [] []).
Definition frame2 : frame nat nat := mkFrame true [5] (fun l => map (fun p => (p, 20 + p)) l) (mkFollowed [1] [7%N]).
Example C122_example :
  let descriptors_of l := option_map (fun s => map (content (memory s)) (features s)) (run (fun p => p) start l) in
  descriptors_of [NewFrame frame1; Detected 0; Detected 1; NewFrame frame2; Matched 0 1 true; Detected 1] = Some [Some 11; Some 12] /\
  descriptors_of [NewFrame frame1; Detected 0; Detected 1; NewFrame frame2; Matched 0 0 true; Copied 1; Removed 1] = Some [Some 25; Some 12] /\
  Forall small [NewFrame frame1; Detected 0; Detected 1; NewFrame frame2; Matched 0 0 true; Copied 1; Removed 1].
Proof. split; [vm_compute; reflexivity|]. split; [vm_compute; reflexivity|]. repeat constructor. Qed.
Example C122_container_example :
  container_at (fold_left container_step [Add 3%N 30; Clear; Reserve 8; Add 4%N 40; Add 5%N 50] (mkFollowed [] [])) 1 = Some (5%N, 50).
Proof. reflexivity. Qed.

(** Lemmas on the correction of the outlines: sorted keys, walks, traces. *)
From Verif Require Import DissolveSpec.
From Coq Require Import List ZArith Bool Arith Lia ZifyBool ZifyNat Permutation Sorted.
Import ListNotations.
Local Open Scope Z_scope.

(** ** Keys *)
Lemma key_eqb_eq a b : key_eqb a b = true <-> a = b.
Proof.
  destruct a as [a1 a2 a3 a4], b as [b1 b2 b3 b4]. unfold key_eqb. cbn. split.
  - intros H. f_equal; lia.
  - intros [= -> -> -> ->]. rewrite !Nat.eqb_refl, Z.eqb_refl. now destruct b4.
Qed.
Lemma key_eqb_refl a : key_eqb a a = true.
Proof. now apply key_eqb_eq. Qed.
Lemma key_eqb_neq a b : a <> b -> key_eqb a b = false.
Proof. intros N. destruct (key_eqb a b) eqn:E; [apply key_eqb_eq in E; easy|reflexivity]. Qed.
Definition key_dec (a b : key) : {a = b} + {a <> b}.
Proof. destruct (key_eqb a b) eqn:E; [left; now apply key_eqb_eq|right; intros ->; now rewrite key_eqb_refl in E]. Qed.
Definition key_lt (a b : key) : Prop :=
  (index_1 a < index_1 b)%nat \/ (index_1 a = index_1 b /\ (scale a < scale b \/ (scale a = scale b /\
   ((index_2 b < index_2 a)%nat \/ (index_2 a = index_2 b /\ reroute a = true /\ reroute b = false))))).
Lemma key_ltb_lt a b : key_ltb a b = true <-> key_lt a b.
Proof.
  unfold key_ltb, key_lt. destruct (Nat.ltb_spec (index_1 a) (index_1 b)); [intuition lia|].
  destruct (Nat.ltb_spec (index_1 b) (index_1 a)); [intuition lia|].
  destruct (Z.ltb_spec (scale a) (scale b)); [intuition lia|]. destruct (Z.ltb_spec (scale b) (scale a)); [intuition lia|].
  destruct (Nat.ltb_spec (index_2 b) (index_2 a)); [intuition lia|]. destruct (Nat.ltb_spec (index_2 a) (index_2 b)); [intuition lia|].
  destruct (reroute a), (reroute b); cbn; intuition (try lia; try discriminate).
Qed.
Lemma key_lt_irrefl a : ~ key_lt a a.
Proof. unfold key_lt. destruct (reroute a); intuition (try lia; try discriminate). Qed.
Lemma key_lt_trans a b c : key_lt a b -> key_lt b c -> key_lt a c.
Proof. unfold key_lt. destruct (reroute a), (reroute b), (reroute c); intuition (try lia; try discriminate). Qed.
Lemma key_lt_total a b : ~ key_lt a b -> ~ key_lt b a -> a = b.
Proof.
  destruct a as [a1 a2 a3 a4], b as [b1 b2 b3 b4]. unfold key_lt. cbn. intros H K. f_equal; lia.
Qed.

(** ** Sorted lists *)
Definition keys (m : vmap) : list key := map fst m.
Definition sorted (m : vmap) : Prop := StronglySorted key_lt (keys m).
Lemma sorted_nodup l : StronglySorted key_lt l -> NoDup l.
Proof.
  induction 1 as [|a l S IH F]; constructor; [|exact IH]. intros I. rewrite Forall_forall in F. now apply (key_lt_irrefl a), F.
Qed.
Lemma emplace_new k v m : sorted m -> ~ In k (keys m) -> sorted (emplace k v m) /\ Permutation (emplace k v m) ((k, v) :: m).
Proof.
  unfold sorted. induction m as [|e m IH]; intros S N; cbn [emplace keys map].
  - split; [constructor; constructor|reflexivity].
  - cbn [keys map] in S, N. inversion S as [|? ? S' F]; subst. destruct (key_ltb k (fst e)) eqn:L.
    + apply key_ltb_lt in L. split; [|reflexivity]. cbn [keys map fst]. constructor; [exact S|]. constructor; [exact L|].
      rewrite Forall_forall in *. intros x X. eapply key_lt_trans; [exact L|]. now apply F.
    + destruct (key_ltb (fst e) k) eqn:L'.
      * apply key_ltb_lt in L'. destruct IH as [T P]; [exact S'|intros Q; apply N; now right|]. split.
        -- cbn [keys map]. constructor; [exact T|]. rewrite Forall_forall in *. intros x X.
           assert (Y : In x (map fst ((k, v) :: m))) by (eapply Permutation_in; [apply Permutation_map, P|exact X]).
           destruct Y as [<-|Y]; [exact L'|now apply F].
        -- rewrite P. apply perm_swap.
      * exfalso. apply N. left. symmetry. apply key_lt_total; intros Q; apply key_ltb_lt in Q; congruence.
Qed.
Lemma emplace_all l : forall m, sorted m -> NoDup (map fst l ++ keys m) ->
  sorted (fold_left (fun m e => emplace (fst e) (snd e) m) l m) /\ Permutation (fold_left (fun m e => emplace (fst e) (snd e) m) l m) (l ++ m).
Proof.
  induction l as [|[k v] l IH]; intros m S N; cbn [fold_left app map fst snd] in *; [now split|].
  inversion N as [|? ? N1 N2]; subst. destruct (emplace_new k v m S) as [S' P]; [intros Q; apply N1, in_or_app; now right|].
  destruct (IH (emplace k v m) S') as [S2 P2].
  - apply (Permutation_NoDup (l := k :: map fst l ++ keys m)); [|now constructor]. rewrite Permutation_middle. apply Permutation_app_head.
    symmetry. apply (Permutation_map fst) in P. exact P.
  - split; [exact S2|]. rewrite P2, P. symmetry. apply Permutation_middle.
Qed.
Lemma insert_in k s x : In x (insert k s) <-> x = k \/ In x s.
Proof.
  induction s as [|e s IH]; cbn [insert]; [cbn; intuition|]. destruct (key_ltb k e) eqn:L; [cbn; intuition|].
  destruct (key_ltb e k) eqn:L'.
  - cbn [In]. rewrite IH. cbn. intuition.
  - assert (k = e) as -> by (apply key_lt_total; intros Q; apply key_ltb_lt in Q; congruence). cbn. intuition.
Qed.
Lemma lookup_in m k v : sorted m -> In (k, v) m -> lookup k m = Some v.
Proof.
  intros S. apply sorted_nodup in S. induction m as [|[k' v'] m IH]; intros I; [destruct I|]. cbn [lookup fst snd]. cbn [keys map fst] in S.
  inversion S as [|? ? N S']; subst. destruct I as [[= -> ->]|I]; [now rewrite key_eqb_refl|].
  rewrite key_eqb_neq; [auto|]. intros ->. apply N. apply (in_map fst) in I. exact I.
Qed.
Lemma adjacent l x y : StronglySorted key_lt l -> In x l -> In y l -> key_lt x y -> (forall z, In z l -> key_lt x z -> ~ key_lt z y) ->
  exists l1 l2, l = l1 ++ x :: y :: l2.
Proof.
  induction l as [|a l IH]; intros S X Y L N; [destruct X|]. inversion S as [|? ? S' F]; subst. rewrite Forall_forall in F.
  destruct X as [->|X].
  - destruct Y as [->|Y]; [now apply key_lt_irrefl in L|]. destruct l as [|b l]; [destruct Y|]. destruct (key_dec b y) as [->|D]; [now exists [], l|].
    exfalso. destruct Y as [E|Y]; [easy|]. apply (N b); [right; now left|apply F; now left|]. inversion S' as [|? ? _ F']; subst. rewrite Forall_forall in F'. now apply F'.
  - destruct Y as [->|Y]; [exfalso; apply (key_lt_irrefl x); eapply key_lt_trans; [exact L|now apply F]|].
    destruct IH as (l1 & l2 & ->); auto; [intros z Z; apply N; now right|]. now exists (a :: l1), l2.
Qed.
Lemma after_split m l1 x y l2 : NoDup (keys m) -> keys m = l1 ++ x :: y :: l2 -> after x m = Some y.
Proof.
  revert l1. induction m as [|[k v] m IH]; intros l1 N E; [now destruct l1|]. cbn [keys map fst] in *. inversion N as [|? ? N1 N2]; subst.
  destruct l1 as [|a l1]; cbn in E.
  - injection E as -> E. destruct m as [|[k' v'] m]; [discriminate|]. cbn in E. injection E as -> E. cbn. now rewrite key_eqb_refl.
  - injection E as -> E. destruct m as [|[k' v'] m]; [now destruct l1|]. cbn [after fst]. rewrite key_eqb_neq; [now apply (IH l1)|].
    intros ->. apply N1. change (In a (keys ((k', v') :: m))). unfold keys in *. rewrite E. apply in_or_app. right. now left.
Qed.
Lemma after_some m x y : after x m = Some y -> exists l1 l2, keys m = l1 ++ x :: y :: l2.
Proof.
  induction m as [|[k v] m IH]; [discriminate|]. destruct m as [|[k' v'] m]; [discriminate|]. cbn [after fst]. destruct (key_eqb x k) eqn:E.
  - apply key_eqb_eq in E as ->. intros [= <-]. now exists [], (keys m).
  - intros H. destruct (IH H) as (l1 & l2 & Q). exists (k :: l1), l2. cbn [keys map fst] in *. now rewrite Q.
Qed.
(** the successor is the cyclic shift of the keys *)
Lemma successor_spec m x : NoDup (keys m) -> In x (keys m) ->
  (exists l1 l2, keys m = l1 ++ x :: successor x m :: l2) \/ (exists l1, keys m = l1 ++ [x] /\ successor x m = hd x (keys m)).
Proof.
  intros N I. apply in_split in I as (l1 & l2 & E). destruct l2 as [|y l2].
  - right. exists l1. split; [exact E|]. unfold successor. destruct (after x m) as [y|] eqn:A.
    + apply after_some in A as (a & b & E'). rewrite E in E', N. exfalso. apply NoDup_remove_2 in N. rewrite app_nil_r in N.
      assert (L : nth_error (l1 ++ [x]) (length a) = Some x) by (rewrite E', nth_error_app2, Nat.sub_diag by lia; reflexivity).
      assert (LL : length (l1 ++ [x]) = length (a ++ x :: y :: b)) by now rewrite E'. rewrite !app_length in LL. cbn in LL.
      rewrite nth_error_app1 in L by lia. apply nth_error_In in L. easy.
    + destruct m as [|e m]; [now destruct l1|reflexivity].
  - left. exists l1, l2. unfold successor. now rewrite (after_split m l1 x y l2 N E).
Qed.
Lemma split_unique {A} (a b c d : list A) x : NoDup (a ++ x :: b) -> a ++ x :: b = c ++ x :: d -> a = c /\ b = d.
Proof.
  revert c. induction a as [|y a IH]; intros [|z c] N E; cbn in *.
  - injection E as ->. auto.
  - injection E as -> ->. inversion N as [|? ? Q _]. exfalso. apply Q, in_or_app. right. now left.
  - injection E as -> <-. inversion N as [|? ? Q _]. exfalso. apply Q, in_or_app. right. now left.
  - injection E as -> E. inversion N as [|? ? _ N']; subst. destruct (IH c N' E) as [-> ->]. auto.
Qed.
Lemma successor_in m x : NoDup (keys m) -> In x (keys m) -> In (successor x m) (keys m).
Proof.
  intros N I. destruct (successor_spec m x N I) as [(a & b & E)|(a & E & S)].
  - rewrite E. apply in_or_app. right. right. now left.
  - rewrite S. destruct (keys m) as [|y l]; [destruct I|now left].
Qed.
Lemma successor_injective m x y : NoDup (keys m) -> In x (keys m) -> In y (keys m) -> successor x m = successor y m -> x = y.
Proof.
  intros N X Y E. destruct (successor_spec m x N X) as [(a & b & A)|(a & A & S)], (successor_spec m y N Y) as [(c & d & C)|(c & C & T)].
  - rewrite E in A. set (z := successor y m) in *. rewrite C in A, N.
    replace (c ++ y :: z :: d) with ((c ++ [y]) ++ z :: d) in A, N by now rewrite <- app_assoc.
    replace (a ++ x :: z :: b) with ((a ++ [x]) ++ z :: b) in A by now rewrite <- app_assoc.
    apply split_unique in A as [A _]; [|exact N]. apply app_inj_tail in A. now destruct A.
  - exfalso. rewrite E, T in A. rewrite A in N. destruct a as [|z a]; cbn in *; rewrite A in N; cbn in N.
    + inversion N as [|? ? Q _]. apply Q. now left.
    + inversion N as [|? ? Q _]. apply Q, in_or_app. right. right. now left.
  - exfalso. rewrite <- E, S in C. rewrite C in N. destruct c as [|z c]; cbn in *; rewrite C in N; cbn in N.
    + inversion N as [|? ? Q _]. apply Q. now left.
    + inversion N as [|? ? Q _]. apply Q, in_or_app. right. right. now left.
  - rewrite A in C. apply app_inj_tail in C. now destruct C.
Qed.

(** ** Orbits of an injective function on a finite set *)
Lemma iterS A n f (x : A) : Nat.iter (S n) f x = f (Nat.iter n f x).
Proof. reflexivity. Qed.
Section orbits.
  Context {A : Type} (dec : forall a b : A, {a = b} + {a <> b}).
  Variable ks : list A.
  Variable nx : A -> A.
  Hypothesis stays : forall k, In k ks -> In (nx k) ks.
  Hypothesis inj : forall a b, In a ks -> In b ks -> nx a = nx b -> a = b.
  Lemma iter_in k n : In k ks -> In (Nat.iter n nx k) ks.
  Proof. intros I. induction n; cbn; auto. Qed.
  Lemma iter_inj n : forall a b, In a ks -> In b ks -> Nat.iter n nx a = Nat.iter n nx b -> a = b.
  Proof. induction n as [|n IH]; intros a b X Y E; [exact E|]. rewrite !iterS in E. apply IH; auto. apply inj; auto using iter_in. Qed.
  Lemma iter_plus n m (k : A) : Nat.iter (n + m) nx k = Nat.iter n nx (Nat.iter m nx k).
  Proof. induction n; [reflexivity|]. cbn [Nat.add]. now rewrite !iterS, IHn. Qed.
  Definition orbit (k : A) (n : nat) : list A := map (fun i => Nat.iter i nx k) (seq 0 n).
  Lemma orbit_nodup k n : In k ks -> (forall i, (0 < i < n)%nat -> Nat.iter i nx k <> k) -> NoDup (orbit k n).
  Proof.
    intros I N. unfold orbit. induction n as [|n IH]; [constructor|]. rewrite seq_S, map_app. cbn [map]. rewrite Nat.add_0_l.
    apply (Permutation_NoDup (Permutation_cons_append _ _)). constructor; [|apply IH; intros; apply N; lia].
    intros X. apply in_map_iff in X as (i & E & X). apply in_seq in X. replace n with (i + (n - i))%nat in E by lia.
    rewrite iter_plus in E. apply iter_inj in E; auto using iter_in. apply (N (n - i)%nat); [lia|auto].
  Qed.
  Lemma returns k : In k ks -> exists n, (0 < n)%nat /\ Nat.iter n nx k = k /\ forall i, (0 < i < n)%nat -> Nat.iter i nx k <> k.
  Proof.
    intros I.
    assert (D : forall n, (exists i, (0 < i < n)%nat /\ Nat.iter i nx k = k /\ forall j, (0 < j < i)%nat -> Nat.iter j nx k <> k) \/ (forall i, (0 < i < n)%nat -> Nat.iter i nx k <> k)).
    { induction n as [|n [(i & B & E & M)|N]]; [right; lia|left; exists i; repeat split; auto; lia|]. destruct n as [|n]; [right; lia|].
      destruct (dec (Nat.iter (S n) nx k) k) as [E|E].
      - left. exists (S n). repeat split; auto; lia.
      - right. intros i B. destruct (Nat.eq_dec i (S n)) as [->|Q]; [exact E|apply N; lia]. }
    destruct (D (S (S (length ks)))) as [(i & B & E & M)|N]; [exists i; repeat split; auto; lia|]. exfalso.
    pose proof (orbit_nodup k (S (length ks)) I ltac:(intros; apply N; lia)) as U.
    assert (L : (length (orbit k (S (length ks))) <= length ks)%nat).
    { apply NoDup_incl_length; [exact U|]. intros x X. apply in_map_iff in X as (i & <- & _). now apply iter_in. }
    unfold orbit in L. rewrite map_length, seq_length in L. lia.
  Qed.
  Lemma orbit_in k n i : (0 < n)%nat -> Nat.iter n nx k = k -> In (Nat.iter i nx k) (orbit k n).
  Proof.
    intros P E. induction i as [|i IH].
    - apply in_map_iff. exists 0%nat. split; [reflexivity|apply in_seq; lia].
    - apply in_map_iff in IH as (j & Q & X). apply in_seq in X. rewrite iterS, <- Q. destruct (Nat.eq_dec (S j) n) as [Z|Z].
      + apply in_map_iff. exists 0%nat. split; [|apply in_seq; lia]. rewrite <- iterS, Z. now rewrite E.
      + apply in_map_iff. exists (S j). split; [reflexivity|apply in_seq; lia].
  Qed.
  Lemma orbit_closed k n x : (0 < n)%nat -> Nat.iter n nx k = k -> In x (orbit k n) -> In (nx x) (orbit k n).
  Proof. intros P E X. apply in_map_iff in X as (j & <- & _). apply (orbit_in k n (S j) P E). Qed.
  Lemma reaches_back a b n : In a ks -> Nat.iter n nx a = b -> exists m, Nat.iter m nx b = a.
  Proof.
    intros I E. destruct (returns a I) as (p & P & R & _).
    assert (M : forall c, Nat.iter (c * p) nx a = a) by (induction c; [reflexivity|]; cbn [Nat.mul]; rewrite iter_plus, IHc; exact R).
    exists (n * p - n)%nat. rewrite <- E, <- iter_plus. replace (n * p - n + n)%nat with (n * p)%nat by nia. apply M.
  Qed.
  (** a set closed by the function, its complement is closed too *)
  Lemma complement_closed v : NoDup v -> incl v ks -> (forall x, In x v -> In (nx x) v) -> forall x, In x ks -> In (nx x) v -> In x v.
  Proof.
    intros N I C x X Y. destruct (returns (nx x) (stays x X)) as (n & P & R & _).
    assert (Q : forall i, In (Nat.iter i nx (nx x)) v) by (induction i; cbn; auto).
    destruct n as [|n]; [lia|]. rewrite iterS in R. apply inj in R; auto using iter_in. rewrite <- R. apply Q.
  Qed.
End orbits.

(** ** The keys of an outline *)
Definition vertex_entries (ring : list point) : vmap :=
  map (fun i => (mkKey i i 0 false, mkVertice (nth i ring (0, 0)) no_link)) (seq 0 (length ring)).
Definition turn_entries (ring : list point) (t : turn) : vmap :=
  [(key_i ring t true, mkVertice (t_point t) (key_j ring t false)); (key_j ring t false, mkVertice (t_point t) no_link);
   (key_j ring t true, mkVertice (t_point t) (key_i ring t false)); (key_i ring t false, mkVertice (t_point t) no_link)].
Definition emplace_list (l m : vmap) : vmap := fold_left (fun m e => emplace (fst e) (snd e) m) l m.
Lemma vertices_entries ring : vertices ring = emplace_list (vertex_entries ring) [].
Proof.
  unfold vertices, emplace_list, vertex_entries. generalize (seq 0 (length ring)) as l. generalize (@nil (key * vertice)) as m. intros m l. revert m.
  induction l as [|i l IH]; intros m; [reflexivity|]. cbn. apply IH.
Qed.
Lemma find_intersections_filter ring turns : find_intersections ring turns = find_intersections ring (filter (kept ring) turns).
Proof.
  unfold find_intersections. generalize (vertices ring, @nil key) as s. induction turns as [|t turns IH]; intros s; [reflexivity|]. cbn [fold_left filter].
  destruct (kept ring t) eqn:K; cbn [fold_left]; [apply IH|]. assert (add_turn ring s t = s) as -> by (unfold add_turn; now rewrite K). apply IH.
Qed.
Lemma add_turns ring turns : (forall t, In t turns -> kept ring t = true) -> forall s,
  fst (fold_left (add_turn ring) turns s) = emplace_list (flat_map (turn_entries ring) turns) (fst s) /\
  forall k, In k (snd (fold_left (add_turn ring) turns s)) <->
            In k (snd s) \/ exists t, In t turns /\ (k = key_i ring t false \/ k = key_j ring t false).
Proof.
  induction turns as [|t turns IH]; intros K s; cbn [fold_left flat_map].
  - split; [reflexivity|]. intros k. split; [auto|]. intros [H|(t & [] & _)]; exact H.
  - destruct (IH (fun t H => K t (or_intror H)) (add_turn ring s t)) as [F S]. clear IH. split.
    + rewrite F. unfold emplace_list. rewrite fold_left_app. f_equal. unfold add_turn. rewrite (K t (or_introl eq_refl)). reflexivity.
    + intros k. rewrite S. unfold add_turn. rewrite (K t (or_introl eq_refl)). cbn [snd]. rewrite !insert_in. split.
      * intros [[-> |[-> |H]]|(u & U & H)]; [right; exists t; cbn; auto|right; exists t; cbn; auto|now left|right; exists u; cbn; auto].
      * intros [H|(u & [<-|U] & [-> | ->])]; auto; right; exists u; auto.
Qed.
Lemma nodup_map_inj {A B} (f : A -> B) l a b : NoDup (map f l) -> In a l -> In b l -> f a = f b -> a = b.
Proof.
  induction l as [|x l IH]; intros N X Y E; [destruct X|]. cbn in N. inversion N as [|? ? N1 N2]; subst.
  destruct X as [->|X], Y as [->|Y]; auto; exfalso; apply N1; [rewrite E|rewrite <- E]; now apply in_map.
Qed.
Definition at_turn (ring : list point) (t : turn) (side b : bool) : key := if side then key_i ring t b else key_j ring t b.


(** ** Lines of points *)
Lemma distance2_zero a b : distance2 a b = 0 <-> a = b.
Proof.
  destruct a as [x y], b as [x' y']. unfold distance2. cbn [fst snd]. split; [|intros [= -> ->]; lia]. intros E.
  assert (0 <= (x - x') * (x - x')) by apply Z.square_nonneg. assert (0 <= (y - y') * (y - y')) by apply Z.square_nonneg.
  f_equal; nia.
Qed.
Lemma distance2_nonneg a b : 0 <= distance2 a b.
Proof. unfold distance2. pose proof (Z.square_nonneg (fst a - fst b)). pose proof (Z.square_nonneg (snd a - snd b)). lia. Qed.
Lemma push_point_cases (r : list point) (p : point) : r <> [] -> (last r (0, 0) = p /\ push_point r p = r) \/ (last r (0, 0) <> p /\ push_point r p = r ++ [p]).
Proof.
  intros N. destruct (exists_last N) as (r' & q & ->). unfold push_point. rewrite rev_app_distr, last_last. cbn [rev app].
  pose proof (distance2_nonneg q p). destruct (Z.ltb_spec 0 (distance2 q p)) as [L|L].
  - right. split; [|reflexivity]. intros ->. pose proof (proj2 (distance2_zero p p) eq_refl). lia.
  - left. split; [|reflexivity]. apply distance2_zero. lia.
Qed.
Lemma push_point_last (r : list point) (p : point) : push_point r p <> [] /\ last (push_point r p) (0, 0) = p /\ (length r <= length (push_point r p))%nat.
Proof.
  destruct r as [|a r]; [cbn; repeat split; [discriminate|lia]|]. destruct (push_point_cases (a :: r) p) as [[E ->]|[E ->]]; [discriminate|auto with arith|].
  - repeat split; auto. discriminate.
  - rewrite last_last, app_length. split; [discriminate|]. split; [reflexivity|]. apply Nat.le_add_r.
Qed.
Lemma along_snoc f (r : list point) (p : point) : r <> [] -> along f (r ++ [p]) = along f r + f (last r (0, 0)) p.
Proof.
  induction r as [|a [|b r] IH]; intros N; [easy|cbn; lia|]. cbn [app along] in *. rewrite IH by discriminate.
  change (last (a :: b :: r) (0, 0)) with (last (b :: r) (0, 0)). lia.
Qed.
Lemma along_push f (r : list point) (p : point) : (forall a, f a a = 0) -> r <> [] -> along f (push_point r p) = along f r + f (last r (0, 0)) p.
Proof.
  intros Z N. destruct (push_point_cases r p N) as [[E ->]|[_ ->]]; [rewrite E, Z; lia|now apply along_snoc].
Qed.
Lemma not_closed ma p sp : forall r R, (forall q second, In (q, second) sp -> q = p -> (length r <= second + 1)%nat) ->
  is_closed ma p sp r R = (false, r, R).
Proof.
  induction sp as [|[q second] sp IH]; intros r R H; [reflexivity|]. cbn [is_closed].
  assert ((second + 1 <? length r)%nat && (distance2 q p =? 0) = false) as ->.
  { apply andb_false_iff. destruct (Z.eqb_spec (distance2 q p) 0) as [E|E]; [|now right]. left. apply distance2_zero in E.
    apply Nat.ltb_ge. apply (H q second); [now left|exact E]. }
  apply IH. intros q' s' I. apply H. now right.
Qed.
Lemma sorted_around l1 x y l2 z : StronglySorted key_lt (l1 ++ x :: y :: l2) -> In z (l1 ++ x :: y :: l2) -> key_lt z x \/ z = x \/ z = y \/ key_lt y z.
Proof.
  induction l1 as [|a l1 IH]; cbn [app]; intros S I; inversion S as [|? ? S' F]; subst; rewrite Forall_forall in F.
  - destruct I as [<-|[<-|I]]; auto. right. right. right. inversion S' as [|? ? _ F']; subst. rewrite Forall_forall in F'. now apply F'.
  - destruct I as [<-|I]; [|now apply IH]. left. apply F, in_or_app. right. now left.
Qed.
Lemma mem_in k l : mem k l = true <-> In k l.
Proof.
  unfold mem. rewrite existsb_exists. split; [intros (x & I & E); apply key_eqb_eq in E; now subst|]. intros I. exists k. split; [exact I|apply key_eqb_refl].
Qed.
Lemma erase_in k l x : In x (erase k l) <-> In x l /\ x <> k.
Proof.
  unfold erase. rewrite filter_In. split; intros [I E]; (split; [exact I|]); [intros ->; now rewrite key_eqb_refl in E|].
  rewrite key_eqb_neq; [reflexivity|congruence].
Qed.

(** ** Points of a segment *)
Lemma inside_order a b c c' n d n' d' : 0 < n < d -> 0 < n' < d' ->
  d * (fst c - fst a) = n * (fst b - fst a) -> d * (snd c - snd a) = n * (snd b - snd a) ->
  d' * (fst c' - fst a) = n' * (fst b - fst a) -> d' * (snd c' - snd a) = n' * (snd b - snd a) ->
  distance2 c a < distance2 c' a -> n * d' < n' * d.
Proof.
  destruct a as [ax ay], b as [bx by_], c as [cx cy], c' as [ex ey]. unfold distance2. cbn [fst snd]. intros N N' X Y X' Y' L.
  set (u := bx - ax) in *. set (v := by_ - ay) in *. set (x := cx - ax) in *. set (y := cy - ay) in *. set (x' := ex - ax) in *. set (y' := ey - ay) in *.
  clearbody u v x y x' y'.
  assert (E : (d * d) * (x * x + y * y) = (n * n) * (u * u + v * v)).
  { replace ((d * d) * (x * x + y * y)) with ((d * x) * (d * x) + (d * y) * (d * y)) by ring. rewrite X, Y. ring. }
  assert (E' : (d' * d') * (x' * x' + y' * y') = (n' * n') * (u * u + v * v)).
  { replace ((d' * d') * (x' * x' + y' * y')) with ((d' * x') * (d' * x') + (d' * y') * (d' * y')) by ring. rewrite X', Y'. ring. }
  destruct (Z_lt_le_dec (n * d') (n' * d)) as [G|G]; [exact G|exfalso].
  assert (0 < n' * d) by (apply Z.mul_pos_pos; lia). assert (G2 : (n' * d) * (n' * d) <= (n * d') * (n * d')) by (apply Z.mul_le_mono_nonneg; lia).
  set (l := u * u + v * v) in *. assert (0 <= l) by (unfold l; pose proof (Z.square_nonneg u); pose proof (Z.square_nonneg v); lia). clearbody l.
  set (q := x * x + y * y) in *. set (q' := x' * x' + y' * y') in *. clearbody q q'.
  assert (K : (d * d * (d' * d')) * q' <= (d * d * (d' * d')) * q).
  { replace ((d * d * (d' * d')) * q') with ((d * d) * ((d' * d') * q')) by ring. rewrite E'.
    replace ((d * d * (d' * d')) * q) with ((d' * d') * ((d * d) * q)) by ring. rewrite E.
    replace ((d * d) * ((n' * n') * l)) with ((n' * d) * (n' * d) * l) by ring. replace ((d' * d') * ((n * n) * l)) with ((n * d') * (n * d') * l) by ring.
    now apply Z.mul_le_mono_nonneg_r. }
  assert (0 < d * d * (d' * d')) by (apply Z.mul_pos_pos; apply Z.mul_pos_pos; lia). apply Z.mul_le_mono_pos_l in K; lia.
Qed.
Lemma inside_cut a b c c' : inside a b c -> inside a b c' -> distance2 c a < distance2 c' a -> inside c b c'.
Proof.
  intros (n & d & N & X & Y) (n' & d' & N' & X' & Y') L. pose proof (inside_order a b c c' n d n' d' N N' X Y X' Y' L) as O.
  exists (n' * d - n * d'), (d' * (d - n)). split; [nia|].
  assert (K : forall x y z w, d * (y - x) = n * (z - x) -> d' * (w - x) = n' * (z - x) -> d' * (d - n) * (w - y) = (n' * d - n * d') * (z - y)).
  { intros x y z w P Q. apply Z.mul_reg_l with d; [lia|].
    replace (d * (d' * (d - n) * (w - y))) with ((d - n) * (d * (d' * (w - x)) - d' * (d * (y - x)))) by ring. rewrite P, Q.
    replace (d * ((n' * d - n * d') * (z - y))) with ((n' * d - n * d') * (d * (z - x) - d * (y - x))) by ring. rewrite P. ring. }
  split; [eapply K; [exact X|exact X']|eapply K; [exact Y|exact Y']].
Qed.
Lemma inside_same a b c c' : inside a b c -> inside a b c' -> distance2 c a = distance2 c' a -> c = c'.
Proof.
  intros (n & d & N & X & Y) (n' & d' & N' & X' & Y') E.
  destruct a as [ax ay], b as [bx by_], c as [cx cy], c' as [ex ey]. unfold distance2 in E. cbn [fst snd] in *.
  assert (O : (d * d * (d' * d')) * ((n * d') * (n * d') - (n' * d) * (n' * d)) * ((bx - ax) * (bx - ax) + (by_ - ay) * (by_ - ay)) = 0).
  { assert (A : (d * d) * ((cx - ax) * (cx - ax) + (cy - ay) * (cy - ay)) = (n * n) * ((bx - ax) * (bx - ax) + (by_ - ay) * (by_ - ay))).
    { replace ((d * d) * ((cx - ax) * (cx - ax) + (cy - ay) * (cy - ay))) with ((d * (cx - ax)) * (d * (cx - ax)) + (d * (cy - ay)) * (d * (cy - ay))) by ring. rewrite X, Y. ring. }
    assert (B : (d' * d') * ((ex - ax) * (ex - ax) + (ey - ay) * (ey - ay)) = (n' * n') * ((bx - ax) * (bx - ax) + (by_ - ay) * (by_ - ay))).
    { replace ((d' * d') * ((ex - ax) * (ex - ax) + (ey - ay) * (ey - ay))) with ((d' * (ex - ax)) * (d' * (ex - ax)) + (d' * (ey - ay)) * (d' * (ey - ay))) by ring. rewrite X', Y'. ring. }
    rewrite <- E in B. set (q := (cx - ax) * (cx - ax) + (cy - ay) * (cy - ay)) in *. set (l := (bx - ax) * (bx - ax) + (by_ - ay) * (by_ - ay)) in *.
    replace ((d * d * (d' * d')) * ((n * d') * (n * d') - (n' * d) * (n' * d)) * l) with ((d * d * (d' * d')) * ((d' * d') * ((n * n) * l) - (d * d) * ((n' * n') * l))) by ring.
    rewrite <- A, <- B. ring. }
  assert (0 < d * d * (d' * d')) by (apply Z.mul_pos_pos; apply Z.mul_pos_pos; lia). apply Z.mul_eq_0 in O as [O|O].
  - apply Z.mul_eq_0 in O as [O|O]; [lia|]. assert (0 < n * d') by (apply Z.mul_pos_pos; lia). assert (0 < n' * d) by (apply Z.mul_pos_pos; lia).
    assert (S : n * d' = n' * d) by (assert (S : (n * d' - n' * d) * (n * d' + n' * d) = 0) by (rewrite <- O; ring); apply Z.mul_eq_0 in S as [S|S]; lia).
    assert (K : forall x y z w, d * (y - x) = n * (z - x) -> d' * (w - x) = n' * (z - x) -> w = y).
    { intros x y z w P Q. assert (R : d * d' * (w - y) = 0); [|apply Z.mul_eq_0 in R as [R|R]; [apply Z.mul_eq_0 in R as [R|R]; lia|lia]].
      replace (d * d' * (w - y)) with (d * (d' * (w - x)) - d' * (d * (y - x))) by ring. rewrite P, Q.
      replace (d * (n' * (z - x)) - d' * (n * (z - x))) with ((n' * d - n * d') * (z - x)) by ring. rewrite S. ring. }
    f_equal; symmetry; eapply K; eassumption.
  - pose proof (Z.square_nonneg (bx - ax)). pose proof (Z.square_nonneg (by_ - ay)).
    assert (U : (bx - ax) * (bx - ax) = 0) by lia. assert (V : (by_ - ay) * (by_ - ay) = 0) by lia.
    assert (U' : bx - ax = 0) by (apply Z.mul_eq_0 in U; lia). assert (V' : by_ - ay = 0) by (apply Z.mul_eq_0 in V; lia).
    rewrite U', Z.mul_0_r in X, X'. rewrite V', Z.mul_0_r in Y, Y'. apply Z.mul_eq_0 in X, X', Y, Y'. f_equal; lia.
Qed.

Section outline.
  Variables (ring : list point) (turns : list turn).
  Hypothesis simple : crosses_simply ring turns.
  Hypothesis all_kept : forall t, In t turns -> kept ring t = true.
  Hypothesis plane : planar ring turns.
  Let m : vmap := fst (find_intersections ring turns).
  Let starts : list key := snd (find_intersections ring turns).
  Let entries : vmap := vertex_entries ring ++ flat_map (turn_entries ring) turns.

  Lemma segments_lt t : In t turns -> (first_segment t < second_segment t)%nat /\ (second_segment t + 1 < length ring)%nat.
  Proof. intros T. destruct (on_two_edges _ _ simple t T) as (A & B & _). auto. Qed.
  Lemma turn_keys k v t : In (k, v) (turn_entries ring t) -> exists side b, k = at_turn ring t side b /\
    v_point v = t_point t /\ (b = true -> v_link v = at_turn ring t (negb side) false).
  Proof.
    intros [E|[E|[E|[E|[]]]]]; injection E as <- <-; [exists true, true|exists false, false|exists false, true|exists true, false]; cbn; repeat split; auto; discriminate.
  Qed.
  Lemma turn_key_in t side b : exists v, In (at_turn ring t side b, v) (turn_entries ring t).
  Proof. destruct side, b; cbn; eauto 6. Qed.
  Lemma at_turn_inj t u s s' b b' : In t turns -> In u turns -> at_turn ring t s b = at_turn ring u s' b' -> t = u /\ s = s' /\ b = b'.
  Proof.
    intros T U E. pose proof (segments_lt t T) as [Lt _]. pose proof (segments_lt u U) as [Lu _].
    assert (P : (first_segment t, second_segment t) = (first_segment u, second_segment u) /\ s = s' /\ b = b').
    { destruct s, s'; cbn in E; unfold key_i, key_j in E; injection E as E1 E2 _ E4; repeat split; try congruence; lia. }
    destruct P as (P & -> & ->). repeat split. apply (nodup_map_inj _ turns t u (once_for_two_edges _ _ simple) T U P).
  Qed.
  Lemma entries_nodup : NoDup (map fst entries).
  Proof.
    unfold entries. rewrite map_app. assert (V : map fst (vertex_entries ring) = map (fun i => mkKey i i 0 false) (seq 0 (length ring))).
    { unfold vertex_entries. now rewrite map_map. }
    assert (T : forall l, incl l turns -> NoDup l -> NoDup (map fst (flat_map (turn_entries ring) l))).
    { induction l as [|t l IH]; intros I N; [constructor|]. inversion N as [|? ? N1 N2]; subst. cbn [flat_map]. rewrite map_app.
      assert (J : incl l turns) by (intros x X; apply I; now right). assert (It : In t turns) by (apply I; now left).
      assert (D : forall k, In k (map fst (turn_entries ring t)) -> ~ In k (map fst (flat_map (turn_entries ring) l))).
      { intros k K Q. apply in_map_iff in K as ([k1 v1] & E1 & K). apply turn_keys in K as (s & b & K & _). cbn in E1.
        apply in_map_iff in Q as ([k2 v2] & E2 & Q). apply in_flat_map in Q as (u & U & Q). apply turn_keys in Q as (s' & b' & Q & _). cbn in E2.
        rewrite K in E1. rewrite Q, <- E1 in E2. apply at_turn_inj in E2 as (-> & _); auto. }
      assert (F : NoDup (map fst (turn_entries ring t))).
      { pose proof (segments_lt t It) as [Lt _]. cbn. unfold key_i, key_j.
        repeat constructor; cbn; intros Q; repeat destruct Q as [Q|Q]; try injection Q as Q; try discriminate; try easy; lia. }
      specialize (IH J N2). clear -D F IH. induction (map fst (turn_entries ring t)) as [|k ks Hk]; [exact IH|]. cbn. inversion F as [|? ? F1 F2]; subst.
      constructor; [|apply Hk; auto; intros x X; apply D; now right]. intros Q. apply in_app_or in Q as [Q|Q]; [easy|]. apply (D k); [now left|exact Q]. }
    specialize (T turns (incl_refl _) (NoDup_map_inv _ _ (distinct_crossings _ _ simple))).
    assert (D : forall k, In k (map fst (vertex_entries ring)) -> ~ In k (map fst (flat_map (turn_entries ring) turns))).
    { intros k K Q. rewrite V in K. apply in_map_iff in K as (i & <- & _). apply in_map_iff in Q as ([k2 v2] & E2 & Q). cbn in E2.
      apply in_flat_map in Q as (u & U & Q). apply turn_keys in Q as (s' & b' & Q & _). rewrite Q in E2. pose proof (segments_lt u U) as [Lt _].
      destruct s'; cbn in E2; unfold key_i, key_j in E2; injection E2 as E1 E2 _ _; lia. }
    assert (F : NoDup (map fst (vertex_entries ring))).
    { rewrite V. apply FinFun.Injective_map_NoDup; [intros a b E; now injection E|apply seq_NoDup]. }
    clear -D F T. induction (map fst (vertex_entries ring)) as [|k ks Hk]; [exact T|]. cbn. inversion F as [|? ? F1 F2]; subst.
    constructor; [|apply Hk; auto; intros x X; apply D; now right]. intros Q. apply in_app_or in Q as [Q|Q]; [easy|]. apply (D k); [now left|exact Q].
  Qed.
  Lemma m_spec : sorted m /\ Permutation m entries.
  Proof.
    unfold m, find_intersections. destruct (add_turns ring turns all_kept (vertices ring, [])) as [E _]. rewrite E. cbn [fst].
    rewrite vertices_entries. unfold emplace_list. rewrite <- fold_left_app. fold entries.
    destruct (emplace_all entries []) as [S P]; [constructor|unfold keys; cbn; rewrite app_nil_r; apply entries_nodup|]. rewrite app_nil_r in P. auto.
  Qed.
  Lemma m_nodup : NoDup (keys m).
  Proof. apply sorted_nodup, m_spec. Qed.
  Lemma in_m k v : In (k, v) m -> lookup k m = Some v.
  Proof. apply lookup_in, m_spec. Qed.
  Lemma starts_spec k : In k starts <-> exists t side, In t turns /\ k = at_turn ring t side false.
  Proof.
    unfold starts, find_intersections. destruct (add_turns ring turns all_kept (vertices ring, [])) as [_ S]. rewrite S. cbn [snd]. split.
    - intros [[]|(t & T & [-> | ->])]; [exists t, true|exists t, false]; auto.
    - intros (t & [] & T & ->); right; exists t; auto.
  Qed.
  Definition pt (k : key) : point := match lookup k m with Some v => v_point v | None => (0, 0) end.
  Lemma key_cases k : In k (keys m) ->
    (exists i, (i < length ring)%nat /\ k = mkKey i i 0 false) \/ exists t side b, In t turns /\ k = at_turn ring t side b.
  Proof.
    intros I. apply in_map_iff in I as ([k' v] & <- & I). apply (Permutation_in _ (proj2 m_spec)) in I. apply in_app_or in I as [I|I].
    - left. apply in_map_iff in I as (i & [= <- <-] & I). apply in_seq in I. exists i. split; [lia|reflexivity].
    - right. apply in_flat_map in I as (t & T & I). apply turn_keys in I as (s & b & -> & _). exists t, s, b. auto.
  Qed.
  Lemma vertex_in i : (i < length ring)%nat -> In (mkKey i i 0 false) (keys m) /\ pt (mkKey i i 0 false) = nth i ring (0, 0).
  Proof.
    intros L. assert (I : In (mkKey i i 0 false, mkVertice (nth i ring (0, 0)) no_link) m).
    { apply (Permutation_in _ (Permutation_sym (proj2 m_spec))), in_or_app. left. apply in_map_iff. exists i. split; [reflexivity|apply in_seq; lia]. }
    split; [now apply (in_map fst) in I|]. unfold pt. now rewrite (in_m _ _ I).
  Qed.
  Lemma turn_in t side b : In t turns -> exists v, In (at_turn ring t side b, v) m /\ v_point v = t_point t /\
    (b = true -> v_link v = at_turn ring t (negb side) false).
  Proof.
    intros T. destruct (turn_key_in t side b) as [v I]. exists v. split.
    - apply (Permutation_in _ (Permutation_sym (proj2 m_spec))), in_or_app. right. apply in_flat_map. eauto.
    - apply turn_keys in I as (s' & b' & E & P & L). apply at_turn_inj in E as (_ & <- & <-); auto.
  Qed.
  Lemma turn_key t side b : In t turns -> In (at_turn ring t side b) (keys m).
  Proof. intros T. destruct (turn_in t side b T) as (v & I & _). now apply (in_map fst) in I. Qed.
  Lemma pt_turn t side b : In t turns -> pt (at_turn ring t side b) = t_point t.
  Proof. intros T. destruct (turn_in t side b T) as (v & I & P & _). unfold pt. now rewrite (in_m _ _ I). Qed.
  Lemma walk_true t side : In t turns -> walk m (at_turn ring t side true) = at_turn ring t (negb side) false.
  Proof.
    intros T. destruct (turn_in t side true T) as (v & I & _ & L). unfold walk. rewrite (in_m _ _ I).
    assert (reroute (at_turn ring t side true) = true) as -> by now destruct side. auto.
  Qed.
  Lemma in_lookup k : In k (keys m) -> exists v, lookup k m = Some v /\ v_point v = pt k /\ (if reroute k then v_link v else successor k m) = walk m k.
  Proof.
    intros I. apply in_map_iff in I as ([k' v] & <- & I). cbn [fst]. exists v. unfold pt, walk. rewrite (in_m _ _ I). auto.
  Qed.
  Lemma walk_false k : In k (keys m) -> reroute k = false -> walk m k = successor k m.
  Proof. intros I R. destruct (in_lookup k I) as (v & _ & _ & W). now rewrite <- W, R. Qed.
  Lemma successor_true t side : In t turns -> successor (at_turn ring t side true) m = at_turn ring t side false.
  Proof.
    intros T. destruct (adjacent (keys m) (at_turn ring t side true) (at_turn ring t side false)) as (l1 & l2 & E); auto using turn_key.
    - apply m_spec.
    - destruct side; unfold key_lt; cbn; lia.
    - intros z _. destruct side; unfold key_lt; cbn; destruct (reroute z); lia.
    - unfold successor. now rewrite (after_split m l1 _ _ l2 m_nodup E).
  Qed.
  Lemma reroute_cases k : In k (keys m) -> reroute k = true -> exists t side, In t turns /\ k = at_turn ring t side true.
  Proof.
    intros I R. destruct (key_cases k I) as [(i & _ & ->)|(t & s & b & T & ->)]; [discriminate|]. exists t, s. split; [exact T|]. destruct s, b; cbn in R; congruence.
  Qed.
  Lemma walk_in k : In k (keys m) -> In (walk m k) (keys m).
  Proof.
    intros I. destruct (reroute k) eqn:R.
    - destruct (reroute_cases k I R) as (t & s & T & ->). rewrite walk_true by exact T. now apply turn_key.
    - rewrite walk_false by assumption. apply successor_in; [apply m_nodup|exact I].
  Qed.
  Lemma walk_injective a b : In a (keys m) -> In b (keys m) -> walk m a = walk m b -> a = b.
  Proof.
    assert (X : forall a b, In a (keys m) -> In b (keys m) -> reroute a = true -> reroute b = false -> walk m a <> walk m b).
    { intros x y Ix Iy Rx Ry E. destruct (reroute_cases x Ix Rx) as (t & s & T & ->). rewrite walk_true, walk_false in E by assumption.
      rewrite <- (successor_true t (negb s) T) in E. apply successor_injective in E; auto using m_nodup, turn_key. subst y. now destruct s. }
    intros Ia Ib E. destruct (reroute a) eqn:Ra, (reroute b) eqn:Rb.
    - destruct (reroute_cases a Ia Ra) as (t & s & T & ->), (reroute_cases b Ib Rb) as (u & s' & U & ->).
      rewrite !walk_true in E by assumption. apply at_turn_inj in E as (-> & Q & _); auto. destruct s, s'; cbn in Q; congruence.
    - exfalso. now apply (X a b).
    - exfalso. now apply (X b a).
    - rewrite !walk_false in E by assumption. apply successor_injective in E; auto using m_nodup.
  Qed.
  Lemma same_point k t : In k (keys m) -> In t turns -> pt k = t_point t -> exists side b, k = at_turn ring t side b.
  Proof.
    intros I T E. destruct (key_cases k I) as [(i & L & ->)|(u & s & b & U & ->)].
    - exfalso. apply (not_vertices _ _ simple t T). rewrite <- E, (proj2 (vertex_in i L)). apply nth_In. lia.
    - rewrite pt_turn in E by exact U. exists s, b. now rewrite (nodup_map_inj t_point turns u t (distinct_crossings _ _ simple) U T E).
  Qed.
  (** the walk does not leave a crossing on both sides *)
  Lemma one_side t side n : In t turns -> Nat.iter n (walk m) (at_turn ring t side false) <> at_turn ring t (negb side) false.
  Proof.
    intros T E. destruct side; cbn in E; [now apply (plane t n T)|].
    destruct (reaches_back key_dec (keys m) (walk m) walk_in walk_injective _ _ n (turn_key t false false T) E) as [n' E']. now apply (plane t n' T).
  Qed.
  Lemma scale_pos t side b : In t turns -> 0 < scale (at_turn ring t side b).
  Proof.
    intros T. assert (P : forall i, (i < length ring)%nat -> 0 < distance2 (t_point t) (nth i ring (0, 0))).
    { intros i L. assert (N : t_point t <> nth i ring (0, 0)) by (intros Q; apply (not_vertices _ _ simple t T); rewrite Q; now apply nth_In).
      destruct (t_point t) as [x y], (nth i ring (0, 0)) as [x' y']. unfold distance2. cbn [fst snd].
      assert (D : x - x' <> 0 \/ y - y' <> 0) by (destruct (Z.eq_dec x x'), (Z.eq_dec y y'); subst; try lia; now destruct N).
      clear -D. assert (0 <= (x - x') * (x - x')) by apply Z.square_nonneg. assert (0 <= (y - y') * (y - y')) by apply Z.square_nonneg.
      destruct D as [D|D]; nia. }
    pose proof (segments_lt t T). destruct side; cbn; apply P; lia.
  Qed.

  (** ** A trace *)
  Definition pushed (r : list point) (l : list key) : list point := fold_left (fun r k => push_point r (pt k)) l r.
  Definition erased (left l : list key) : list key := fold_left (fun s k => erase k s) l left.
  Lemma not_next t side : In t turns -> successor (at_turn ring t side false) m <> at_turn ring t (negb side) true.
  Proof.
    intros T E. pose proof (segments_lt t T) as [L1 L2]. pose proof (scale_pos t (negb side) true T) as SP.
    destruct (successor_spec m _ m_nodup (turn_key t side false T)) as [(l1 & l2 & K)|(l1 & K & H)].
    - pose proof (proj1 m_spec) as S. unfold sorted in S. rewrite E in K. rewrite K in S.
      assert (A : key_lt (at_turn ring t side false) (at_turn ring t (negb side) true)).
      { clear -S. induction l1 as [|a l1 IH]; cbn in S; inversion S as [|? ? S' F]; subst; [inversion F; assumption|auto]. }
      destruct side; [|unfold key_lt in A; cbn in A; lia].
      destruct (vertex_in (second_segment t)) as [V _]; [lia|]. rewrite K in V. apply (sorted_around _ _ _ _ _ S) in V. cbn [negb] in *.
      destruct V as [V|[V|[V|V]]].
      + unfold key_lt in V. cbn in V. lia.
      + unfold at_turn, key_i in V. injection V as V. lia.
      + rewrite <- V in SP. cbn in SP. lia.
      + unfold key_lt in V. cbn in V, SP. lia.
    - rewrite E in H. pose proof (proj1 m_spec) as S. unfold sorted in S. destruct (closed_ring _ _ simple) as [N _].
      destruct (vertex_in 0) as [V _]; [destruct ring; [easy|cbn; lia]|]. destruct (keys m) as [|k ks]; [destruct V|]. cbn in H. subst k.
      inversion S as [|? ? _ F]; subst. rewrite Forall_forall in F. destruct V as [V|V].
      + rewrite V in SP. cbn in SP. lia.
      + apply F in V. unfold key_lt in V. cbn [index_1 index_2 scale reroute] in V. lia.
  Qed.
  Section one_trace.
    Variables (t : turn) (side : bool) (n : nat) (ma : Z).
    Hypothesis T : In t turns.
    Let k0 := at_turn ring t side false.
    Let x (i : nat) := Nat.iter i (walk m) k0.
    Hypothesis n_pos : (0 < n)%nat.
    Hypothesis n_back : x n = k0.
    Hypothesis n_least : forall i, (0 < i < n)%nat -> x i <> k0.
    Lemma x_in i : In (x i) (keys m).
    Proof. apply iter_in; [apply walk_in|now apply turn_key]. Qed.
    Lemma x_step i : walk m (x i) = x (S i).
    Proof. reflexivity. Qed.
    Lemma x_distinct i j : (i < j < n)%nat -> x i <> x j.
    Proof.
      intros B E. unfold x in E. replace j with (i + (j - i))%nat in E by lia. rewrite iter_plus in E.
      apply (iter_inj (keys m) (walk m) walk_in walk_injective) in E; [|now apply turn_key|apply x_in]. apply (n_least (j - i)); [lia|]. now symmetry.
    Qed.
    Lemma x_from u s : (u <= s)%nat -> x s = Nat.iter (s - u) (walk m) (x u).
    Proof. intros L. unfold x. rewrite <- iter_plus. f_equal. lia. Qed.
    Lemma no_return u s : (u < s)%nat -> (s + 1 < n)%nat -> In (x u) starts -> pt (x u) <> pt (x s).
    Proof.
      intros L B I E. apply starts_spec in I as (t' & sd & T' & X). rewrite X, pt_turn in E by exact T'. symmetry in E.
      destruct (same_point _ _ (x_in s) T' E) as (sd' & b & Y).
      assert (S1 : x (S s) = Nat.iter (S s - u) (walk m) (x u)) by (apply x_from; lia).
      destruct (Bool.bool_dec sd' sd) as [->|D]; [|assert (sd' = negb sd) as -> by (destruct sd, sd'; cbn; congruence)]; destruct b.
      - rewrite <- x_step, Y, walk_true, X in S1 by exact T'. symmetry in S1. now apply one_side in S1.
      - apply (x_distinct u s); [lia|congruence].
      - apply (x_distinct u (S s)); [lia|]. rewrite <- x_step, Y, walk_true by exact T'. now rewrite negb_involutive.
      - rewrite (x_from u s), X in Y by lia. now apply one_side in Y.
    Qed.
    Lemma last_key : x (n - 1) = at_turn ring t (negb side) true.
    Proof.
      apply walk_injective; [apply x_in|now apply turn_key|]. rewrite x_step, walk_true, negb_involutive by exact T.
      replace (S (n - 1)) with n by lia. exact n_back.
    Qed.
    Lemma long_enough : (3 <= n)%nat.
    Proof.
      pose proof last_key as L. destruct (Nat.eq_dec n 1) as [E|E].
      - exfalso. rewrite E in L. cbn in L. apply at_turn_inj in L as (_ & _ & L); auto. discriminate.
      - destruct (Nat.eq_dec n 2) as [E2|E2]; [|lia]. exfalso. rewrite E2 in L. change (walk m k0 = at_turn ring t (negb side) true) in L.
        rewrite walk_false in L; [now apply not_next in L|now apply turn_key|unfold k0; now destruct side].
    Qed.
    Lemma orbit_S s : orbit (walk m) k0 (S s) = orbit (walk m) k0 s ++ [x s].
    Proof. unfold orbit. rewrite seq_S, map_app. reflexivity. Qed.
    Lemma pushed_S s : pushed [] (orbit (walk m) k0 (S s)) = push_point (pushed [] (orbit (walk m) k0 s)) (pt (x s)).
    Proof. rewrite orbit_S. unfold pushed. now rewrite fold_left_app. Qed.
    Lemma pushed_long s : (2 <= s)%nat -> (2 <= length (pushed [] (orbit (walk m) k0 s)))%nat.
    Proof.
      intros L. induction s as [|s IH]; [lia|]. destruct (Nat.eq_dec s 1) as [->|D].
      - pose proof long_enough as LE. rewrite !pushed_S. unfold orbit, pushed at 1. cbn [seq map fold_left].
        assert (P0 : push_point [] (pt (x 0)) = [pt (x 0)]) by reflexivity. rewrite P0.
        destruct (push_point_cases [pt (x 0)] (pt (x 1))) as [[E _]|[_ ->]]; [discriminate| |cbn; lia]. cbn [last] in E.
        exfalso. apply (no_return 0 1); [lia|lia| |exact E]. apply starts_spec. exists t, side. auto.
      - rewrite pushed_S. pose proof (push_point_last (pushed [] (orbit (walk m) k0 s)) (pt (x s))) as (_ & _ & Q). specialize (IH ltac:(lia)). lia.
    Qed.
    Lemma trace_from : forall d s fuel sp left R, (n = s + S d)%nat -> (S d <= fuel)%nat ->
      (forall q second, In (q, second) sp -> exists u, (u < s)%nat /\ In (x u) starts /\ q = pt (x u)) -> exists sp',
      trace_ring ma m starts fuel (x s) (mkTrace (pushed [] (orbit (walk m) k0 s)) ((pt k0, 0%nat) :: sp) left R) =
      Done (mkTrace (pushed [] (orbit (walk m) k0 n)) sp' (erased left (map x (seq s (S d)))) R).
    Proof.
      induction d as [|d IH]; intros s [|fuel] sp left R N F H; try lia; cbn [trace_ring].
      - destruct (in_lookup (x s) (x_in s)) as (v & -> & V & _). rewrite V. cbn [t_ring t_starts t_left t_result]. rewrite <- pushed_S.
        assert (E : last (pushed [] (orbit (walk m) k0 (S s))) (0, 0) = pt k0).
        { rewrite pushed_S. rewrite (proj1 (proj2 (push_point_last _ _))). replace s with (n - 1)%nat by lia. rewrite last_key, pt_turn by exact T.
          unfold k0. now rewrite pt_turn. }
        rewrite E. pose proof (pushed_long (S s) ltac:(pose proof long_enough; lia)) as PL.
        assert (C : forall l, is_closed ma (pt k0) ((pt k0, 0%nat) :: l) (pushed [] (orbit (walk m) k0 (S s))) R = (true, pushed [] (orbit (walk m) k0 (S s)), R)).
        { intros l. cbn [is_closed]. rewrite (proj2 (distance2_zero _ _) eq_refl), Z.eqb_refl, andb_true_r.
          destruct (Nat.ltb_spec (0 + 1) (length (pushed [] (orbit (walk m) k0 (S s))))); [reflexivity|lia]. }
        destruct (mem (x s) starts); cbn [app]; rewrite C; replace n with (S s) by lia; eexists; reflexivity.
      - destruct (in_lookup (x s) (x_in s)) as (v & -> & V & W). rewrite V, W, x_step. cbn [t_ring t_starts t_left t_result]. rewrite <- pushed_S.
        assert (E : last (pushed [] (orbit (walk m) k0 (S s))) (0, 0) = pt (x s)) by (rewrite pushed_S; apply push_point_last).
        assert (NR : forall u, (u < s)%nat -> In (x u) starts -> pt (x u) <> pt (x s)) by (intros u U; apply no_return; lia).
        assert (K0 : In (x 0) starts) by (apply starts_spec; exists t, side; auto).
        assert (H0 : pt k0 = pt (x s) -> (length (pushed [] (orbit (walk m) k0 (S s))) <= 0 + 1)%nat).
        { intros Q. destruct s as [|s]; [cbn; lia|]. exfalso. now apply (NR 0%nat ltac:(lia) K0). }
        destruct (mem (x s) starts) eqn:M.
        + cbn [app]. rewrite not_closed.
          * destruct (IH (S s) fuel (sp ++ [(pt (x s), (length (pushed [] (orbit (walk m) k0 (S s))) - 1)%nat)]) (erase (x s) left) R) as [sp' G]; [lia|lia| |].
            -- intros q second I. apply in_app_or in I as [I|[[= <- <-]|[]]].
               ++ destruct (H q second I) as (u & U & IU & Q). exists u. auto with arith.
               ++ exists s. split; [lia|]. split; [now apply mem_in|reflexivity].
            -- exists sp'. exact G.
          * rewrite E. intros q second [[= <- <-]|I] Q; [now apply H0|]. apply in_app_or in I as [I|[[= _ <-]|[]]]; [|assert (Q0 : forall z, (z <= z - 1 + 1)%nat) by lia; apply Q0].
            exfalso. destruct (H q second I) as (u & U & IU & ->). now apply (NR u U IU).
        + rewrite not_closed.
          * destruct (IH (S s) fuel sp (erase (x s) left) R) as [sp' G]; [lia|lia| |].
            -- intros q second I. destruct (H q second I) as (u & U & IU & Q). exists u. auto with arith.
            -- exists sp'. exact G.
          * rewrite E. intros q second [[= <- <-]|I] Q; [now apply H0|].
            exfalso. destruct (H q second I) as (u & U & IU & ->). now apply (NR u U IU).
    Qed.
    Lemma trace_whole fuel left R : (n <= fuel)%nat -> exists sp',
      trace_ring ma m starts fuel k0 (mkTrace [] [(pt k0, 0%nat)] left R) =
      Done (mkTrace (pushed [] (orbit (walk m) k0 n)) sp' (erased left (orbit (walk m) k0 n)) R).
    Proof.
      intros F. destruct (trace_from (n - 1) 0 fuel [] left R) as [sp G]; [lia|lia|intros q s []|]. exists sp.
      replace (S (n - 1)) with n in G by lia. exact G.
    Qed.
    (** the sum of a quantity on the ring is the sum on the keys of the walk *)
    Lemma ring_sum f : (forall a, f a a = 0) ->
      along f (pushed [] (orbit (walk m) k0 n)) = sum (map (fun k => f (pt k) (pt (walk m k))) (orbit (walk m) k0 n)).
    Proof.
      intros Z. assert (S : forall s, along f (pushed [] (orbit (walk m) k0 (S s))) = sum (map (fun k => f (pt k) (pt (walk m k))) (orbit (walk m) k0 s))
                            /\ pushed [] (orbit (walk m) k0 (S s)) <> []).
      { induction s as [|s [IH NE]]; [cbn; split; [reflexivity|discriminate]|]. rewrite pushed_S. split; [|apply push_point_last].
        rewrite along_push, IH by assumption. rewrite (orbit_S s), map_app. unfold sum. rewrite fold_right_app. cbn [map fold_right].
        assert (A : forall l z, fold_right Z.add z l = fold_right Z.add 0 l + z) by (induction l as [|a l IHl]; intros z; cbn; [lia|rewrite (IHl z); lia]).
        rewrite (A _ (f _ _ + 0)). f_equal. rewrite <- orbit_S, (pushed_S s), (proj1 (proj2 (push_point_last _ _))). rewrite x_step. lia. }
      pose proof (S (n - 1)%nat) as [Q _]. replace (Datatypes.S (n - 1)) with n in Q by lia.
      replace (orbit (walk m) k0 n) with (orbit (walk m) k0 (n - 1) ++ [x (n - 1)]) at 2 by (rewrite <- orbit_S; f_equal; lia).
      rewrite Q, map_app. unfold sum. rewrite fold_right_app. cbn [map fold_right].
      assert (E : f (pt (x (n - 1))) (pt (walk m (x (n - 1)))) = 0).
      { rewrite last_key, walk_true, !pt_turn by exact T. apply Z. }
      rewrite E. reflexivity.
    Qed.
  End one_trace.

  (** ** All the traces *)
  Lemma erased_in l : forall left k, In k (erased left l) <-> In k left /\ ~ In k l.
  Proof.
    induction l as [|a l IH]; intros left k; cbn [erased fold_left]; [intuition|]. fold (erased (erase a left) l). rewrite IH, erase_in. cbn. intuition.
  Qed.
  Lemma erase_length k l : (length (erase k l) <= length l)%nat /\ (In k l -> (length (erase k l) < length l)%nat).
  Proof.
    unfold erase. induction l as [|a l [IH1 IH2]]; [cbn; split; [lia|easy]|]. cbn [filter length]. destruct (key_eqb k a) eqn:E; cbn [negb length].
    - split; [lia|]. intros _. lia.
    - split; [lia|]. intros [->|I]; [now rewrite key_eqb_refl in E|]. specialize (IH2 I). lia.
  Qed.
  Lemma erased_length l : forall left, (length (erased left l) <= length left)%nat.
  Proof. induction l as [|a l IH]; intros left; [reflexivity|]. cbn [erased fold_left]. fold (erased (erase a left) l). pose proof (IH (erase a left)). pose proof (proj1 (erase_length a left)). lia. Qed.
  Lemma erased_shorter k l left : In k left -> (length (erased left (k :: l)) < length left)%nat.
  Proof. intros I. cbn [erased fold_left]. fold (erased (erase k left) l). pose proof (erased_length l (erase k left)). pose proof (proj2 (erase_length k left) I). lia. Qed.
  Definition is_orbit (o : list key) : Prop := exists t side n, In t turns /\ (0 < n)%nat /\
    Nat.iter n (walk m) (at_turn ring t side false) = at_turn ring t side false /\
    (forall i, (0 < i < n)%nat -> Nat.iter i (walk m) (at_turn ring t side false) <> at_turn ring t side false) /\
    o = orbit (walk m) (at_turn ring t side false) n.
  Lemma generate_all ma : forall fuel left V R, NoDup V -> incl V (keys m) -> (forall k, In k V -> In (walk m k) V) ->
    (forall k, In k left <-> In k starts /\ ~ In k V) -> (length m + length left < fuel)%nat -> exists os,
    generate ma m starts fuel left R = Done (fold_left (push_ring ma) (map (pushed []) os) R) /\
    Forall is_orbit os /\ NoDup (V ++ concat os) /\ incl (V ++ concat os) (keys m) /\ (forall k, In k (V ++ concat os) -> In (walk m k) (V ++ concat os)) /\
    incl starts (V ++ concat os).
  Proof.
    induction fuel as [|fuel IH]; intros left V R N I C L F; [lia|]. destruct left as [|k left]; cbn [generate].
    - exists []. cbn. rewrite app_nil_r. repeat split; auto. intros k K. destruct (in_dec key_dec k V) as [H|H]; [exact H|]. destruct (proj2 (L k) (conj K H)).
    - destruct (proj1 (L k) (or_introl eq_refl)) as [K NK]. pose proof K as K'. apply starts_spec in K' as (t & side & T & E).
      pose proof (turn_key t side false T) as Ik. rewrite <- E in Ik. destruct (in_lookup k Ik) as (v & -> & Hv & _). rewrite Hv.
      destruct (returns key_dec (keys m) (walk m) walk_in walk_injective k Ik) as (n & P & B & M).
      assert (No : NoDup (orbit (walk m) k n)) by (apply (orbit_nodup key_dec (keys m)); auto using walk_in, walk_injective).
      assert (Io : incl (orbit (walk m) k n) (keys m)) by (intros x X; apply in_map_iff in X as (i & <- & _); now apply (iter_in (keys m) (walk m) walk_in)).
      assert (Ln : (n <= length m)%nat).
      { pose proof (NoDup_incl_length No Io) as Q. unfold orbit, keys in Q. rewrite !map_length, seq_length in Q. exact Q. }
      assert (Dj : forall x, In x V -> ~ In x (orbit (walk m) k n)).
      { intros x X Y. apply in_map_iff in Y as (i & <- & _). apply NK.
        destruct (reaches_back key_dec (keys m) (walk m) walk_in walk_injective k _ i Ik eq_refl) as [j J]. rewrite <- J.
        clear J. induction j as [|j IHj]; [exact X|]. rewrite iterS. now apply C. }
      rewrite E in B, M. destruct (trace_whole t side n ma T P B M (S fuel) (k :: left) R) as [sp TR]; [lia|].
      rewrite <- E in B, M, TR. rewrite TR. cbn [t_left t_result t_ring].
      assert (O : exists o, orbit (walk m) k n = k :: o) by (destruct n; [lia|]; unfold orbit; cbn [seq map]; eexists; reflexivity).
      destruct (IH (erased (k :: left) (orbit (walk m) k n)) (V ++ orbit (walk m) k n) (push_ring ma R (pushed [] (orbit (walk m) k n)))) as (os & G & Os & No' & Io' & Co & So).
      + clear -N No Dj. induction V as [|a V IHV]; [exact No|]. inversion N; subst. cbn. constructor; [|apply IHV; auto; intros x X; apply Dj; now right].
        intros Q. apply in_app_or in Q as [Q|Q]; [easy|]. now apply (Dj a (or_introl eq_refl)).
      + intros x X. apply in_app_or in X as [X|X]; auto.
      + intros x X. apply in_or_app. apply in_app_or in X as [X|X]; [left; auto|right]. now apply (orbit_closed key_dec (keys m) (walk m) walk_in walk_injective).
      + intros x. rewrite erased_in, L, in_app_iff. intuition.
      + destruct O as [o O]. rewrite O. pose proof (erased_shorter k o (k :: left) (or_introl eq_refl)). lia.
      + exists (orbit (walk m) k n :: os). cbn [map fold_left concat]. rewrite app_assoc. repeat split; auto.
        constructor; [|exact Os]. exists t, side, n. rewrite <- E. auto.
  Qed.
  (** every key is in one trace *)
  Lemma covered V : turns <> [] -> NoDup V -> incl V (keys m) -> (forall k, In k V -> In (walk m k) V) -> incl starts V -> Permutation V (keys m).
  Proof.
    intros NE N I C S. apply NoDup_Permutation_bis; [exact N| |].
    2: exact I.
    apply NoDup_incl_length; [apply m_nodup|].
    assert (Sv : forall t side, In t turns -> In (at_turn ring t side false) V) by (intros t side T; apply S, starts_spec; eauto).
    assert (Su : forall k, In k V -> In (successor k m) V).
    { intros k K. destruct (reroute k) eqn:R; [|rewrite <- walk_false by auto; auto]. destruct (reroute_cases k (I k K) R) as (t & s & T & ->).
      rewrite successor_true by exact T. auto. }
    assert (A : forall l l1 x, keys m = l1 ++ x :: l -> In x V -> forall y, In y l -> In y V).
    { induction l as [|z l IH]; intros l1 x E X y Y; [destruct Y|].
      assert (Z : In z V). { specialize (Su x X). unfold successor in Su. now rewrite (after_split m l1 x z l m_nodup E) in Su. }
      destruct Y as [<-|Y]; [exact Z|]. apply (IH (l1 ++ [x]) z); auto. now rewrite <- app_assoc. }
    assert (exists t, In t turns) as [t T] by (clear -NE; destruct turns as [|t ts]; [easy|exists t; now left]).
    assert (X : In (at_turn ring t true false) V) by now apply Sv.
    pose proof (I _ X) as K. apply in_split in K as (l1 & l2 & K). pose proof (A l2 l1 _ K X) as A2.
    assert (H : forall y l, keys m = y :: l -> In y V).
    { intros y l E. assert (exists l' z, keys m = l' ++ [z]) as (l' & z & EL) by (rewrite E; destruct (exists_last (l := y :: l)) as (l' & z & Q); [discriminate|rewrite Q; eauto]).
      assert (Z : In z V).
      { destruct l2 as [|b l2] using rev_ind; [rewrite K in EL; apply app_inj_tail in EL as [_ <-]; exact X|]. clear IHl2.
        rewrite K in EL. replace (l1 ++ at_turn ring t true false :: l2 ++ [b]) with ((l1 ++ at_turn ring t true false :: l2) ++ [b]) in EL by now rewrite <- app_assoc.
        apply app_inj_tail in EL as [_ <-]. apply A2, in_or_app. right. now left. }
      specialize (Su z Z). destruct (successor_spec m z m_nodup (I z Z)) as [(a & b & Q)|(a & Q & Q')].
      - exfalso. pose proof m_nodup as ND. rewrite EL in Q, ND. apply split_unique in Q as [_ Q]; [discriminate|exact ND].
      - rewrite Q', E in Su. exact Su. }
    intros y Y. destruct (keys m) as [|h l] eqn:E; [destruct Y|]. destruct Y as [<-|Y]; [now apply (H h l)|].
    apply (A l [] h eq_refl); [now apply (H h l)|exact Y].
  Qed.

  (** ** The keys in their order follow the outline *)
  Lemma sum_app a b : sum (a ++ b) = sum a + sum b.
  Proof. induction a as [|x a IH]; cbn; [reflexivity|]. unfold sum in *. rewrite IH. lia. Qed.
  Lemma sum_perm a b : Permutation a b -> sum a = sum b.
  Proof. induction 1; cbn in *; unfold sum in *; lia. Qed.
  Lemma successors_sum f (l : list key) : forall l1, keys m = l1 ++ l -> l <> [] ->
    sum (map (fun k => f (pt k) (pt (successor k m))) l) = along f (map pt l) + f (pt (last l no_link)) (pt (hd no_link (keys m))).
  Proof.
    induction l as [|k l IH]; intros l1 E N; [easy|]. destruct l as [|k' l].
    - cbn. assert (successor k m = hd no_link (keys m)) as ->; [|lia]. destruct (successor_spec m k m_nodup) as [(a & b & Q)|(a & _ & Q)].
      + rewrite E. apply in_or_app. right. now left.
      + exfalso. pose proof m_nodup as ND. rewrite E in Q, ND. apply split_unique in Q as [_ Q]; [discriminate|exact ND].
      + rewrite Q. destruct (keys m); [now destruct l1|reflexivity].
    - assert (E' : keys m = (l1 ++ [k]) ++ k' :: l) by now rewrite <- app_assoc. specialize (IH (l1 ++ [k]) E' ltac:(discriminate)).
      assert (Sk : successor k m = k') by (unfold successor; now rewrite (after_split m l1 k k' l m_nodup E)).
      assert (A1 : forall a b, sum (a :: b) = a + sum b) by reflexivity.
      change (map (fun k => f (pt k) (pt (successor k m))) (k :: k' :: l)) with (f (pt k) (pt (successor k m)) :: map (fun k => f (pt k) (pt (successor k m))) (k' :: l)).
      rewrite A1, IH, Sk. change (last (k :: k' :: l) no_link) with (last (k' :: l) no_link).
      change (along f (map pt (k :: k' :: l))) with (f (pt k) (pt k') + along f (map pt (k' :: l))). lia.
  Qed.
  Lemma index_lt k : In k (keys m) -> (index_1 k < length ring)%nat.
  Proof.
    intros I. destruct (key_cases k I) as [(i & L & ->)|(t & s & b & T & ->)]; [exact L|]. pose proof (segments_lt t T). destruct s; cbn; lia.
  Qed.
  Lemma turn_place t side b : In t turns -> let k := at_turn ring t side b in
    (index_1 k + 1 < length ring)%nat /\ inside (nth (index_1 k) ring (0, 0)) (nth (index_1 k + 1) ring (0, 0)) (t_point t) /\
    scale k = distance2 (t_point t) (nth (index_1 k) ring (0, 0)).
  Proof.
    intros T. destruct (on_two_edges _ _ simple t T) as (A & B & C & D). destruct side; cbn; repeat split; auto; lia.
  Qed.
  Lemma keys_along f : additive f -> forall l l1 k, keys m = l1 ++ k :: l ->
    along f (map pt (k :: l)) = along f (pt k :: skipn (index_1 k + 1) ring).
  Proof.
    intros [Z A]. induction l as [|k' l IH]; intros l1 k E.
    - assert (L : (index_1 k + 1 = length ring)%nat).
      { assert (I : In k (keys m)) by (rewrite E; apply in_or_app; right; now left). pose proof (index_lt k I). destruct (Nat.eq_dec (index_1 k + 1) (length ring)) as [H0|H0]; [exact H0|exfalso].
        destruct (vertex_in (length ring - 1)) as [V _]; [lia|]. pose proof (proj1 m_spec) as S. unfold sorted in S. rewrite E in S, V. apply in_app_or in V as [V|[V|[]]].
        - assert (Q : key_lt (mkKey (length ring - 1) (length ring - 1) 0 false) k).
          { clear -S V. induction l1 as [|a l1 IH]; [destruct V|]. inversion S as [|? ? S' F]; subst. destruct V as [->|V]; [|auto]. rewrite Forall_forall in F. apply F, in_or_app. right. now left. }
          unfold key_lt in Q. cbn in Q. lia.
        - rewrite V in H, H0. cbn in H, H0. lia. }
      rewrite L, skipn_all. reflexivity.
    - change (map pt (k :: k' :: l)) with (pt k :: map pt (k' :: l)).
      assert (E' : keys m = (l1 ++ [k]) ++ k' :: l) by now rewrite <- app_assoc. pose proof (IH (l1 ++ [k]) k' E') as H. clear IH.
      assert (K : along f (pt k :: map pt (k' :: l)) = f (pt k) (pt k') + along f (map pt (k' :: l))) by reflexivity. rewrite K, H. clear K H.
      assert (I : In k (keys m)) by (rewrite E; apply in_or_app; right; now left). assert (I' : In k' (keys m)) by (rewrite E'; apply in_or_app; right; now left).
      pose proof (proj1 m_spec) as S. unfold sorted in S.
      assert (Lt : key_lt k k').
      { rewrite E in S. clear -S. induction l1 as [|a l1 IH]; cbn in S; inversion S as [|? ? S' F]; subst; [inversion F; assumption|auto]. }
      pose proof (index_lt k I) as B. pose proof (index_lt k' I') as B'.
      assert (Sk : forall i, (i < length ring)%nat -> skipn i ring = nth i ring (0, 0) :: skipn (i + 1) ring).
      { clear. intros i. revert ring. induction i as [|i IHi]; intros [|a r] Hi; cbn in Hi; try lia; [reflexivity|]. cbn [skipn nth]. rewrite IHi by lia. reflexivity. }
      destruct (Nat.eq_dec (index_1 k') (index_1 k)) as [Q|Q].
      + destruct (key_cases k' I') as [(i & Li & ->)|(t & s & b & T & Ek)].
        * exfalso. cbn in Q. destruct (key_cases k I) as [(j & Lj & ->)|(t & s & b & T & ->)].
          -- cbn in Q. subst j. now apply key_lt_irrefl in Lt.
          -- pose proof (scale_pos t s b T). unfold key_lt in Lt. cbn [index_1 index_2 scale reroute] in Lt. lia.
        * destruct (turn_place t s b T) as (P1 & P2 & P3). rewrite <- Ek in P1, P2, P3. assert (Pk : pt k' = t_point t) by (rewrite Ek; now apply pt_turn).
          rewrite Q in *. rewrite !Sk by lia. set (Bp := nth (index_1 k + 1) ring (0, 0)) in *. set (rest := skipn (index_1 k + 1 + 1) ring).
          change (along f (pt k' :: Bp :: rest)) with (f (pt k') Bp + along f (Bp :: rest)). change (along f (pt k :: Bp :: rest)) with (f (pt k) Bp + along f (Bp :: rest)).
          assert (G : f (pt k) Bp = f (pt k) (pt k') + f (pt k') Bp); [|lia].
          destruct (key_cases k I) as [(j & Lj & ->)|(u & s' & b' & U & Eu)].
          -- rewrite (proj2 (vertex_in j Lj)). cbn [index_1] in *. apply A. now rewrite Pk.
          -- destruct (turn_place u s' b' U) as (R1 & R2 & R3). rewrite <- Eu in R1, R2, R3. assert (Pu : pt k = t_point u) by (rewrite Eu; now apply pt_turn).
             rewrite Pk, Pu. destruct (Z.lt_trichotomy (scale k) (scale k')) as [W|[W|W]].
             ++ apply A. apply (inside_cut (nth (index_1 k) ring (0, 0))); auto. lia.
             ++ rewrite (inside_same _ _ _ _ R2 P2) by lia. rewrite Z. lia.
             ++ unfold key_lt in Lt. lia.
      + assert (Li : (index_1 k < index_1 k')%nat) by (unfold key_lt in Lt; lia).
        destruct (vertex_in (index_1 k + 1)) as [V Vp]; [lia|].
        assert (Ev : k' = mkKey (index_1 k + 1) (index_1 k + 1) 0 false).
        { pose proof V as V'. pose proof S as S'. rewrite E in V', S'. apply (sorted_around _ _ _ _ _ S') in V'. destruct V' as [V'|[V'|[V'|V']]].
          - unfold key_lt in V'. cbn in V'. lia.
          - rewrite <- V' in Li. exfalso. assert (index_1 k = index_1 k + 1)%nat by (rewrite <- V' at 1; reflexivity). lia.
          - now symmetry.
          - exfalso. unfold key_lt in V'. cbn [index_1 index_2 scale reroute] in V'.
            destruct (key_cases k' I') as [(i & _ & ->)|(t & s & b & T & ->)]; [cbn in *; lia|]. pose proof (scale_pos t s b T). lia. }
        rewrite Ev at 1 2 3. cbn [index_1]. rewrite Vp, (Sk (index_1 k + 1)%nat) by lia. reflexivity.
  Qed.
  Lemma keys_sum f : additive f -> sum (map (fun k => f (pt k) (pt (successor k m))) (keys m)) = along f ring.
  Proof.
    intros Ad. destruct (closed_ring _ _ simple) as [N Cl]. pose proof (proj1 m_spec) as S. unfold sorted in S.
    assert (L0 : (0 < length ring)%nat) by (destruct ring; [easy|cbn; lia]).
    assert (Hd : exists l, keys m = mkKey 0 0 0 false :: l).
    { destruct (vertex_in 0 L0) as [V _]. destruct (keys m) as [|k l] eqn:E; [destruct V|]. exists l. f_equal. destruct V as [V|V]; [exact V|exfalso].
      inversion S as [|? ? _ F]; subst. rewrite Forall_forall in F. apply F in V. unfold key_lt in V. cbn [index_1 index_2 scale reroute] in V.
      assert (I : In k (keys m)) by (rewrite E; now left). destruct (key_cases k I) as [(i & _ & ->)|(t & s & b & T & ->)]; [cbn in V; lia|].
      pose proof (scale_pos t s b T). lia. }
    destruct Hd as [l Hl].
    assert (Ls : last (keys m) no_link = mkKey (length ring - 1) (length ring - 1) 0 false).
    { destruct (vertex_in (length ring - 1)) as [V _]; [lia|]. destruct (exists_last (l := keys m)) as (l' & z & E); [rewrite Hl; discriminate|].
      rewrite E, last_last. rewrite E in V, S. apply in_app_or in V as [V|[V|[]]]; [exfalso|exact V].
      assert (Q : key_lt (mkKey (length ring - 1) (length ring - 1) 0 false) z).
      { clear -S V. induction l' as [|a l' IH]; [destruct V|]. inversion S as [|? ? S' F]; subst. destruct V as [->|V]; [|auto]. rewrite Forall_forall in F. apply F, in_or_app. right. now left. }
      assert (I : In z (keys m)) by (rewrite E; apply in_or_app; right; now left). pose proof (index_lt z I).
      destruct (key_cases z I) as [(i & _ & ->)|(t & s & b & T & ->)]; unfold key_lt in Q; cbn [index_1 index_2 scale reroute] in Q; [cbn in *; lia|].
      pose proof (segments_lt t T). destruct s; cbn in Q, H; lia. }
    rewrite (successors_sum f (keys m) [] eq_refl) by (rewrite Hl; discriminate). rewrite Ls, (proj2 (vertex_in (length ring - 1) ltac:(lia))).
    rewrite Hl at 2. cbn [hd]. rewrite (proj2 (vertex_in 0 L0)).
    rewrite Hl at 1. rewrite (keys_along f Ad l [] _ Hl). cbn [index_1]. rewrite (proj2 (vertex_in 0 L0)).
    assert (nth (length ring - 1) ring (0, 0) = nth 0 ring (0, 0)) as ->.
    { destruct (exists_last N) as (r & a & E). rewrite E, last_last in Cl. rewrite E, app_length. cbn [length]. rewrite app_nth2 by lia.
      replace (length r + 1 - 1 - length r)%nat with 0%nat by lia. destruct r; cbn in *; [reflexivity|exact Cl]. }
    rewrite (proj1 Ad). destruct ring as [|a r]; [easy|]. cbn [nth skipn Nat.add]. lia.
  Qed.
  Lemma walks_sum f : (forall a, f a a = 0) ->
    sum (map (fun k => f (pt k) (pt (walk m k))) (keys m)) = sum (map (fun k => f (pt k) (pt (successor k m))) (keys m)).
  Proof.
    intros Z. f_equal. apply map_ext_in. intros k I. destruct (reroute k) eqn:R; [|now rewrite walk_false].
    destruct (reroute_cases k I R) as (t & s & T & ->). rewrite walk_true, successor_true, !pt_turn by exact T. reflexivity.
  Qed.
End outline.

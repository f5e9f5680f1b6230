(** The correction of the outlines: theorems. *)
From Verif Require Import DissolveSpec DissolveProofs.
From Coq Require Import List ZArith Bool Arith Lia ZifyBool ZifyNat Permutation.
Import ListNotations.
Local Open Scope Z_scope.

(** ** Cleaning *)
Lemma last_default (l : list point) (a b : point) : l <> [] -> last l a = last l b.
Proof. induction l as [|c [|d l] IH]; intros N; [easy|reflexivity|]. apply IH. discriminate. Qed.
Lemma area2_edges r : closed r -> area2 r = along edge r.
Proof.
  intros [N C]. unfold area2. assert (E : forall l, edges l = along edge l) by (induction l as [|a [|b l] IH]; [reflexivity|reflexivity|]; cbn [edges along] in *; rewrite IH; reflexivity).
  destruct (Nat.ltb_spec (length r) 4) as [L|L]; [|apply E].
  destruct r as [|a [|b [|c [|d r]]]]; cbn in L, C; try lia; cbn; unfold edge; [easy|reflexivity|subst b; lia|subst c; lia].
Qed.
Lemma edges_rev r : edges (rev r) = - edges r.
Proof.
  assert (S : forall (l : list point) p, l <> [] -> edges (l ++ [p]) = edges l + edge (last l (0, 0)) p).
  { induction l as [|a [|b l] IH]; intros p N; [easy|cbn; lia|]. cbn [app edges] in *. rewrite IH by discriminate.
    change (last (a :: b :: l) (0, 0)) with (last (b :: l) (0, 0)). lia. }
  induction r as [|a r IH]; [reflexivity|]. destruct r as [|b r]; [reflexivity|]. change (rev (a :: b :: r)) with (rev (b :: r) ++ [a]).
  rewrite S, IH by (destruct (rev (b :: r)) eqn:Q; [apply (f_equal (@rev point)) in Q; rewrite rev_involutive in Q; discriminate|discriminate]).
  assert (last (rev (b :: r)) (0, 0) = b) as -> by (cbn [rev]; apply last_last). cbn [edges]. unfold edge. lia.
Qed.
(** The outline which is cut is made of the points of the ring which are numbers, it is closed,
    it turns clockwise. *)
Theorem C108_cleaned : forall ring,
  (forall p, In p (cleaned ring) <-> In (Some p) ring) /\
  (cleaned ring <> [] -> closed (cleaned ring)) /\
  0 <= area2 (cleaned ring).
Proof.
  intros ring. unfold cleaned. set (r := correct_invalid ring).
  assert (R : forall p, In p r <-> In (Some p) ring).
  { intros p. unfold r, correct_invalid. rewrite in_flat_map. split.
    - intros ([q|] & I & J); [destruct J as [->|[]]; exact I|destruct J].
    - intros I. exists (Some p). split; [exact I|now left]. }
  assert (C : (forall p, In p (correct_close r) <-> In p r) /\ (correct_close r <> [] -> closed (correct_close r))).
  { clearbody r. clear R. destruct r as [|a r]; [split; [reflexivity|easy]|]. unfold correct_close. destruct (point_eqb (last (a :: r) a) a) eqn:E.
    - split; [reflexivity|]. intros _. split; [discriminate|]. unfold point_eqb in E. apply andb_true_iff in E as [E1 E2]. apply Z.eqb_eq in E1, E2.
      pose proof (last_default (a :: r) (0, 0) a ltac:(discriminate)) as L.
      rewrite L. cbn [hd]. destruct (last (a :: r) a), a. cbn in E1, E2. congruence.
    - split; [|intros _; split; [discriminate|now rewrite last_last]]. intros p. rewrite in_app_iff. cbn. intuition. }
  destruct C as [C1 C2]. unfold correct_orientation. destruct (Z.ltb_spec (area2 (correct_close r)) 0) as [L|L].
  - split; [intros p; rewrite <- in_rev, C1; apply R|]. split.
    + intros N. assert (M : correct_close r <> []) by (intros Q; apply N; now rewrite Q). destruct (C2 M) as [_ E]. split; [exact N|].
      destruct (correct_close r) as [|a l] eqn:D; [easy|]. cbn [rev]. rewrite last_last. cbn [hd] in E. destruct (exists_last (l := a :: l)) as (l' & z & Q); [discriminate|].
      change (a = hd (0, 0) (rev (a :: l))). rewrite Q in E |- *. rewrite last_last in E. rewrite rev_app_distr. cbn. now symmetry.
    + unfold area2 in *. rewrite rev_length. destruct (length (correct_close r) <? 4)%nat; [lia|]. rewrite edges_rev. lia.
  - split; [intros p; rewrite C1; apply R|]. split; assumption.
Qed.
Print Assumptions C108_cleaned.
(** Less than three points give nothing; an outline without crossings gives itself. *)
Theorem C108_uncrossed : forall self_turns ma fuel ring,
  ((length ring < 3)%nat -> correct_ring self_turns ma fuel ring = Done []) /\
  ((3 <= length ring)%nat -> filter (kept (cleaned ring)) (self_turns (cleaned ring)) = [] ->
   correct_ring self_turns ma fuel ring = Done (large_rings ma [cleaned ring])).
Proof.
  intros st ma fuel ring. unfold correct_ring. split; intros L.
  - assert ((length ring <? 3)%nat = true) as -> by now apply Nat.ltb_lt. reflexivity.
  - intros F. assert ((length ring <? 3)%nat = false) as -> by now apply Nat.ltb_ge.
    rewrite find_intersections_filter, F. unfold find_intersections. cbn [fold_left]. unfold large_rings. cbn [filter].
    destruct (ma <? Z.abs (area2 (cleaned ring))); reflexivity.
Qed.
Print Assumptions C108_uncrossed.
(** Two consecutive edges, and the last edge with the first one, are not taken to cross at
    their common vertex. *)
Theorem C108_contacts : forall (ring : list point) (t : turn), let i := first_segment t in let j := second_segment t in
  j = (i + 1)%nat \/ i = 0%nat -> t_point t = nth (if (j =? i + 1)%nat then j else i) ring ((0, 0) : point) -> kept ring t = false.
Proof.
  intros ring t i j H E. assert (D0 : forall a, distance2 a a = 0) by (intros a; now apply distance2_zero).
  assert (Ds : forall a b, distance2 a b = distance2 b a) by (intros [x y] [x' y']; unfold distance2; cbn; ring).
  unfold kept. cbv zeta. fold i j. rewrite E. destruct (j =? i + 1)%nat eqn:J.
  - rewrite (D0 (nth j ring ((0, 0) : point))), (Ds (nth j ring ((0, 0) : point)) (nth i ring ((0, 0) : point))). lia.
  - rewrite (D0 (nth i ring ((0, 0) : point))). lia.
Qed.
Print Assumptions C108_contacts.

(** ** The rings of an outline *)
Lemma push_rings ma l : forall R, fold_left (push_ring ma) l R = R ++ large_rings ma l.
Proof.
  induction l as [|r l IH]; intros R; cbn [fold_left]; [unfold large_rings; cbn; now rewrite app_nil_r|]. rewrite IH. unfold push_ring, large_rings. cbn [filter].
  destruct (ma <? Z.abs (area2 r)); [cbn [map]; now rewrite <- app_assoc|reflexivity].
Qed.
Lemma insert_length k s : (length (insert k s) <= S (length s))%nat.
Proof. induction s as [|a s IH]; cbn; [lia|]. destruct (key_ltb k a); cbn; [lia|]. destruct (key_ltb a k); cbn; lia. Qed.
Lemma starts_length ring turns : (length (snd (find_intersections ring turns)) <= 2 * length turns)%nat.
Proof.
  unfold find_intersections. assert (G : forall s, (length (snd (fold_left (add_turn ring) turns s)) <= length (snd s) + 2 * length turns)%nat); [|apply (G (vertices ring, []))].
  induction turns as [|t turns IH]; intros s; cbn [fold_left length]; [lia|]. specialize (IH (add_turn ring s t)). enough ((length (snd (add_turn ring s t)) <= 2 + length (snd s))%nat) by lia.
  unfold add_turn. destruct (kept ring t); [|lia]. cbn [snd]. pose proof (insert_length (key_i ring t false) (insert (key_j ring t false) (snd s))).
  pose proof (insert_length (key_j ring t false) (snd s)). lia.
Qed.
Lemma pushed_hd ring turns l : forall r, r <> [] -> hd (0, 0) (pushed ring turns r l) = hd (0, 0) r.
Proof.
  induction l as [|k l IH]; intros r N; [reflexivity|]. cbn [pushed fold_left]. fold (pushed ring turns (push_point r (pt ring turns k)) l). rewrite IH by apply push_point_last.
  destruct (push_point_cases r (pt ring turns k) N) as [[_ ->]|[_ ->]]; [reflexivity|]. now destruct r.
Qed.
Lemma pushed_points ring turns l : forall r p, In p (pushed ring turns r l) -> In p r \/ exists k, In k l /\ p = pt ring turns k.
Proof.
  induction l as [|k l IH]; intros r p I; [now left|]. cbn [pushed fold_left] in I. apply IH in I as [I|(k' & K & E)]; [|right; exists k'; split; [now right|exact E]].
  destruct r as [|a r]; [destruct I as [<-|[]]; right; exists k; split; [now left|reflexivity]|].
  destruct (push_point_cases (a :: r) (pt ring turns k)) as [[_ Q]|[_ Q]]; [discriminate| |]; rewrite Q in I; [now left|].
  apply in_app_or in I as [I|[<-|[]]]; [now left|]. right. exists k. split; [now left|reflexivity].
Qed.

Lemma trace_more ma m st : forall fuel k s x, trace_ring ma m st fuel k s = Done x -> forall fuel', (fuel <= fuel')%nat -> trace_ring ma m st fuel' k s = Done x.
Proof.
  induction fuel as [|fuel IH]; intros k s x E [|fuel'] L; try discriminate; [lia|]. cbn [trace_ring] in *. destruct (lookup k m) as [v|]; [|discriminate].
  destruct (is_closed ma _ _ _ _) as [[[] r] R]; [exact E|]. apply IH; [exact E|lia].
Qed.
Lemma generate_more ma m st : forall fuel left R x, generate ma m st fuel left R = Done x -> forall fuel', (fuel <= fuel')%nat -> generate ma m st fuel' left R = Done x.
Proof.
  induction fuel as [|fuel IH]; intros left R x E [|fuel'] L; try discriminate; [lia|]. destruct left as [|k left]; [exact E|].
  cbn [generate] in *. destruct (lookup k m) as [v|]; [|discriminate].
  destruct (trace_ring ma m st (S fuel) k _) as [s| |] eqn:T; try discriminate. rewrite (trace_more ma m st _ _ _ _ T) by lia. apply IH; [exact E|lia].
Qed.

(** An outline that crosses itself only between its vertices is cut in closed rings, whose
    points are its vertices and its crossings; the rings with an area greater than the minimum
    are given with their area. All that adds up along the edges is the same for the outline and
    for the rings. *)
Theorem C108_rings : forall self_turns ma ring,
  let outline := cleaned ring in let crossings := filter (kept outline) (self_turns outline) in
  (3 <= length ring)%nat -> crossings <> [] -> crosses_simply outline crossings -> planar outline crossings ->
  exists loops,
    (forall fuel, (length outline + 6 * length crossings < fuel)%nat -> correct_ring self_turns ma fuel ring = Done (large_rings ma loops)) /\
    (forall r, In r loops -> closed r /\ forall p, In p r -> In p outline \/ In p (map t_point crossings)) /\
    forall f, additive f -> sum (map (along f) loops) = along f outline.
Proof.
  intros st ma ring outline crossings L NE S P.
  assert (K : forall t, In t crossings -> kept outline t = true) by (intros t T; apply filter_In in T; apply T).
  set (m := fst (find_intersections outline crossings)). set (starts := snd (find_intersections outline crossings)).
  assert (Lm : length m = (length outline + 4 * length crossings)%nat).
  { pose proof (Permutation_length (proj2 (m_spec outline crossings S K))) as Q. fold m in Q. rewrite Q, app_length. f_equal.
    - unfold vertex_entries. now rewrite map_length, seq_length.
    - clear. induction crossings as [|t l IH]; [reflexivity|]. cbn [flat_map length]. rewrite app_length, IH. cbn. lia. }
  pose proof (starts_length outline crossings) as Ls. fold starts in Ls.
  assert (G : forall fuel, (length outline + 6 * length crossings < fuel)%nat -> exists os,
    generate ma m starts fuel starts [] = Done (fold_left (push_ring ma) (map (pushed outline crossings []) os) []) /\
    Forall (is_orbit outline crossings) os /\ NoDup (concat os) /\ incl (concat os) (keys m) /\ (forall k, In k (concat os) -> In (walk m k) (concat os)) /\
    incl starts (concat os)).
  { intros fuel F. apply (generate_all outline crossings S K P ma fuel starts [] []); [constructor|easy|easy| |].
    - intros k. split; [intros Q; split; [exact Q|easy]|now intros [Q _]].
    - fold m. lia. }
  assert (Orb : forall os, Forall (is_orbit outline crossings) os ->
     forall r, In r (map (pushed outline crossings []) os) -> closed r /\ (forall p, In p r -> In p outline \/ In p (map t_point crossings)) /\
       exists o, In o os /\ r = pushed outline crossings [] o /\ forall f, (forall a, f a a = 0) ->
         along f r = DissolveSpec.sum (map (fun k => f (pt outline crossings k) (pt outline crossings (walk m k))) o)).
  { intros os F r I. apply in_map_iff in I as (o & <- & I). rewrite Forall_forall in F. destruct (F o I) as (t & side & n & T & N & B & M & ->).
    pose proof (long_enough outline crossings S K P t side n T N B M) as LE.
    split; [|split].
    - split.
      + destruct n as [|n]; [lia|]. unfold m. rewrite (pushed_S outline crossings t side). apply push_point_last.
      + destruct n as [|n]; [lia|]. unfold m. rewrite (pushed_S outline crossings t side) at 1. rewrite (proj1 (proj2 (push_point_last _ _))).
        pose proof (last_key outline crossings S K t side (Datatypes.S n) T N B M) as LK. cbn [Nat.sub] in LK. rewrite Nat.sub_0_r in LK. rewrite LK, pt_turn by assumption.
        unfold orbit. cbn [seq map]. cbn [pushed fold_left]. change (Nat.iter 0 (walk (fst (find_intersections outline crossings))) (at_turn outline t side false)) with (at_turn outline t side false).
        pose proof (pushed_hd outline crossings (map (fun i => Nat.iter i (walk (fst (find_intersections outline crossings))) (at_turn outline t side false)) (seq 1 n)) (push_point [] (pt outline crossings (at_turn outline t side false))) ltac:(apply push_point_last)) as H.
        unfold pushed in H. rewrite H. cbn [push_point rev hd]. now rewrite pt_turn.
    - intros p Ip. apply pushed_points in Ip as [[]|(k & Ik & ->)]. assert (Hk : In k (keys m)).
      { apply in_map_iff in Ik as (i & <- & _). apply (iter_in (keys m) (walk m)); [apply walk_in; assumption|now apply turn_key]. }
      destruct (key_cases outline crossings S K k Hk) as [(i & Li & ->)|(u & s & b & U & ->)].
      + left. rewrite (proj2 (vertex_in outline crossings S K i Li)). now apply nth_In.
      + right. rewrite pt_turn by assumption. now apply in_map.
    - eexists. split; [exact I|]. split; [reflexivity|]. intros f Z. apply (ring_sum outline crossings S K t side n ma T N B M f Z). }
  destruct (G (Datatypes.S (length outline + 6 * length crossings)) ltac:(lia)) as (os & E & Fo & No & Io & Co & So).
  exists (map (pushed outline crossings []) os). split; [|split].
  - intros fuel F.
    assert (EQ : correct_ring st ma fuel ring = generate ma m starts fuel starts []).
    { unfold correct_ring. assert ((length ring <? 3)%nat = false) as -> by now apply Nat.ltb_ge. fold outline. rewrite find_intersections_filter. fold crossings.
      pose proof (surjective_pairing (find_intersections outline crossings)) as SP. fold m starts in SP. rewrite SP.
      assert (exists t, In t crossings) as [t T] by (clear -NE; destruct crossings as [|t ts]; [easy|exists t; now left]).
      assert (X : In (at_turn outline t true false) starts) by (apply (starts_spec outline crossings K); exists t, true; auto).
      destruct starts as [|k l]; [destruct X|reflexivity]. }
    rewrite EQ. rewrite (generate_more ma m starts _ _ _ _ E fuel ltac:(lia)). now rewrite push_rings.
  - intros r I. destruct (Orb os Fo r I) as (A & B & _). auto.
  - intros f [Z A].
    pose proof (covered outline crossings S K (concat os) NE No Io Co So) as Pm. fold m in Pm.
    rewrite <- (keys_sum outline crossings S K P f (conj Z A)), <- (walks_sum outline crossings S K f Z). fold m.
    rewrite <- (sum_perm _ _ (Permutation_map _ Pm)). clear E No Io Co So Pm. induction os as [|o os IH]; [reflexivity|]. cbn [map concat]. rewrite map_app, sum_app.
    inversion Fo as [|? ? F1 F2]; subst. rewrite <- IH by assumption.
    destruct (Orb [o] (Forall_cons _ F1 (Forall_nil _)) _ (or_introl eq_refl)) as (_ & _ & o' & [<-|[]] & _ & R). cbn [DissolveSpec.sum fold_right]. rewrite <- R by exact Z. reflexivity.
Qed.
Print Assumptions C108_rings.

Lemma edge_additive : additive edge.
Proof.
  split; [intros [x y]; unfold edge; cbn; ring|]. intros [ax ay] [bx by_] [cx cy] (n & d & N & X & Y). cbn [fst snd] in *. unfold edge. cbn [fst snd].
  apply Z.mul_reg_l with d; [lia|].
  assert (E : d * ((cx - ax) * (by_ - ay) - (cy - ay) * (bx - ax)) = 0).
  { replace (d * ((cx - ax) * (by_ - ay) - (cy - ay) * (bx - ax))) with ((d * (cx - ax)) * (by_ - ay) - (d * (cy - ay)) * (bx - ax)) by ring. rewrite X, Y. ring. }
  replace (d * ((ax + cx) * (ay - cy) + (cx + bx) * (cy - by_))) with (d * ((ax + bx) * (ay - by_)) - d * ((cx - ax) * (by_ - ay) - (cy - ay) * (bx - ax))) by ring. lia.
Qed.
Lemma ray_additive p : additive (crosses_ray p).
Proof.
  destruct p as [px py]. split.
  - intros [ax ay]. unfold crosses_ray. cbn [fst snd]. destruct (Z.leb_spec ay py), (Z.ltb_spec py ay); cbn; try reflexivity; lia.
  - intros [ax ay] [bx by_] [cx cy] (n & d & N & X & Y). cbn [fst snd] in *. unfold crosses_ray. cbn [fst snd].
    set (s := (bx - ax) * (py - ay) - (px - ax) * (by_ - ay)).
    set (s1 := (cx - ax) * (py - ay) - (px - ax) * (cy - ay)). set (s2 := (bx - cx) * (py - cy) - (px - cx) * (by_ - cy)).
    assert (E1 : d * s1 = n * s).
    { unfold s1, s. replace (d * ((cx - ax) * (py - ay) - (px - ax) * (cy - ay))) with ((d * (cx - ax)) * (py - ay) - (px - ax) * (d * (cy - ay))) by ring. rewrite X, Y. ring. }
    assert (E2 : s = s1 + s2).
    { assert (E : (cx - ax) * (by_ - ay) = (cy - ay) * (bx - ax)).
      { apply Z.mul_reg_l with d; [lia|]. rewrite !Z.mul_assoc, X, Y. ring. }
      unfold s, s1, s2. replace ((bx - cx) * (py - cy) - (px - cx) * (by_ - cy)) with
        ((bx - ax) * (py - ay) - (px - ax) * (by_ - ay) - ((cx - ax) * (py - ay) - (px - ax) * (cy - ay)) - ((cy - ay) * (bx - ax) - (cx - ax) * (by_ - ay))) by ring. rewrite E. ring. }
    assert (E3 : d * s2 = (d - n) * s) by lia.
    assert (S1 : (0 < s -> 0 < s1) /\ (s < 0 -> s1 < 0) /\ (s = 0 -> s1 = 0)) by (clear -E1 N; repeat split; intros; nia).
    assert (S2 : (0 < s -> 0 < s2) /\ (s < 0 -> s2 < 0) /\ (s = 0 -> s2 = 0)).
    { assert (M : 0 < d - n) by lia. clear -E3 M N. set (e := d - n) in *. clearbody e. repeat split; intros; nia. }
    assert (O : (ay < by_ -> ay < cy < by_) /\ (by_ < ay -> by_ < cy < ay) /\ (ay = by_ -> cy = ay)).
    { assert (Y' : d * (by_ - cy) = (d - n) * (by_ - ay)) by lia. assert (M : 0 < d - n) by lia. clear -Y Y' N M. set (e := d - n) in *. clearbody e.
      set (u := cy - ay) in *. set (v := by_ - cy) in *. set (w := by_ - ay) in *.
      assert (T : (0 < w -> 0 < u /\ 0 < v) /\ (w < 0 -> u < 0 /\ v < 0) /\ (w = 0 -> u = 0)) by (clear -Y Y' N M; clearbody u v w; repeat split; intros; nia).
      lia. }
    clearbody s s1 s2. clear X Y E1 E2 E3.
    destruct (Z.leb_spec ay py), (Z.ltb_spec py by_), (Z.leb_spec by_ py), (Z.ltb_spec py ay), (Z.leb_spec cy py), (Z.ltb_spec py cy); try lia; cbn [andb];
      destruct (Z.ltb_spec 0 s), (Z.ltb_spec s 0), (Z.ltb_spec 0 s1), (Z.ltb_spec s1 0), (Z.ltb_spec 0 s2), (Z.ltb_spec s2 0); lia.
Qed.
(** The areas of the rings add up to the area of the outline, and around each point the outline
    turns as many times as all the rings. *)
Theorem C108_area_and_turns : forall self_turns ma ring,
  let outline := cleaned ring in let crossings := filter (kept outline) (self_turns outline) in
  (3 <= length ring)%nat -> crossings <> [] -> crosses_simply outline crossings -> planar outline crossings ->
  exists loops,
    (forall fuel, (length outline + 6 * length crossings < fuel)%nat -> correct_ring self_turns ma fuel ring = Done (large_rings ma loops)) /\
    sum (map area2 loops) = area2 outline /\ forall p, sum (map (winding p) loops) = winding p outline.
Proof.
  intros st ma ring outline crossings L NE S P. destruct (C108_rings st ma ring L NE S P) as (loops & A & B & C). exists loops. split; [exact A|]. split.
  - rewrite (area2_edges outline) by apply (closed_ring _ _ S). unfold outline. rewrite <- (C edge edge_additive). f_equal. apply map_ext_in. intros r I. apply area2_edges. now apply B.
  - intros p. apply (C (crosses_ray p) (ray_additive p)).
Qed.
Print Assumptions C108_area_and_turns.
(** With the minimum of the code, 0, the areas that are given add up to that of the outline. *)
Theorem C108_areas : forall self_turns ring fuel rings,
  let outline := cleaned ring in let crossings := filter (kept outline) (self_turns outline) in
  (3 <= length ring)%nat -> crossings <> [] -> crosses_simply outline crossings -> planar outline crossings ->
  (length outline + 6 * length crossings < fuel)%nat -> correct_ring self_turns 0 fuel ring = Done rings ->
  sum (map snd rings) = area2 outline /\ forall r a, In (r, a) rings -> a = area2 r /\ a <> 0 /\ closed r.
Proof.
  intros st ring fuel rings outline crossings L NE S P F E. destruct (C108_rings st 0 ring L NE S P) as (loops & A & B & C). rewrite (A fuel F) in E. injection E as <-. split.
  - rewrite (area2_edges outline) by apply (closed_ring _ _ S). unfold outline. rewrite <- (C edge edge_additive).
    assert (B' : forall r, In r loops -> area2 r = along edge r) by (intros r I; apply area2_edges; now apply B). clear -B'.
    unfold large_rings. induction loops as [|r l IH]; [reflexivity|]. cbn [filter map]. pose proof (B' r (or_introl eq_refl)) as R.
    specialize (IH (fun r I => B' r (or_intror I))). destruct (Z.ltb_spec 0 (Z.abs (area2 r))) as [G|G]; cbn [map snd]; unfold sum in *; cbn [fold_right]; lia.
  - intros r a I. unfold large_rings in I. apply in_map_iff in I as (r' & [= <- <-] & I). apply filter_In in I as [I G]. split; [reflexivity|]. split; [lia|]. now apply B.
Qed.
Print Assumptions C108_areas.

(** A figure eight. *)
Definition eight : list (option point) := [Some (0, 0); Some (4, 4); None; Some (4, 0); Some (0, 4)].
Definition eight_turns (r : list point) : list turn := [mkTurn (2, 2) 0 2; mkTurn (4, 4) 0 1].
Lemma planar_by ring turns t p : (0 < p)%nat -> Nat.iter p (walk (fst (find_intersections ring turns))) (key_i ring t false) = key_i ring t false ->
  (forall n, (n < p)%nat -> Nat.iter n (walk (fst (find_intersections ring turns))) (key_i ring t false) <> key_j ring t false) ->
  forall n, Nat.iter n (walk (fst (find_intersections ring turns))) (key_i ring t false) <> key_j ring t false.
Proof.
  intros P B N n. set (w := walk (fst (find_intersections ring turns))) in *. set (k := key_i ring t false) in *.
  assert (M : forall c, Nat.iter (c * p) w k = k) by (induction c; [reflexivity|]; cbn [Nat.mul]; rewrite iter_plus, IHc; exact B).
  rewrite (Nat.div_mod n p) by lia. rewrite Nat.add_comm, iter_plus, Nat.mul_comm, M. apply N, Nat.mod_upper_bound. lia.
Qed.
Example eight_crosses : let outline := cleaned eight in let crossings := filter (kept outline) (eight_turns outline) in
  crossings = [mkTurn (2, 2) 0 2] /\ crosses_simply outline crossings /\ planar outline crossings /\
  correct_ring eight_turns 0 20 eight = Done [([(2, 2); (4, 4); (4, 0); (2, 2)], 8); ([(2, 2); (0, 4); (0, 0); (2, 2)], -8)].
Proof.
  cbv zeta. assert (C : filter (kept (cleaned eight)) (eight_turns (cleaned eight)) = [mkTurn (2, 2) 0 2]) by reflexivity. rewrite C.
  assert (O : cleaned eight = [(0, 0); (4, 4); (4, 0); (0, 4); (0, 0)]) by reflexivity. rewrite O.
  split; [reflexivity|]. split; [|split; [|reflexivity]].
  - constructor.
    + split; [discriminate|reflexivity].
    + intros t [<-|[]]. cbn. repeat split; try lia; exists 1, 2; cbn [fst snd]; lia.
    + repeat constructor. easy.
    + repeat constructor. easy.
    + intros t [<-|[]]. cbn. intuition discriminate.
  - intros t n [<-|[]]. revert n. apply (planar_by _ _ _ 4); [lia|reflexivity|]. intros [|[|[|[|n]]]] L; try lia; discriminate.
Qed.

(** Defect: a crossing is ignored when it is farther from the starts of its two edges than
    these are from each other. The outline is then given as it is, still crossing itself. *)
Definition missed : list (option point) := map Some [(0, 0); (10, 2); (12, 10); (-2, 10); (0, 2); (10, 0); (12, -5); (0, -5)].
Theorem C108_missed_crossing_refuted : exists ring t, (3 <= length ring)%nat /\
  crosses_simply (cleaned ring) [t] /\
  forall fuel, correct_ring (fun _ => [t]) 0 fuel ring = Done [(cleaned ring, 82)].
Proof.
  exists missed, (mkTurn (5, 1) 3 7). split; [cbn; lia|].
  assert (C : cleaned missed = [(0, 0); (0, -5); (12, -5); (10, 0); (0, 2); (-2, 10); (12, 10); (10, 2); (0, 0)]) by reflexivity.
  split.
  - rewrite C. constructor.
    + split; [discriminate|reflexivity].
    + intros t [<-|[]]. cbn. repeat split; try lia; exists 1, 2; cbn [fst snd]; lia.
    + repeat constructor. easy.
    + repeat constructor. easy.
    + intros t [<-|[]]. cbn. intuition discriminate.
  - reflexivity.
Qed.
Print Assumptions C108_missed_crossing_refuted.

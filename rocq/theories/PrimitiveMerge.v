(** Merge of planes and adjacency: proofs. *)
From Coq Require Import ZifyBool ZifyNat Permutation.
From Verif Require Import PrimitiveModel PrimitiveSpec PrimitiveProofs.
Import ListNotations.

(** ** Adjacency *)
Section Adjacency.
Variables rows cols : nat.
Variable label : nat -> nat -> nat.
Implicit Types a b r c : nat.

Lemma pairs_at_in r c a b :
  In (a, b) (pairs_at label r c) <->
  a <> b /\ ((label r c = S a /\ (label r (S c) = S b \/ label (S r) c = S b)) \/ (label r c = S b /\ (label r (S c) = S a \/ label (S r) c = S a))).
Proof.
  unfold pairs_at. destruct (Nat.eqb_spec (label r c) 0) as [Z|Z]; [split; [intros []|intros (_ & K); lia]|].
  rewrite in_app_iff. destruct (Nat.eqb_spec (label r (S c)) 0) as [Z1|Z1], (Nat.eqb_spec (label (S r) c) 0) as [Z2|Z2],
    (Nat.eqb_spec (label r c) (label r (S c))) as [E1|E1], (Nat.eqb_spec (label r c) (label (S r) c)) as [E2|E2]; cbn [negb andb In];
  (split; [intros K; repeat match goal with K : _ \/ _ |- _ => destruct K as [K|K] | K : (_, _) = (_, _) |- _ => injection K as <- <- | K : False |- _ => destruct K end; lia
          |intros (N & K);
           assert (D : (label r c - 1 = a /\ (label r (S c) = S b \/ label (S r) c = S b)) \/ (label r c - 1 = b /\ (label r (S c) = S a \/ label (S r) c = S a))) by lia;
           destruct D as [[D1 [D2|D2]]|[D1 [D2|D2]]]; rewrite ?D1, ?D2; cbn [Nat.sub]; rewrite ?Nat.sub_0_r; try lia; auto 8]).
Qed.
Lemma connected_iff a b :
  connected rows cols label a b = true <->
  a <> b /\ exists r c, r < rows - 1 /\ c < cols - 1 /\
    ((label r c = S a /\ (label r (S c) = S b \/ label (S r) c = S b)) \/ (label r c = S b /\ (label r (S c) = S a \/ label (S r) c = S a))).
Proof.
  unfold connected. rewrite existsb_exists. split.
  - intros ([a' b'] & I & E). cbn [fst snd] in E. apply andb_prop in E as [Ea Eb]. apply Nat.eqb_eq in Ea, Eb. subst a' b'.
    unfold connected_pairs in I. apply in_flat_map in I as (r & R & I). apply in_flat_map in I as (c & C & I). apply in_seq in R, C.
    apply pairs_at_in in I as [N I]. split; auto. exists r, c. repeat split; auto; lia.
  - intros (N & r & c & R & C & I). exists (a, b). split; [|cbn; now rewrite !Nat.eqb_refl].
    apply in_flat_map. exists r. split; [apply in_seq; lia|]. apply in_flat_map. exists c. split; [apply in_seq; lia|]. now apply pairs_at_in.
Qed.
End Adjacency.

(** ** Merge *)
Section Merge.
Variable fit_ok : list nat -> bool.
Variable seg_merge : list nat -> list nat -> bool.
Variable n : nat.
Variable seg : nat -> segment.
Variable con : nat -> nat -> bool.
Notation linked := (PrimitiveSpec.linked seg_merge seg con).
Notation merged_fit := (PrimitiveSpec.merged_fit seg_merge seg con).
Notation all_linked := (PrimitiveSpec.all_linked seg_merge seg con).
Implicit Types (i j c row id : nat) (m : mstate) (f : list nat).

(** state when the rows below [r] were treated *)
Record minv (r : nat) (m : mstate) : Prop := {
  mi_le : forall j, m_label m j <= j;
  mi_old : forall j, m_label m j <> j -> m_label m j < r;
  mi_root : forall j, m_label m (m_label m j) = m_label m j;
  mi_linked : forall j, linked (m_label m j) j;
  mi_cells : forall j, exists ms, all_linked j ms /\ s_cells (m_seg m j) = s_cells (seg j) ++ flat_map (fun k => s_cells (seg k)) ms;
  mi_fit : forall j, merged_fit j (s_fit (m_seg m j));
  mi_same : forall j, r <= j -> m_seg m j = seg j;
  mi_con : forall i j, r <= i -> i < j -> m_con m i j = con i j;
  (** a plane that was not merged was refused *)
  mi_refused : forall i c, i < r -> i < c -> c < n -> m_label m c = c -> con i c = true -> s_planar (seg c) = true ->
     s_planar (m_seg m (m_label m i)) = false \/ exists f, merged_fit (m_label m i) f /\ seg_merge f (s_fit (seg c)) = false;
  mi_out : forall j, n <= j -> m_label m j = j;
  (** fitted after the last expansion *)
  mi_fresh : (forall j, s_fit (seg j) = s_cells (seg j)) -> forall j, s_planar (m_seg m j) = true -> s_fit (m_seg m j) = s_cells (m_seg m j)
}.

Record rinv (r id k : nat) (m0 m : mstate) (ex : bool) : Prop := {
  ri_label : forall j, m_label m j = m_label m0 j \/ (r < j /\ j < k /\ m_label m j = id);
  ri_linked : forall j, m_label m j <> m_label m0 j -> linked id j;
  ri_seg : forall j, j <> id -> m_seg m j = m_seg m0 j;
  ri_fit : s_fit (m_seg m id) = s_fit (m_seg m0 id);
  ri_planar : s_planar (m_seg m id) = s_planar (m_seg m0 id);
  ri_cells : exists ms, all_linked id ms /\ s_cells (m_seg m id) = s_cells (seg id) ++ flat_map (fun q => s_cells (seg q)) ms;
  ri_con : forall i j, i <> r -> i < j -> m_con m i j = m_con m0 i j;
  ri_con_row : forall j, k <= j -> m_con m r j = m_con m0 r j;
  ri_refused : forall c, r < c -> c < k -> con r c = true -> s_planar (seg c) = true -> m_label m c <> id ->
     seg_merge (s_fit (m_seg m0 id)) (s_fit (seg c)) = false;
  ri_same : ex = false -> m_seg m id = m_seg m0 id
}.

Lemma merge_row_inv r m0 : minv r m0 ->
  forall cs k m ex, cs = seq k (n - k) -> r < k -> k <= n -> rinv r (m_label m0 r) k m0 m ex ->
  let '(m', ex') := merge_row seg_merge r (m_label m0 r) cs m ex in rinv r (m_label m0 r) n m0 m' ex'.
Proof.
  intros I0. assert (Lid := mi_le _ _ I0 r). set (id := m_label m0 r) in *.
  induction cs as [|c cs IH]; intros k m ex E Lk Ln W; cbn [merge_row].
  - assert (k = n). { destruct (n - k) eqn:D; [lia|discriminate]. } now subst k.
  - destruct (n - k) as [|d] eqn:D; [discriminate|]. cbn [seq] in E. injection E as -> E.
    assert (E' : cs = seq (S k) (n - S k)) by (rewrite E; f_equal; lia).
    assert (Sk : m_seg m k = seg k). { rewrite (ri_seg _ _ _ _ _ _ W) by lia. apply (mi_same _ _ I0). lia. }
    assert (Ck : m_con m r k = con r k). { rewrite (ri_con_row _ _ _ _ _ _ W) by lia. apply (mi_con _ _ I0); lia. }
    assert (Lk0 : m_label m k = m_label m0 k). { destruct (ri_label _ _ _ _ _ _ W k) as [|]; [auto|lia]. }
    rewrite Ck, Sk. destruct (con r k) eqn:C; cbn [negb].
    2:{ apply (IH (S k)); auto; try lia. destruct W as [W1 W2 W3 W4 W5 W6 W7 W8 W9 W10]. constructor; auto.
        - intros j. destruct (W1 j) as [|(A & B & X)]; [auto|right; repeat split; auto; lia].
        - intros j J. apply W8. lia.
        - intros q Q1 Q2 Q3. destruct (Nat.eq_dec q k) as [->|]; [congruence|apply W9; lia || auto]. }
    destruct (s_planar (seg k)) eqn:P; cbn [negb].
    2:{ apply (IH (S k)); auto; try lia. destruct W as [W1 W2 W3 W4 W5 W6 W7 W8 W9 W10]. constructor; auto.
        - intros j. destruct (W1 j) as [|(A & B & X)]; [auto|right; repeat split; auto; lia].
        - intros j J. apply W8. lia.
        - intros q Q1 Q2 Q3 Q4. destruct (Nat.eq_dec q k) as [->|]; [congruence|apply W9; auto; lia]. }
    destruct W as [W1 W2 W3 W4 W5 W6 W7 W8 W9 W10].
    destruct (seg_merge (s_fit (m_seg m id)) (s_fit (seg k))) eqn:T.
    + assert (Lnk : linked id k).
      { apply linked_step with r (s_fit (m_seg m id)); auto.
        - apply (mi_linked _ _ I0).
        - rewrite W4. apply (mi_fit _ _ I0). }
      apply (IH (S k)); auto; try lia. constructor; cbn [m_label m_seg m_con].
      * intros j. unfold set. destruct (Nat.eqb_spec j k) as [->|]; [right; repeat split; auto; lia|].
        destruct (W1 j) as [|(A & B & X)]; [auto|right; repeat split; auto; lia].
      * intros j. unfold set. destruct (Nat.eqb_spec j k) as [->|]; auto.
      * intros j J. rewrite set_neq; auto.
      * rewrite set_eq. exact W4.
      * rewrite set_eq. exact W5.
      * rewrite set_eq. cbn [s_cells]. destruct W6 as (ms & M1 & M2). exists (ms ++ [k]). split; [now constructor|].
        rewrite M2, flat_map_app, <- app_assoc. cbn [flat_map]. now rewrite app_nil_r.
      * exact W7.
      * intros j J. apply W8. lia.
      * intros q Q1 Q2 Q3 Q4. unfold set. destruct (Nat.eqb_spec q k) as [->|]; [congruence|]. intros Q5. apply W9; auto. lia.
      * discriminate.
    + apply (IH (S k)); auto; try lia. constructor; cbn [m_label m_seg m_con]; auto.
      * intros j. destruct (W1 j) as [|(A & B & X)]; [auto|right; repeat split; auto; lia].
      * intros i j Ni Lij. destruct (Nat.eqb_spec i r); [contradiction|]. cbn [andb orb].
        destruct (Nat.eqb_spec i k), (Nat.eqb_spec j r); cbn [andb]; auto. lia.
      * intros j J. destruct (Nat.eqb_spec j k); [lia|]. rewrite andb_false_r. cbn [orb].
        destruct (Nat.eqb_spec j r); [lia|]. rewrite andb_false_r. apply W8. lia.
      * intros q Q1 Q2 Q3 Q4 Q5. destruct (Nat.eq_dec q k) as [->|]; [now rewrite <- W4|apply W9; auto; lia].
Qed.

Lemma merge_one_inv r m : r < n -> minv r m -> minv (S r) (merge_one fit_ok seg_merge n r m).
Proof.
  intros Lr I. unfold merge_one. assert (Lid := mi_le _ _ I r). set (id := m_label m r) in *.
  destruct (s_planar (m_seg m id)) eqn:P; cbn [negb].
  2:{ destruct I as [I1 I2 I3 I4 I5 I6 I7 I8 I9 I10 I11]. constructor; auto.
      - intros j J. specialize (I2 j J). lia.
      - intros j J. apply I7. lia.
      - intros i j J J'. apply I8; lia.
      - intros i c A B. destruct (Nat.eq_dec i r) as [->|]; [intros; left; exact P|apply I9; auto; lia]. }
  assert (W := merge_row_inv r m I (seq (S r) (n - S r)) (S r) m false eq_refl (Nat.lt_succ_diag_r r) Lr).
  destruct (merge_row seg_merge r (m_label m r) (seq (S r) (n - S r)) m false) as [m' ex] eqn:E. fold id in E, W. rewrite E.
  destruct W as [W1 W2 W3 W4 W5 W6 W7 W8 W9 W10].
  { constructor; auto.
    - intros j K. congruence.
    - destruct (mi_cells _ _ I id) as (ms & M1 & M2). eauto.
    - intros c A B. lia. }
  set (m'' := if ex then mkM (set (m_seg m') id (refit fit_ok (m_seg m' id))) (m_label m') (m_con m') else m').
  assert (El : m_label m'' = m_label m') by (unfold m''; destruct ex; reflexivity).
  assert (Ec : m_con m'' = m_con m') by (unfold m''; destruct ex; reflexivity).
  assert (Es : forall j, j <> id -> m_seg m'' j = m_seg m j).
  { intros j J. unfold m''. destruct ex; cbn [m_seg]; rewrite ?set_neq; auto. }
  assert (Eid : s_cells (m_seg m'' id) = s_cells (m_seg m' id) /\ merged_fit id (s_fit (m_seg m'' id))).
  { assert (F0 : merged_fit id (s_fit (m_seg m' id))) by (rewrite W4; apply (mi_fit _ _ I)).
    unfold m''. destruct ex; [|auto]. cbn [m_seg]. rewrite set_eq. unfold refit. destruct (fit_ok (s_cells (m_seg m' id))); cbn [s_cells s_fit]; split; auto.
    destruct W6 as (ms & M1 & ->). now constructor. }
  assert (Lab : forall j, m_label m'' j = m_label m j \/ (r < j /\ j < n /\ m_label m'' j = id)) by (intros j; rewrite El; auto).
  destruct I as [I1 I2 I3 I4 I5 I6 I7 I8 I9 I10 I11]. constructor.
  - intros j. destruct (Lab j) as [->|(A & B & ->)]; auto. lia.
  - intros j J. destruct (Lab j) as [K|(A & B & ->)]; [|lia]. rewrite K in *. specialize (I2 j J). lia.
  - intros j. destruct (Lab j) as [K|(A & B & ->)].
    + rewrite K. destruct (Lab (m_label m j)) as [K'|(A' & B' & K')].
      * rewrite K'. apply I3.
      * destruct (Nat.eq_dec (m_label m j) j) as [Ej|Ej]; [rewrite Ej in *; congruence|]. specialize (I2 j Ej). lia.
    + destruct (Lab id) as [K'|(A' & B' & K')]; [rewrite K'; unfold id; apply I3|lia].
  - intros j. rewrite El. destruct (Nat.eq_dec (m_label m' j) (m_label m j)) as [->|K]; [apply I4|].
    destruct (W1 j) as [|(A & B & ->)]; [contradiction|auto].
  - intros j. destruct (Nat.eq_dec j id) as [->|J]; [|rewrite Es; auto]. destruct Eid as [-> _]. exact W6.
  - intros j. destruct (Nat.eq_dec j id) as [->|J]; [apply Eid|rewrite Es; auto].
  - intros j J. rewrite Es by lia. apply I7. lia.
  - intros i j A B. rewrite Ec, W7 by lia. apply I8; lia.
  - intros i c A B Cn D F G. assert (Lc : m_label m c = c).
    { destruct (Lab c) as [<-|(A' & B' & K')]; [auto|]. lia. }
    assert (Li : m_label m'' i = m_label m i). { destruct (Lab i) as [|(A' & _)]; [auto|lia]. }
    rewrite Li. destruct (Nat.eq_dec i r) as [->|Ni].
    + fold id. right. exists (s_fit (m_seg m id)). split; [apply I6|]. apply W9; auto. rewrite <- El, D. lia.
    + destruct (I9 i c) as [N|R]; auto; try lia. left. rewrite Es; auto. intros K. congruence.
  - intros j J. destruct (Lab j) as [->|(A & B & _)]; [auto|lia].
  - intros Hf j. destruct (Nat.eq_dec j id) as [->|J]; [|rewrite Es; auto]. unfold m''. destruct ex.
    + cbn [m_seg]. rewrite set_eq. unfold refit. destruct (fit_ok (s_cells (m_seg m' id))); cbn [s_planar s_fit s_cells]; [auto|discriminate].
    + rewrite W10 by auto. auto.
Qed.

Lemma merge_planes_inv : minv n (merge_planes fit_ok seg_merge n seg con).
Proof.
  unfold merge_planes.
  assert (G : forall k r m, r + k = n -> minv r m -> minv n (fold_left (fun m row => merge_one fit_ok seg_merge n row m) (seq r k) m)).
  { induction k as [|k IH]; intros r m E I; cbn [seq fold_left]; [now replace n with r by lia|].
    apply IH; [lia|]. apply merge_one_inv; auto. lia. }
  apply G; [reflexivity|]. constructor; cbn [m_label m_seg m_con]; auto; try lia.
  - intros j. constructor.
  - intros j. exists []. split; [constructor|]. cbn. now rewrite app_nil_r.
  - intros j. constructor.
Qed.
End Merge.

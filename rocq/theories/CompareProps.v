(** The drawing and the comparison of segments. *)
From Verif Require Import CompareModel CompareSpec.
From Coq Require Import List ZArith Bool Arith Permutation Lia ZifyBool ZifyNat.
Import ListNotations.

Section Compare.
  Context {segment : Type}.
  Variable drawn : nat * nat -> segment -> nat -> bool.
  Notation on := (on drawn).
  Notation distance := (distance drawn).
  Notation compare_segments := (compare_segments segment drawn).
  Notation draw_segments := (draw_segments segment drawn).

  (** *** The masks *)
  Lemma combine_map {A B} (f : A -> B) (l : list A) : combine l (map f l) = map (fun x => (x, f x)) l.
  Proof. induction l; cbn; congruence. Qed.
  Lemma combine_maps {A B C} (f : A -> B) (g : A -> C) (l : list A) : combine (map f l) (map g l) = map (fun x => (f x, g x)) l.
  Proof. induction l; cbn; congruence. Qed.
  Lemma mask_from size lines n : forall f, fold_left (line_mask segment drawn size) lines (map f (seq 0 n)) =
    map (fun i => if on size lines i then 255%Z else f i) (seq 0 n).
  Proof.
    induction lines as [|l lines IH]; intros f; cbn [fold_left]; [reflexivity|].
    unfold line_mask at 2. rewrite map_length, seq_length, combine_map, map_map. cbn [fst snd].
    rewrite IH. apply map_ext. intros i. unfold CompareSpec.on. cbn [existsb]. destruct (drawn size l i); cbn [orb]; [now destruct (existsb _ lines)|reflexivity].
  Qed.
  Lemma repeat_map {A} (v : A) n k : repeat v n = map (fun _ => v) (seq k n).
  Proof. revert k. induction n as [|n IH]; intros k; cbn; [reflexivity|]. now rewrite (IH (S k)). Qed.
  Lemma mask_spec size lines : mask segment drawn size lines = map (fun i => if on size lines i then 255%Z else 0%Z) (seq 0 (total size)).
  Proof. unfold mask. rewrite (repeat_map _ _ 0). now rewrite mask_from. Qed.

  Lemma disagreements_spec size a b : disagreements (mask segment drawn size a) (mask segment drawn size b) = distance size a b.
  Proof.
    unfold disagreements, CompareSpec.distance. rewrite !mask_spec, combine_maps, map_map. cbn [fst snd]. fold (total size).
    induction (seq 0 (total size)) as [|i l IH]; [reflexivity|]. cbn [map filter].
    destruct (on size a i), (on size b i); cbn [xorb]; rewrite ?Z.lxor_nilpotent; cbn [Z.eqb negb Z.lxor Pos.lxor Pos.pred_double Z.of_N length]; auto.
  Qed.

  Lemma used size img : (match img with Some i => if negb (size_eqb (i_size i) size) then i_size i else size | None => size end) = used_size size img.
  Proof.
    destruct img as [i|]; [|reflexivity]. cbn. unfold size_eqb. destruct (i_size i) as [a b], size as [c d]. cbn.
    destruct ((a =? c) && (b =? d)) eqn:E; [|reflexivity]. cbn. replace c with a by lia. now replace d with b by lia.
  Qed.

  (** C118: the number given back is the number of pixels on the segments of exactly one list; it
      fails only for an empty size, or for an image that is not of three channels in one block. *)
Theorem C118_number size a b img :
    compare_segments size a b img = None <->
      total (used_size size img) = 0 \/ exists i, img = Some i /\ (channels i <> 3 \/ continuous i = false).
  Proof.
    unfold CompareModel.compare_segments. cbv zeta. rewrite used. destruct (total (used_size size img) =? 0) eqn:T; [split; auto; left; lia|].
    destruct img as [i|].
    - destruct (channels i =? 3) eqn:C; cbn [negb]; [|split; auto; intros _; right; exists i; split; [reflexivity|]; left; lia].
      destruct (continuous i) eqn:K; cbn [negb]; [|split; auto; intros _; right; exists i; auto].
      split; [discriminate|]. intros [H|(j & [= <-] & [H|H])]; [lia..|congruence].
    - split; [discriminate|]. intros [H|(j & H & _)]; [lia|discriminate].
  Qed.
Theorem C118_count size a b img n r : compare_segments size a b img = Some (n, r) -> n = distance (used_size size img) a b.
  Proof.
    unfold CompareModel.compare_segments. cbv zeta. rewrite used. destruct (_ =? 0); [discriminate|]. rewrite disagreements_spec.
    destruct img as [i|]; [|intros [= <- _]; reflexivity]. destruct (negb (channels i =? 3)); [discriminate|]. destruct (negb (continuous i)); [discriminate|].
    intros [= <- _]. reflexivity.
  Qed.

  (** C118: the number is a distance between drawings: null exactly when they are the same,
      symmetric, with the triangle inequality; it is at most the number of pixels. *)
Theorem C118_distance size a b c n m k :
    compare_segments size a b None = Some (n, None) -> compare_segments size b c None = Some (m, None) ->
    compare_segments size a c None = Some (k, None) ->
    (n = 0 <-> forall i, i < fst size * snd size -> on size a i = on size b i) /\
    compare_segments size b a None = Some (n, None) /\ k <= n + m /\ n <= fst size * snd size.
  Proof.
    intros N M K. pose proof (C118_count _ _ _ _ _ _ N) as En. pose proof (C118_count _ _ _ _ _ _ M) as Em. pose proof (C118_count _ _ _ _ _ _ K) as Ek.
    cbn [used_size] in *. split; [|split; [|split]].
    - rewrite En. unfold CompareSpec.distance.
      assert (G : forall l, length (filter (fun i => xorb (on size a i) (on size b i)) l) = 0 <-> forall i, In i l -> on size a i = on size b i).
      { induction l as [|i l IH]; cbn [filter]; [split; intros; [contradiction|reflexivity]|].
        destruct (on size a i) eqn:A, (on size b i) eqn:B; cbn [xorb length]; rewrite ?IH; split; try lia; try congruence;
          intros H; try (intros j [<-|J]; [congruence|auto]); try (intros j J; apply H; now right).
        - specialize (H i (or_introl eq_refl)). congruence.
        - specialize (H i (or_introl eq_refl)). congruence. }
      rewrite G. split; intros H i I; apply H; [apply in_seq; lia|apply in_seq in I; lia].
    - revert N. unfold CompareModel.compare_segments. destruct (_ =? 0); [discriminate|]. intros [= N]. rewrite <- N.
      rewrite !disagreements_spec. do 2 f_equal. unfold CompareSpec.distance. f_equal. apply filter_ext. intros i. apply xorb_comm.
    - rewrite En, Em, Ek. unfold CompareSpec.distance. induction (seq 0 (fst size * snd size)) as [|i l IH]; [cbn; lia|]. cbn [filter].
      destruct (on size a i), (on size b i), (on size c i); cbn [xorb length]; lia.
    - rewrite En. unfold CompareSpec.distance. rewrite <- (seq_length (fst size * snd size) 0) at 2.
      induction (seq 0 (fst size * snd size)) as [|i l IH]; [cbn; lia|]. cbn [filter]. destruct (xorb _ _); cbn [length]; lia.
  Qed.
  (** C118: neither the order nor the repetition of segments changes anything. *)
Theorem C118_order size a a' b b' img :
    (forall l, In l a <-> In l a') -> (forall l, In l b <-> In l b') ->
    compare_segments size a b img = compare_segments size a' b' img.
  Proof.
    intros A B. assert (E : forall sz u v, (forall l : segment, In l u <-> In l v) -> mask segment drawn sz u = mask segment drawn sz v).
    { intros sz u v H. rewrite !mask_spec. apply map_ext. intros i. assert (on sz u i = on sz v i) as ->; [|reflexivity].
      apply eq_true_iff_eq. unfold CompareSpec.on. rewrite !existsb_exists. split; intros (l & I & D); exists l; (split; [now apply H|exact D]). }
    unfold CompareModel.compare_segments. cbv zeta. now rewrite (E _ a a' A), (E _ b b' B).
  Qed.

  (** *** The colours *)
  Lemma put_length i v l : length (put i v l) = length l.
  Proof. revert i. induction l as [|x l IH]; intros [|i]; cbn; auto. Qed.
  Lemma put_nth i v l j : nth_error (put i v l) j = if (j =? i) && (j <? length l) then Some v else nth_error l j.
  Proof.
    revert i j. induction l as [|x l IH]; intros i j; [cbn [length]|].
    - replace ((j =? i) && (j <? 0)) with false by lia. now destruct i.
    - destruct i as [|i], j as [|j]; cbn [put length nth_error Nat.eqb]; try reflexivity. rewrite IH. now replace (S j <? S (length l)) with (j <? length l) by lia.
  Qed.
  Definition set3 (i : nat) (c : byte * byte * byte) (img : list byte) : list byte :=
    let '(x, y, z) := c in put (i * 3 + 2) z (put (i * 3 + 1) y (put (i * 3) x img)).
  Definition channel (c : byte * byte * byte) (k : nat) : byte :=
    let '(x, y, z) := c in match k with 0 => x | 1 => y | _ => z end.
  Lemma set3_length i c img : length (set3 i c img) = length img.
  Proof. destruct c as [[x y] z]. unfold set3. now rewrite !put_length. Qed.
  Lemma set3_nth i c img q k : k < 3 -> nth_error (set3 i c img) (q * 3 + k) =
    if (q =? i) && (q * 3 + k <? length img) then Some (channel c k) else nth_error img (q * 3 + k).
  Proof.
    intros K. destruct c as [[x y] z]. unfold set3. rewrite !put_nth, !put_length.
    destruct (q =? i) eqn:E; cbn [andb].
    - replace q with i by lia. destruct (i * 3 + k <? length img) eqn:L; rewrite ?andb_false_r, ?andb_true_r; [|reflexivity].
      destruct k as [|[|[|k]]]; try lia; cbn [channel];
        repeat match goal with |- context [if ?b then _ else _] => first [replace b with true by lia|replace b with false by lia] end; reflexivity.
    - repeat match goal with |- context [if ?b then _ else _] => replace b with false by lia end. reflexivity.
  Qed.
  (** pixels that get a colour, one after the other *)
  Definition paint (F : nat -> option (byte * byte * byte)) (img : list byte) (i : nat) : list byte :=
    match F i with Some c => set3 i c img | None => img end.
  Lemma paint_length F img i : length (paint F img i) = length img.
  Proof. unfold paint. destruct (F i); auto using set3_length. Qed.
  Lemma paints_nth F n : forall s img q k, k < 3 -> nth_error (fold_left (paint F) (seq s n) img) (q * 3 + k) =
    match (if (s <=? q) && (q <? s + n) && (q * 3 + k <? length img) then F q else None) with
    | Some c => Some (channel c k) | None => nth_error img (q * 3 + k) end.
  Proof.
    induction n as [|n IH]; intros s img q k K; cbn [seq fold_left].
    - replace ((s <=? q) && (q <? s + 0) && (q * 3 + k <? length img)) with false by lia. reflexivity.
    - rewrite IH by exact K. rewrite paint_length. unfold paint.
      destruct (s =? q) eqn:E.
      + replace q with s by lia. replace (S s <=? s) with false by lia. cbn [andb]. replace ((s <=? s) && (s <? s + S n)) with true by lia. cbn [andb].
        destruct (F s) as [c|]; [|now destruct (_ <? _)]. rewrite set3_nth by exact K. rewrite Nat.eqb_refl. cbn [andb]. now destruct (_ <? _).
      + replace ((s <=? q) && (q <? s + S n)) with ((S s <=? q) && (q <? S s + n)) by lia.
        assert (H : nth_error match F s with Some c => set3 s c img | None => img end (q * 3 + k) = nth_error img (q * 3 + k)).
        { destruct (F s); [|reflexivity]. rewrite set3_nth by exact K. now replace (q =? s) with false by lia. }
        now rewrite H.
  Qed.
  Lemma paints_length F l : forall img, length (fold_left (paint F) l img) = length img.
  Proof. induction l as [|i l IH]; intros img; [reflexivity|]. cbn [fold_left]. now rewrite IH, paint_length. Qed.

  Lemma colour_paints f g n : forall s img, colour s (map f (seq s n)) (map g (seq s n)) img =
    fold_left (paint (fun i => if negb (f i =? 0)%Z || negb (g i =? 0)%Z
      then Some (if negb (f i =? 0)%Z then 255%Z else 0%Z, 0%Z, if negb (g i =? 0)%Z then 255%Z else 0%Z) else None)) (seq s n) img.
  Proof.
    induction n as [|n IH]; intros s img; [reflexivity|]. cbn [seq map colour fold_left]. rewrite IH. f_equal.
    unfold paint, set3. destruct (negb (f s =? 0)%Z), (negb (g s =? 0)%Z); reflexivity.
  Qed.

  (** C118: in the image given, the pixels on segments of the first list get the whole blue, those on
      segments of the second list the whole red, and the other pixels are left as they are. *)
Theorem C118_image size a b img n r : compare_segments size a b (Some img) = Some (n, Some r) -> full img ->
    i_size r = i_size img /\ full r /\ forall i, i < fst (i_size img) * snd (i_size img) ->
      pixel r i = if on (i_size img) a i || on (i_size img) b i
        then [Some (if on (i_size img) a i then 255%Z else 0%Z); Some 0%Z; Some (if on (i_size img) b i then 255%Z else 0%Z)]
        else pixel img i.
  Proof.
    unfold CompareModel.compare_segments. cbv zeta. rewrite (used size (Some img)). cbn [used_size].
    destruct (_ =? 0); [discriminate|]. destruct (channels img =? 3) eqn:C; [|discriminate]. destruct (continuous img) eqn:K; [|discriminate].
    cbn [negb]. intros [= _ <-] F. unfold full, pixel in *. cbn [i_size channels bytes]. rewrite !mask_spec, colour_paints.
    split; [reflexivity|]. split; [now rewrite paints_length|]. intros i I. cbn [map].
    assert (L : length (bytes img) = 3 * total (i_size img)) by (rewrite F; unfold total; apply Nat.eqb_eq in C; lia).
    unfold total in L. replace (i * 3) with (i * 3 + 0) by lia. replace (i * 3 + 0 + 1) with (i * 3 + 1) by lia. replace (i * 3 + 0 + 2) with (i * 3 + 2) by lia.
    rewrite !paints_nth by lia. unfold total.
    repeat match goal with |- context [(0 <=? i) && ?b && ?c] => replace ((0 <=? i) && b && c) with true by lia end.
    destruct (on (i_size img) a i), (on (i_size img) b i); reflexivity.
  Qed.

  Lemma line_red_paints size l img : line_red segment drawn size img l =
    fold_left (paint (fun i => if drawn size l i then Some (0, 0, 255)%Z else None)) (seq 0 (total size)) img.
  Proof.
    unfold line_red. revert img. induction (seq 0 (total size)) as [|i s IH]; intros img; cbn [fold_left]; [reflexivity|]. rewrite IH. f_equal.
    unfold paint, set3. now destruct (drawn size l i).
  Qed.
  Lemma lines_red size lines : forall img, length img = 3 * total size ->
    length (fold_left (line_red segment drawn size) lines img) = length img /\
    forall i k, i < total size -> k < 3 -> nth_error (fold_left (line_red segment drawn size) lines img) (i * 3 + k) =
      if on size lines i then Some (channel (0, 0, 255)%Z k) else nth_error img (i * 3 + k).
  Proof.
    induction lines as [|l lines IH]; intros img L; cbn [fold_left]; [split; reflexivity|].
    assert (L' : length (line_red segment drawn size img l) = length img) by (rewrite line_red_paints; apply paints_length).
    destruct (IH (line_red segment drawn size img l)) as [A B]; [lia|]. split; [lia|]. intros i k I K. rewrite B by assumption.
    unfold CompareSpec.on. cbn [existsb]. fold (on size lines i). rewrite line_red_paints, paints_nth by exact K.
    replace ((0 <=? i) && (i <? 0 + total size) && (i * 3 + k <? length img)) with true by lia.
    destruct (drawn size l i), (on size lines i); reflexivity.
  Qed.
  Lemma gray_nth l i k : k < 3 -> nth_error (gray_to_bgr l) (i * 3 + k) = nth_error l i.
  Proof.
    intros K. unfold gray_to_bgr. revert i. induction l as [|v l IH]; intros i; [cbn [flat_map]; destruct (i * 3 + k), i; reflexivity|].
    destruct i as [|i]; [destruct k as [|[|[|k]]]; try lia; reflexivity|]. cbn [flat_map app Nat.mul Nat.add nth_error]. apply IH.
  Qed.
  Lemma gray_length l : length (gray_to_bgr l) = 3 * length l.
  Proof. unfold gray_to_bgr. induction l as [|v l IH]; [reflexivity|]. cbn [flat_map app length]. lia. Qed.

  (** C118: drawing segments makes their pixels red and leaves the others as they are; a gray image is
      converted, each gray being kept. *)
Theorem C118_drawn img lines : full img -> (channels img = 1 \/ channels img = 3) -> 0 < total (i_size img) ->
    exists r, draw_segments img lines = Some r /\ i_size r = i_size img /\ channels r = 3 /\ full r /\
    forall i, i < fst (i_size img) * snd (i_size img) ->
      pixel r i = if on (i_size img) lines i then [Some 0%Z; Some 0%Z; Some 255%Z]
        else if channels img =? 1 then repeat (nth_error (bytes img) i) 3 else pixel img i.
  Proof.
    intros F C T. unfold CompareModel.draw_segments.
    assert ((total (i_size img) =? 0) || negb ((channels img =? 1) || (channels img =? 3)) = false) as -> by lia.
    unfold full, pixel in *. fold (total (i_size img)) in *. destruct (channels img =? 1) eqn:G; cbn [i_size channels bytes].
    - assert (L : length (gray_to_bgr (bytes img)) = 3 * total (i_size img)) by (rewrite gray_length; lia).
      destruct (lines_red (i_size img) lines _ L) as [A B]. eexists. split; [reflexivity|]. cbn [i_size channels bytes].
      split; [reflexivity|]. split; [reflexivity|]. split; [fold (total (i_size img)); lia|]. intros i I. cbn [map repeat].
      replace (i * 3) with (i * 3 + 0) by lia. replace (i * 3 + 0 + 1) with (i * 3 + 1) by lia. replace (i * 3 + 0 + 2) with (i * 3 + 2) by lia.
      rewrite !B, !gray_nth by lia. now destruct (on (i_size img) lines i).
    - assert (L : length (bytes img) = 3 * total (i_size img)) by lia.
      destruct (lines_red (i_size img) lines _ L) as [A B]. eexists. split; [reflexivity|]. cbn [i_size channels bytes].
      split; [reflexivity|]. split; [lia|]. split; [fold (total (i_size img)); lia|]. intros i I. cbn [map].
      replace (i * 3) with (i * 3 + 0) by lia. replace (i * 3 + 0 + 1) with (i * 3 + 1) by lia. replace (i * 3 + 0 + 2) with (i * 3 + 2) by lia.
      rewrite !B by lia. now destruct (on (i_size img) lines i).
  Qed.
End Compare.

(** Segments that are lists of pixels, two columns and two rows; the size of the image is used. *)
Example C118_example :
  let drawn := fun (_ : nat * nat) (l : list nat) i => existsb (Nat.eqb i) l in
  let img := mkImage (2, 2) 3 true [1; 1; 1; 2; 2; 2; 3; 3; 3; 4; 4; 4]%Z in
  full img /\
  compare_segments (list nat) drawn (5, 5) [[0; 1]; [1]] [[1; 2]] (Some img) =
    Some (2, Some (mkImage (2, 2) 3 true [255; 0; 0; 255; 0; 255; 0; 0; 255; 4; 4; 4]%Z)) /\
  draw_segments (list nat) drawn (mkImage (2, 2) 1 true [1; 2; 3; 4]%Z) [[3]] =
    Some (mkImage (2, 2) 3 true [1; 1; 1; 2; 2; 2; 3; 3; 3; 0; 0; 255]%Z).
Proof. repeat split. Qed.
Print Assumptions C118_number. Print Assumptions C118_count. Print Assumptions C118_distance. Print Assumptions C118_order.
Print Assumptions C118_image. Print Assumptions C118_drawn.

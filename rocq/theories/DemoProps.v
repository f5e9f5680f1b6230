(** Property C101: the example programs. *)
From Coq Require Import Lia Lra Sorted.
From Flocq Require Import Core.
From Verif Require Import DemoModel DemoSpec Vec3.
Local Open Scope Z_scope.

Lemma u32_range : forall z, 0 <= u32 z < 2 ^ 32.
Proof. intros z. apply Z.mod_pos_bound. reflexivity. Qed.
Lemma u32_next : forall z, u32 (u32 z + 1) = u32 (z + 1).
Proof. intros z. unfold u32. now rewrite Z.add_mod_idemp_l by easy. Qed.
Lemma u32_small : forall z, 0 <= z < 2 ^ 32 -> u32 z = z.
Proof. intros z H. now apply Z.mod_small. Qed.

Lemma jumped_correct : forall jump index, 0 <= jump -> jumped jump index = false <-> picked jump index.
Proof.
  intros jump index J. unfold jumped, picked. destruct (Z.ltb_spec 0 jump) as [P|P]; cbn [andb].
  - destruct (Z.eqb_spec (index mod jump) 0) as [E|E]; cbn [negb]; split; intros H; try easy.
    + right. apply Z.mod_divide; lia.
    + destruct H as [H|H]; [lia|]. apply Z.mod_divide in H; [easy|lia].
  - split; [intros _; left; lia|easy].
Qed.

(** ** Datasets with a list of images *)

Section Tum.
Context {Frame : Type}.

Lemma tum_loop_spec : forall (frames : list Frame) start jump quit t treated last, 0 <= jump ->
  tum_loop jump quit (u32 start) t frames = (treated, last) ->
  exists taken visited,
    StronglySorted lt taken /\ map (nth_error frames) taken = map Some treated /\
    (visited <= length frames)%nat /\ last = u32 (start + Z.of_nat visited) /\
    (forall k, In k taken <-> (k < visited)%nat /\ picked jump (u32 (start + Z.of_nat k))) /\
    (forall i, (S i < length treated)%nat -> quit (t + i)%nat = false) /\
    (visited = length frames /\ (treated <> [] -> quit (t + (length treated - 1))%nat = false) \/
     exists k, treated <> [] /\ visited = S k /\ In k taken /\ quit (t + (length treated - 1))%nat = true).
Proof.
  induction frames as [|f frames IH]; intros start jump quit t treated last J E; cbn [tum_loop] in E.
  - injection E as <- <-. exists [], 0%nat. split; [constructor|]. split; [easy|]. split; [easy|]. split; [now rewrite Z.add_0_r|].
    split; [intros k; cbn; lia|]. split; [cbn; lia|]. left. easy.
  - rewrite u32_next in E. destruct (jumped jump (u32 start)) eqn:D.
    + destruct (IH _ _ _ _ _ _ J E) as (taken & visited & S1 & S2 & S3 & S4 & S5 & S6 & S7).
      exists (map S taken), (S visited). split; [|split; [|split; [|split; [|split; [|split]]]]].
      * clear - S1. induction S1 as [|k l S IH F]; cbn; constructor; [easy|]. rewrite Forall_map. eapply Forall_impl; [|exact F]. cbn. intros; lia.
      * rewrite map_map. cbn [nth_error]. exact S2.
      * cbn. lia.
      * rewrite S4. f_equal. lia.
      * intros k. rewrite in_map_iff. split.
        -- intros (k' & <- & I). apply S5 in I. destruct I as [I P]. split; [lia|]. replace (start + Z.of_nat (S k')) with (start + 1 + Z.of_nat k') by lia. easy.
        -- intros [I P]. destruct k as [|k].
           ++ rewrite Z.add_0_r in P. apply jumped_correct in P; [congruence|easy].
           ++ exists k. split; [easy|]. apply S5. split; [lia|]. now replace (start + 1 + Z.of_nat k) with (start + Z.of_nat (S k)) by lia.
      * exact S6.
      * destruct S7 as [[S7 S8]|(k & S7 & S8 & S9 & S10)]; [left; split; [cbn; now rewrite S7|easy]|].
        right. exists (S k). split; [easy|]. split; [now rewrite S8|]. split; [now apply in_map|easy].
    + assert (P0 : picked jump (u32 start)) by now apply jumped_correct. destruct (quit t) eqn:Q.
      * injection E as <- <-. exists [0%nat], 1%nat. split; [repeat constructor|]. split; [easy|]. split; [cbn; lia|]. split; [easy|].
        split.
        -- intros k. cbn [In]. split; [intros [<-|[]]; split; [lia|now rewrite Z.add_0_r]|intros [I _]; lia].
        -- split; [cbn; lia|]. right. exists 0%nat. split; [easy|]. split; [easy|]. split; [now left|]. cbn. now rewrite Nat.add_0_r.
      * destruct (tum_loop jump quit (u32 (start + 1)) (S t) frames) as [l last'] eqn:E'. injection E as <- <-.
        destruct (IH _ _ _ _ _ _ J E') as (taken & visited & S1 & S2 & S3 & S4 & S5 & S6 & S7).
        exists (0%nat :: map S taken), (S visited). split; [|split; [|split; [|split; [|split; [|split]]]]].
        -- constructor.
           ++ clear - S1. induction S1 as [|k m S IH F]; cbn; constructor; [easy|]. rewrite Forall_map. eapply Forall_impl; [|exact F]. cbn. intros; lia.
           ++ rewrite Forall_map. apply Forall_forall. intros. lia.
        -- cbn [map nth_error]. f_equal. rewrite map_map. cbn [nth_error]. exact S2.
        -- cbn. lia.
        -- rewrite S4. f_equal. lia.
        -- intros k. cbn [In]. rewrite in_map_iff. split.
           ++ intros [<-|(k' & <- & I)]; [split; [lia|now rewrite Z.add_0_r]|]. apply S5 in I. destruct I as [I P]. split; [lia|].
              replace (start + Z.of_nat (S k')) with (start + 1 + Z.of_nat k') by lia. easy.
           ++ intros [I P]. destruct k as [|k]; [now left|]. right. exists k. split; [easy|]. apply S5. split; [lia|].
              now replace (start + 1 + Z.of_nat k) with (start + Z.of_nat (S k)) by lia.
        -- intros i Hi. cbn in Hi. destruct i as [|i]; [now rewrite Nat.add_0_r|]. rewrite Nat.add_succ_r. apply (S6 i). lia.
        -- assert (Last : l <> [] -> (t + (length (f :: l) - 1) = S t + (length l - 1))%nat) by (destruct l; cbn; [easy|lia]).
           destruct S7 as [[S7 S8]|(k & S7 & S8 & S9 & S10)].
           ++ left. split; [cbn; now rewrite S7|]. intros _. destruct l as [|g l]; [cbn; now rewrite Nat.add_0_r|].
              rewrite Last by easy. now apply S8.
           ++ right. exists (S k). split; [easy|]. split; [now rewrite S8|]. split; [right; now apply in_map|]. now rewrite Last.
Qed.

(** C101: the frames treated are those whose index, counted from the given first index, is a
    multiple of the jump, in their order, up to the first one at which 'q' is pressed; the
    index displayed at the end counts the frames passed. *)
Theorem C101_tum_frames : forall (frames : list Frame) start jump quit configured treated last, 0 <= jump ->
  tum_main start jump quit configured frames = Some (treated, last) ->
  exists taken visited,
    StronglySorted lt taken /\ map (nth_error frames) taken = map Some treated /\
    (visited <= length frames)%nat /\ last = u32 (start + Z.of_nat visited) /\
    (forall k, In k taken <-> (k < visited)%nat /\ picked jump (u32 (start + Z.of_nat k))) /\
    (forall i, (S i < length treated)%nat -> quit i = false) /\
    (visited = length frames /\ (treated <> [] -> quit (length treated - 1)%nat = false) \/
     exists k, treated <> [] /\ visited = S k /\ In k taken /\ quit (length treated - 1)%nat = true).
Proof.
  intros frames start jump quit configured treated last J E. unfold tum_main in E. destruct frames as [|f frames]; [discriminate|].
  destruct configured; [|discriminate]. injection E as E.
  apply (tum_loop_spec (f :: frames) start jump quit 0 treated last J E).
Qed.
(** nothing is treated without images or without configuration *)
Theorem C101_tum_starts : forall (frames : list Frame) start jump quit configured,
  tum_main start jump quit configured frames = None <-> frames = [] \/ configured = false.
Proof.
  intros [|f frames] start jump quit [|]; cbn; split; intros H; auto; try discriminate; destruct H; discriminate.
Qed.

(** the first index does not choose the first image: without jump, every image is treated
    whatever it is *)
Theorem C101_first_image_refuted : forall (frames : list Frame) start, frames <> [] ->
  exists last, tum_main start 0 (fun _ => false) true frames = Some (frames, last).
Proof.
  intros frames start N. destruct frames as [|f frames]; [easy|]. unfold tum_main.
  assert (H : forall (fs : list Frame) i t, exists last, tum_loop 0 (fun _ => false) i t fs = (fs, last)).
  { induction fs as [|g fs IH]; intros i t; [now exists i|]. cbn [tum_loop]. change (jumped 0 i) with false. cbn iota.
    destruct (IH (u32 (i + 1)) (S t)) as (last & ->). now exists last. }
  destruct (H (f :: frames) (u32 start) 0%nat) as (last & ->). now exists last.
Qed.
End Tum.

(** ** Folders of numbered images *)

Lemma cape_more : forall fuel jump quit loads index t l last, cape_loop fuel jump quit loads index t = Ended l last ->
  forall fuel', (fuel <= fuel')%nat -> cape_loop fuel' jump quit loads index t = Ended l last.
Proof.
  induction fuel as [|fuel IH]; intros jump quit loads index t l last E fuel' F; [discriminate|]. destruct fuel' as [|fuel']; [lia|].
  cbn [cape_loop] in *. destruct (jumped jump index); [apply IH; [easy|lia]|]. destruct (negb (loads index)); [easy|].
  destruct (quit t); [easy|]. destruct (cape_loop fuel jump quit loads (u32 (index + 1)) (S t)) as [|l' last'] eqn:E'; [discriminate|].
  rewrite (IH _ _ _ _ _ _ _ E') by lia. easy.
Qed.

Lemma cape_skip : forall d fuel jump quit loads index t, 0 <= index -> index + Z.of_nat d < 2 ^ 32 ->
  (forall e, (e < d)%nat -> jumped jump (index + Z.of_nat e) = true) ->
  cape_loop (d + fuel) jump quit loads index t = cape_loop fuel jump quit loads (index + Z.of_nat d) t.
Proof.
  induction d as [|d IH]; intros fuel jump quit loads index t P B H.
  - now rewrite Z.add_0_r.
  - cbn [Nat.add cape_loop]. assert (H0 : jumped jump index = true) by (rewrite <- (Z.add_0_r index); apply (H 0%nat); lia). rewrite H0, u32_small by lia.
    rewrite IH; [f_equal; lia|lia|lia|]. intros e He. replace (index + 1 + Z.of_nat e) with (index + Z.of_nat (S e)) by lia. apply H. lia.
Qed.

(** from an image taken to the next one *)
Lemma cape_next : forall fuel jump quit loads index t, 0 <= jump -> 0 <= index -> picked jump index -> index + stride jump < 2 ^ 32 ->
  loads index = true -> quit t = false ->
  cape_loop (Z.to_nat (stride jump) + fuel) jump quit loads index t =
  match cape_loop fuel jump quit loads (index + stride jump) (S t) with Ended l last => Ended (index :: l) last | Running => Running end.
Proof.
  intros fuel jump quit loads index t J I P B L Q. unfold stride in *. assert (Es : exists d, Z.to_nat (Z.max 1 jump) = S d) by (exists (Z.to_nat (Z.max 1 jump) - 1)%nat; lia).
  destruct Es as (d & Es). rewrite Es. cbn [Nat.add cape_loop]. apply jumped_correct in P; [|easy]. rewrite P, L, Q. cbn [negb]. rewrite u32_small by lia.
  rewrite cape_skip; [replace (index + 1 + Z.of_nat d) with (index + Z.max 1 jump) by lia; easy|lia|lia|].
  intros e He. destruct (jumped jump (index + 1 + Z.of_nat e)) eqn:E; [easy|]. exfalso. apply jumped_correct in E; [|easy]. apply jumped_correct in P; [|easy].
  destruct E as [E|E]; [subst jump; lia|]. destruct P as [P|P]; [subst jump; lia|].
  assert (D : (jump | 1 + Z.of_nat e)) by (replace (1 + Z.of_nat e) with (index + 1 + Z.of_nat e - index) by lia; now apply Z.divide_sub_r).
  apply Z.divide_pos_le in D; lia.
Qed.

Lemma picked_stride : forall jump first n, 0 <= jump -> picked jump first -> picked jump (first + Z.of_nat n * stride jump).
Proof.
  intros jump first n J H. destruct (Z.eq_dec jump 0) as [E|E]; [now left|]. destruct H as [H|H]; [now left|]. right. unfold stride.
  rewrite Z.max_r by lia. apply Z.divide_add_r; [easy|]. apply Z.divide_mul_r, Z.divide_refl.
Qed.

(** where a run in a folder stops *)
Lemma cape_run : forall n jump quit loads first t, 0 <= jump -> 0 <= first -> picked jump first ->
  first + Z.of_nat n * stride jump < 2 ^ 32 ->
  (forall i, (i < n)%nat -> loads (first + Z.of_nat i * stride jump) = true /\ quit (t + i)%nat = false) ->
  (loads (first + Z.of_nat n * stride jump) = false ->
   exists fuel, cape_loop fuel jump quit loads first t = Ended (map (fun i => first + Z.of_nat i * stride jump) (seq 0 n)) (first + Z.of_nat n * stride jump)) /\
  (loads (first + Z.of_nat n * stride jump) = true -> quit (t + n)%nat = true ->
   exists fuel, cape_loop fuel jump quit loads first t = Ended (map (fun i => first + Z.of_nat i * stride jump) (seq 0 (S n))) (u32 (first + Z.of_nat n * stride jump + 1))).
Proof.
  induction n as [|n IH]; intros jump quit loads first t J F P B H.
  - rewrite Z.add_0_r in *. rewrite Nat.add_0_r. apply jumped_correct in P; [|easy]. split; [intros L|intros L Q]; exists 1%nat; cbn [cape_loop seq map]; rewrite P, L; [easy|].
    rewrite Q. cbn. now rewrite Z.add_0_r.
  - assert (Hs : 0 < stride jump) by (unfold stride; lia).
    destruct (H 0%nat) as [L0 Q0]; [lia|]. rewrite Z.add_0_r in L0. rewrite Nat.add_0_r in Q0.
    assert (P' : picked jump (first + stride jump)) by (replace (first + stride jump) with (first + Z.of_nat 1 * stride jump) by lia; now apply picked_stride).
    destruct (IH jump quit loads (first + stride jump) (S t) J ltac:(lia) P') as [A1 A2]; [nia| |].
    { intros i Hi. destruct (H (S i)) as [L Q]; [lia|]. split; [|now rewrite Nat.add_succ_r in Q]. rewrite <- L. f_equal. nia. }
    assert (En : first + stride jump + Z.of_nat n * stride jump = first + Z.of_nat (S n) * stride jump) by nia. rewrite En in A1, A2.
    assert (El : forall m, map (fun i => first + Z.of_nat i * stride jump) (seq 0 (S m)) = first :: map (fun i => first + stride jump + Z.of_nat i * stride jump) (seq 0 m)).
    { intros m. cbn [seq map]. f_equal; [cbn; lia|]. rewrite <- seq_shift, map_map. apply map_ext. intros i. nia. }
    assert (B' : first + stride jump < 2 ^ 32) by nia.
    split; [intros L; destruct (A1 L) as (fuel & E)|intros L Q; rewrite Nat.add_succ_r in Q; destruct (A2 L Q) as (fuel & E)];
      exists (Z.to_nat (stride jump) + fuel)%nat; rewrite cape_next, E by easy; now rewrite El.
Qed.

(** C101: in a folder, the images treated start at the first index that is a multiple of the
    jump, from the given one, and follow at each jump, until one cannot be read *)
Theorem C101_cape_missing : forall start jump quit loads first n, 0 <= start -> 0 <= jump ->
  picked jump first -> start <= first < start + stride jump ->
  first + Z.of_nat n * stride jump < 2 ^ 32 ->
  (forall i, (i < n)%nat -> loads (first + Z.of_nat i * stride jump) = true /\ quit i = false) ->
  loads (first + Z.of_nat n * stride jump) = false ->
  exists fuel, forall fuel', (fuel <= fuel')%nat ->
    cape_main fuel' start jump quit loads = Ended (map (fun i => first + Z.of_nat i * stride jump) (seq 0 n)) (first + Z.of_nat n * stride jump).
Proof.
  intros start jump quit loads first n S J P F B H L. assert (Hs : 0 < stride jump) by (unfold stride; lia).
  destruct (cape_run n jump quit loads first 0 J ltac:(lia) P B H) as [A _]. destruct (A L) as (fuel & E).
  exists (Z.to_nat (first - start) + fuel)%nat. intros fuel' Hf. unfold cape_main. rewrite u32_small by nia.
  apply cape_more with (Z.to_nat (first - start) + fuel)%nat; [|easy]. rewrite cape_skip; [|lia|nia|].
  - replace (start + Z.of_nat (Z.to_nat (first - start))) with first by lia. exact E.
  - intros e He. destruct (jumped jump (start + Z.of_nat e)) eqn:D; [easy|]. exfalso. apply jumped_correct in D; [|easy]. unfold stride in *.
    destruct (Z.eq_dec jump 0) as [->|N]; [lia|]. destruct D as [D|D]; [easy|]. destruct P as [P|P]; [easy|].
    assert (K : (jump | first - (start + Z.of_nat e))) by now apply Z.divide_sub_r. apply Z.divide_pos_le in K; lia.
Qed.
(** or 'q' is pressed *)
Theorem C101_cape_quit : forall start jump quit loads first n, 0 <= start -> 0 <= jump ->
  picked jump first -> start <= first < start + stride jump ->
  first + Z.of_nat n * stride jump < 2 ^ 32 ->
  (forall i, (i < n)%nat -> loads (first + Z.of_nat i * stride jump) = true /\ quit i = false) ->
  loads (first + Z.of_nat n * stride jump) = true -> quit n = true ->
  exists fuel, forall fuel', (fuel <= fuel')%nat ->
    cape_main fuel' start jump quit loads = Ended (map (fun i => first + Z.of_nat i * stride jump) (seq 0 (S n))) (u32 (first + Z.of_nat n * stride jump + 1)).
Proof.
  intros start jump quit loads first n S J P F B H L Q. assert (Hs : 0 < stride jump) by (unfold stride; lia).
  destruct (cape_run n jump quit loads first 0 J ltac:(lia) P B H) as [_ A]. destruct (A L Q) as (fuel & E).
  exists (Z.to_nat (first - start) + fuel)%nat. intros fuel' Hf. unfold cape_main. rewrite u32_small by nia.
  apply cape_more with (Z.to_nat (first - start) + fuel)%nat; [|easy]. rewrite cape_skip; [|lia|nia|].
  - replace (start + Z.of_nat (Z.to_nat (first - start))) with first by lia. exact E.
  - intros e He. destruct (jumped jump (start + Z.of_nat e)) eqn:D; [easy|]. exfalso. apply jumped_correct in D; [|easy]. unfold stride in *.
    destruct (Z.eq_dec jump 0) as [->|N]; [lia|]. destruct D as [D|D]; [easy|]. destruct P as [P|P]; [easy|].
    assert (K : (jump | first - (start + Z.of_nat e))) by now apply Z.divide_sub_r. apply Z.divide_pos_le in K; lia.
Qed.

(** a run ends as soon as one image that would be taken is missing, whatever the start *)
Theorem C101_cape_ends : forall start jump quit loads missing, 0 <= jump -> 0 <= missing < 2 ^ 32 -> picked jump missing -> loads missing = false ->
  exists fuel, cape_main fuel start jump quit loads <> Running.
Proof.
  intros start jump quit loads missing J M P L. apply jumped_correct in P; [|easy].
  assert (H : forall d index t, 0 <= index < 2 ^ 32 -> (missing - index) mod 2 ^ 32 = Z.of_nat d -> exists fuel, cape_loop fuel jump quit loads index t <> Running).
  { induction d as [|d IH]; intros index t I D.
    - assert (E : index = missing).
      { apply Z.mod_divide in D; [|easy]. destruct D as (k & D). assert (k = 0) by nia. lia. }
      exists 1%nat. cbn [cape_loop]. rewrite E, P, L. easy.
    - assert (N : (missing - u32 (index + 1)) mod 2 ^ 32 = Z.of_nat d).
      { unfold u32. rewrite Zminus_mod_idemp_r. replace (missing - (index + 1)) with (missing - index - 1) by lia.
        rewrite <- Zminus_mod_idemp_l, D. rewrite Z.mod_small; [lia|]. pose proof (Z.mod_pos_bound (missing - index) (2 ^ 32) eq_refl). lia. }
      destruct (jumped jump index) eqn:Dj.
      + destruct (IH (u32 (index + 1)) t (u32_range _) N) as (fuel & E). exists (S fuel). cbn [cape_loop]. now rewrite Dj.
      + destruct (loads index) eqn:Lo; [|exists 1%nat; cbn [cape_loop]; now rewrite Dj, Lo].
        destruct (quit t) eqn:Q; [exists 1%nat; cbn [cape_loop]; now rewrite Dj, Lo, Q|].
        destruct (IH (u32 (index + 1)) (S t) (u32_range _) N) as (fuel & E). exists (S fuel). cbn [cape_loop]. rewrite Dj, Lo, Q. cbn [negb].
        now destruct (cape_loop fuel jump quit loads (u32 (index + 1)) (S t)). }
  unfold cape_main. apply (H (Z.to_nat ((missing - u32 start) mod 2 ^ 32)) (u32 start) 0%nat (u32_range _)).
  pose proof (Z.mod_pos_bound (missing - u32 start) (2 ^ 32) eq_refl). lia.
Qed.
(** and only then *)
Theorem C101_cape_forever : forall start jump quit loads fuel, 0 <= jump ->
  (forall i, 0 <= i < 2 ^ 32 -> picked jump i -> loads i = true) -> (forall n, quit n = false) ->
  cape_main fuel start jump quit loads = Running.
Proof.
  intros start jump quit loads fuel J L Q. unfold cape_main. generalize (u32_range start). generalize 0%nat. generalize (u32 start).
  induction fuel as [|fuel IH]; intros index t I; [easy|]. cbn [cape_loop]. destruct (jumped jump index) eqn:D; [apply IH, u32_range|].
  rewrite L; [|easy|now apply jumped_correct]. cbn [negb]. rewrite Q. now rewrite IH by apply u32_range.
Qed.

(** ** Pace *)

(** a frame lasts one period, to a microsecond, or what it needs if it is more; asking for a
    rate of 0 is undefined *)
Theorem C101_pace : forall fps duration, (0 <= fps)%Z -> (0 <= duration)%R ->
  match wait fps duration with
  | None => fps = 0
  | Some us => 0 < fps /\ 0 <= us /\
      (Rmax duration (1 / IZR fps) - 1 / 1000000 < duration + IZR us / 1000000 <= Rmax duration (1 / IZR fps))%R
  end.
Proof.
  intros fps duration F D. unfold wait. destruct (Z.eqb_spec fps 0) as [E|E]; [easy|].
  destruct (Rlt_bool_spec duration (1 / IZR fps)) as [L|L].
  - set (x := ((1 / IZR fps - duration) * 1000000)%R). assert (X : (0 <= x)%R) by (unfold x; nra).
    rewrite Ztrunc_floor by easy. split; [lia|]. split; [now apply Zfloor_lub|]. rewrite Rmax_right by lra.
    pose proof (Zfloor_lb x). pose proof (Zfloor_ub x). unfold x in *. lra.
  - split; [lia|]. split; [lia|]. rewrite Rmax_left by easy. lra.
Qed.

(** the mean duration is a number exactly when a frame was treated *)
Theorem C101_mean : forall durations, 
  match mean_duration durations with
  | None => durations = []
  | Some m => durations <> [] /\ (m * INR (length durations) = fold_right Rplus 0 durations)%R
  end.
Proof.
  intros [|d durations]; [easy|]. unfold mean_duration. split; [easy|].
  assert (N : (INR (length (d :: durations)) <> 0)%R) by (cbn [length]; apply not_0_INR; lia).
  rewrite fold_symmetric; [field; exact N| |]; intros; ring.
Qed.

(** ** Error to the ground truth *)

(** the displayed error compares millimetres with the metres of the file: an estimate equal
    to the pose of the file is not displayed with a null error *)
Theorem C101_displayed_error : forall position rotation,
  displayed_error (get_ground_truth position rotation) position rotation = (999 * norm position / 10)%R.
Proof.
  intros position rotation. unfold displayed_error, position_error, get_ground_truth, frame_truth, set_pose. cbn [b_position].
  replace (vsub position (vscal 1000 position)) with (vscal (-999) position).
  - assert (E : norm (vscal (-999) position) = (999 * norm position)%R).
    { unfold norm. replace (sqn (vscal (-999) position)) with (999 * 999 * sqn position)%R by (unfold sqn, dot, vscal; cbn; ring).
      rewrite sqrt_mult; [|lra|unfold sqn, dot; nra]. now rewrite sqrt_square by lra. }
    now rewrite E.
  - destruct position. unfold vscal, vsub. cbn. f_equal; ring.
Qed.
Theorem C101_exact_estimate_refuted : exists position rotation,
  displayed_error (get_ground_truth position rotation) position rotation <> 0%R.
Proof.
  exists (mkV 1 0 0), (mkQuat 1 0 0 0). rewrite C101_displayed_error. unfold norm, sqn, dot. cbn.
  replace (1 * 1 + 0 * 0 + 0 * 0)%R with 1%R by ring. rewrite sqrt_1. lra.
Qed.

(** ** Examples *)

(** seven images, the first index 1, one image in three: the indices 3 and 6 *)
Example tum_example : tum_main 1 3 (fun _ => false) true [10; 11; 12; 13; 14; 15; 16]%nat = Some ([12; 15]%nat, 8).
Proof. reflexivity. Qed.
Example tum_quit_example : tum_main 0 0 (fun n => Nat.eqb n 2) true [10; 11; 12; 13; 14]%nat = Some ([10; 11; 12]%nat, 3).
Proof. reflexivity. Qed.
(** images 0 to 9 in the folder, from 4, one in three: 6 and 9 *)
Example cape_example : cape_main 20 4 3 (fun _ => false) (fun i => i <? 10) = Ended [6; 9] 12.
Proof. reflexivity. Qed.
Example cape_hypotheses : picked 3 6 /\ 4 <= 6 < 4 + stride 3 /\ (6 + Z.of_nat 2 * stride 3 < 2 ^ 32) /\
  (forall i, (i < 2)%nat -> (6 + Z.of_nat i * stride 3 <? 10) = true) /\ (6 + Z.of_nat 2 * stride 3 <? 10) = false.
Proof.
  split; [right; now exists 2|]. split; [unfold stride; lia|]. split; [reflexivity|]. split; [|reflexivity].
  intros [|[|i]] H; [reflexivity|reflexivity|lia].
Qed.
(** a negative first index wraps around *)
Example cape_negative : cape_main 20 (-1) 2 (fun _ => false) (fun i => i <? 3) = Ended [0; 2] 4.
Proof. reflexivity. Qed.
Example pace_example : wait 0 (1 / 100)%R = None /\ wait 30 1%R = Some 0.
Proof.
  split; [reflexivity|]. unfold wait. change (30 =? 0) with false. cbn iota. rewrite Rlt_bool_false; [easy|lra].
Qed.

Print Assumptions C101_tum_frames.
Print Assumptions C101_tum_starts.
Print Assumptions C101_first_image_refuted.
Print Assumptions C101_cape_missing.
Print Assumptions C101_cape_quit.
Print Assumptions C101_cape_ends.
Print Assumptions C101_cape_forever.
Print Assumptions C101_pace.
Print Assumptions C101_mean.
Print Assumptions C101_displayed_error.
Print Assumptions C101_exact_estimate_refuted.

(** The visibility of the map features (C86). *)
From Verif Require Import VisibilitySpec GeometryProps InverseDepthProps OptFeatureProps PolygonProps.
From Coq Require Import Bool List Lia Lra Reals.
Import ListNotations.
From Verif Require Import Vec3.
Local Open Scope R_scope.

Lemma inside_iff x s : inside x s = true <-> 0 <= x <= s.
Proof. unfold inside. rewrite andb_true_iff, !rle_iff. lra. Qed.
Lemma in_screen_2d_iff w h q : in_screen_2d_b w h q = true <-> in_image w h q.
Proof. unfold in_screen_2d_b, in_image. now rewrite andb_true_iff, !inside_iff. Qed.

(** ** 3D points *)

(** A 3D map point is visible exactly when it is in front of the camera and projects in the
    image, borders included. *)
Theorem C86_point_visible : forall fx fy cx cy width height w2c p,
  point_visible (intrinsics fx fy cx cy) width height w2c p = true <->
  seen_in fx fy cx cy w2c p (in_image width height).
Proof.
  intros. unfold point_visible, seen_in. set (c := point_to_camera w2c p). clearbody c.
  destruct (Req_dec (vz c) 0) as [Z|Z].
  - unfold camera_to_screen. rewrite Z. destruct (Req_EM_T 0 0); [|easy]. split; [discriminate|]. intros [H _]. lra.
  - rewrite to_screen_value by exact Z. unfold in_screen_b. cbn [vx vy vz]. rewrite !andb_true_iff, !inside_iff.
    unfold seen_at, in_image. cbn [fst snd]. destruct (Rlt_dec 0 (vz c)) as [P|P].
    + split.
      * intros [[A B] _]. split; [exact P|]. eexists _, _. split; [split; reflexivity|]. split; assumption.
      * intros [_ (u & v & [-> ->] & A & B)]. auto.
    + split; [intros [_ H]; discriminate|]. intros [H _]. lra.
Qed.
Print Assumptions C86_point_visible.

(** ** The clamping of a segment *)

Lemma at_param_conv a b s t u : at_param (at_param a b s) (at_param a b t) u = at_param a b (s + u * (t - s)).
Proof. unfold at_param. cbn [fst snd]. f_equal; ring. Qed.
Lemma conv_01 s t u : 0 <= s <= 1 -> 0 <= t <= 1 -> 0 <= u <= 1 -> 0 <= s + u * (t - s) <= 1.
Proof. intros. nra. Qed.
Lemma on_seg_sub a b p q x : on_seg a b p -> on_seg a b q -> on_seg p q x -> on_seg a b x.
Proof.
  intros (s & S & ->) (t & T & ->) (u & U & ->). rewrite at_param_conv. eexists. split; [|reflexivity]. now apply conv_01.
Qed.
Lemma on_seg_sym a b q : on_seg a b q -> on_seg b a q.
Proof. intros (t & T & ->). exists (1 - t). split; [lra|]. unfold at_param. f_equal; ring. Qed.
Lemma on_seg_start a b : on_seg a b a.
Proof. exists 0. split; [lra|]. destruct a. unfold at_param. cbn [fst snd]. f_equal; ring. Qed.
Lemma on_seg_end a b : on_seg a b b.
Proof. apply on_seg_sym, on_seg_start. Qed.
Lemma on_seg_h x1 x2 y q : x1 <= x2 -> on_seg (x1, y) (x2, y) q <-> snd q = y /\ x1 <= fst q <= x2.
Proof.
  intros L. split.
  - intros (t & T & ->). unfold at_param. cbn [fst snd]. nra.
  - destruct q as [x z]. cbn [fst snd]. intros [-> B]. destruct (Req_dec x1 x2) as [->|N].
    + exists 0. split; [lra|]. unfold at_param. cbn [fst snd]. f_equal; lra.
    + exists ((x - x1) / (x2 - x1)). assert (P : 0 < x2 - x1) by lra. split.
      * split; [apply Rcomplements.Rdiv_le_0_compat; lra|]. apply Rcomplements.Rle_div_l; lra.
      * unfold at_param. cbn [fst snd]. f_equal; field; lra.
Qed.
Lemma on_seg_v y1 y2 x q : y1 <= y2 -> on_seg (x, y1) (x, y2) q <-> fst q = x /\ y1 <= snd q <= y2.
Proof.
  intros L. split.
  - intros (t & T & ->). unfold at_param. cbn [fst snd]. nra.
  - destruct q as [z y]. cbn [fst snd]. intros [-> B]. destruct (Req_dec y1 y2) as [->|N].
    + exists 0. split; [lra|]. unfold at_param. cbn [fst snd]. f_equal; lra.
    + exists ((y - y1) / (y2 - y1)). assert (P : 0 < y2 - y1) by lra. split.
      * split; [apply Rcomplements.Rdiv_le_0_compat; lra|]. apply Rcomplements.Rle_div_l; lra.
      * unfold at_param. cbn [fst snd]. f_equal; field; lra.
Qed.
Lemma seg_h_rev x1 x2 y q : x1 <= x2 -> on_seg (x2, y) (x1, y) q <-> snd q = y /\ x1 <= fst q <= x2.
Proof. intros L. rewrite <- (on_seg_h x1 x2 y q L). split; apply on_seg_sym. Qed.
Lemma seg_v_rev y1 y2 x q : y1 <= y2 -> on_seg (x, y2) (x, y1) q <-> fst q = x /\ y1 <= snd q <= y2.
Proof. intros L. rewrite <- (on_seg_v y1 y2 x q L). split; apply on_seg_sym. Qed.
(** the boundary used by the code is the border of the frame *)
Lemma ring_border w h q : 2 <= w -> 2 <= h -> on_ring (screen_boundary w h) q <-> on_border w h q.
Proof.
  intros W H. unfold screen_boundary, correct, close_ring, boundary_size. cbn [length Nat.ltb Nat.leb List.last].
  destruct (point2_eq_dec (1, 1) (1, 1)) as [_|N]; [|easy].
  destruct (Rlt_dec _ 0) as [_|_]; cbn [rev app on_ring];
    rewrite ?(on_seg_h 1 (w - 1)), ?(on_seg_v 1 (h - 1)), ?(seg_h_rev 1 (w - 1)), ?(seg_v_rev 1 (h - 1)) by lra;
    unfold on_border, in_frame; split; intros; repeat match goal with H : _ /\ _ |- _ => destruct H end;
    repeat match goal with H : _ \/ _ |- _ => destruct H end; try lra; try tauto.
Qed.

(** the frame is convex *)
Lemma frame_convex w h p q x : in_frame w h p -> in_frame w h q -> on_seg p q x -> in_frame w h x.
Proof. unfold in_frame. intros P Q (t & T & ->). unfold at_param. cbn [fst snd]. nra. Qed.
Lemma middle_zero u v s : 0 <= u -> 0 <= v -> 0 < s < 1 -> u + s * (v - u) = 0 -> u = 0 /\ v = 0.
Proof. intros U V S E. assert (u = 0) by nra. subst. assert (s * v = 0) by lra. apply Rmult_integral in H. lra. Qed.
(** when a point of the border is strictly between two points of the frame, they are on the
    same edge *)
Lemma border_middle w h p r s : in_frame w h p -> in_frame w h r -> 0 < s < 1 -> on_border w h (at_param p r s) ->
  forall x, on_seg p r x -> on_border w h x.
Proof.
  intros P R S [_ B] x X. split; [now apply (frame_convex w h p r)|].
  destruct X as (t & T & ->). unfold in_frame, at_param in *. cbn [fst snd] in *. destruct P as [P1 P2], R as [R1 R2].
  destruct B as [B|[B|[B|B]]].
  - left. destruct (middle_zero (fst p - 1) (fst r - 1) s) as [E1 E2]; try lra; nra.
  - right. left. destruct (middle_zero (w - 1 - fst p) (w - 1 - fst r) s) as [E1 E2]; try lra; nra.
  - right. right. left. destruct (middle_zero (snd p - 1) (snd r - 1) s) as [E1 E2]; try lra; nra.
  - right. right. right. destruct (middle_zero (h - 1 - snd p) (h - 1 - snd r) s) as [E1 E2]; try lra; nra.
Qed.
Lemma at_param_inj p r s t : p <> r -> at_param p r s = at_param p r t -> s = t.
Proof.
  destruct p as [p1 p2], r as [r1 r2]. unfold at_param. cbn [fst snd]. intros N E. injection E as E1 E2.
  destruct (Req_dec s t) as [->|D]; [reflexivity|]. exfalso. apply N.
  assert (X : (s - t) * (r1 - p1) = 0) by lra. assert (Y : (s - t) * (r2 - p2) = 0) by lra.
  apply Rmult_integral in X, Y. f_equal; lra.
Qed.
(** a list does not hold all the points of a segment *)
Lemma segment_infinite p r (l : list point2) : p <> r -> ~ (forall x, on_seg p r x -> In x l).
Proof.
  intros N A.
  set (f := fun n : nat => at_param p r (/ (INR n + 1))).
  assert (D : forall n, 0 < INR n + 1) by (intros n; pose proof (pos_INR n); lra).
  assert (ND : NoDup (map f (seq 0 (S (length l))))).
  { apply FinFun.Injective_map_NoDup; [|apply seq_NoDup]. intros n m E. apply at_param_inj in E; [|exact N].
    apply (f_equal Rinv) in E. rewrite !Rinv_inv in E. apply INR_eq. lra. }
  assert (I : incl (map f (seq 0 (S (length l)))) l).
  { intros x X. apply in_map_iff in X as (n & <- & _). apply A. eexists. split; [|reflexivity].
    pose proof (D n). split; [left; now apply Rinv_0_lt_compat|]. rewrite <- Rinv_1. apply Rinv_le_contravar; [lra|]. pose proof (pos_INR n). lra. }
  apply NoDup_incl_length in I; [|exact ND]. rewrite map_length, seq_length in I. lia.
Qed.

Definition crosses w h a b (l : list point2) : Prop := NoDup l /\ forall q, In q l <-> on_seg a b q /\ on_border w h q.
Lemma no_middle w h a b l p r s : crosses w h a b l -> on_seg a b p -> on_seg a b r -> in_frame w h p -> in_frame w h r ->
  p <> r -> 0 < s < 1 -> on_border w h (at_param p r s) -> False.
Proof.
  intros [_ C] P R FP FR N S B. apply (segment_infinite p r l N). intros x X. apply C.
  split; [now apply (on_seg_sub a b p r)|]. now apply (border_middle w h p r s).
Qed.
(** three points of a segment: one of them is between the others *)
Lemma between_params a b s t u : s < t < u -> at_param a b t = at_param (at_param a b s) (at_param a b u) ((t - s) / (u - s)) /\ 0 < (t - s) / (u - s) < 1.
Proof.
  intros O. split.
  - rewrite at_param_conv. f_equal. field. lra.
  - split; [apply Rdiv_lt_0_compat; lra|]. apply Rcomplements.Rlt_div_l; lra.
Qed.
Lemma ordered_contradiction w h a b l s t u : crosses w h a b l -> a <> b -> 0 <= s <= 1 -> 0 <= u <= 1 -> s < t < u ->
  in_frame w h (at_param a b s) -> in_frame w h (at_param a b u) -> on_border w h (at_param a b t) -> False.
Proof.
  intros C N S U O F1 F2 B. destruct (between_params a b s t u O) as [E D]. rewrite E in B.
  apply (no_middle w h a b l _ _ _ C) in B; auto.
  - eexists. split; [exact S|reflexivity].
  - eexists. split; [exact U|reflexivity].
  - intros X. apply at_param_inj in X; [lra|exact N].
Qed.
Lemma at_most_two w h a b l : crosses w h a b l -> (length l <= 2)%nat.
Proof.
  intros C. destruct l as [|p1 [|p2 [|p3 l]]]; cbn [length]; try lia. exfalso.
  pose proof C as [ND I].
  assert (H : forall q, In q [p1; p2; p3] -> on_seg a b q /\ on_border w h q).
  { intros q Q. apply I. cbn in *. tauto. }
  destruct (H p1) as [(t1 & T1 & E1) B1]; [cbn; tauto|].
  destruct (H p2) as [(t2 & T2 & E2) B2]; [cbn; tauto|].
  destruct (H p3) as [(t3 & T3 & E3) B3]; [cbn; tauto|].
  assert (N12 : p1 <> p2) by (inversion_clear ND; cbn in *; intuition congruence).
  assert (N13 : p1 <> p3) by (inversion_clear ND; cbn in *; intuition congruence).
  assert (N23 : p2 <> p3) by (inversion_clear ND as [|? ? _ ND']; inversion_clear ND'; cbn in *; intuition congruence).
  assert (AB : a <> b).
  { intros ->. apply N12. rewrite E1, E2. unfold at_param. f_equal; ring. }
  assert (D12 : t1 <> t2) by congruence. assert (D13 : t1 <> t3) by congruence. assert (D23 : t2 <> t3) by congruence.
  rewrite E1 in B1. rewrite E2 in B2. rewrite E3 in B3.
  pose proof (ordered_contradiction w h a b _ t1 t2 t3 C AB T1 T3) as X1.
  pose proof (ordered_contradiction w h a b _ t1 t3 t2 C AB T1 T2) as X2.
  pose proof (ordered_contradiction w h a b _ t2 t1 t3 C AB T2 T3) as X3.
  pose proof (ordered_contradiction w h a b _ t2 t3 t1 C AB T2 T1) as X4.
  pose proof (ordered_contradiction w h a b _ t3 t1 t2 C AB T3 T2) as X5.
  pose proof (ordered_contradiction w h a b _ t3 t2 t1 C AB T3 T1) as X6.
  pose proof (proj1 B1) as F1. pose proof (proj1 B2) as F2. pose proof (proj1 B3) as F3.
  destruct (Rtotal_order t1 t2) as [O1|[O1|O1]]; [|now apply D12|];
  (destruct (Rtotal_order t1 t3) as [O2|[O2|O2]]; [|now apply D13|]);
  (destruct (Rtotal_order t2 t3) as [O3|[O3|O3]]; [|now apply D23|]);
  try (apply X1; auto; lra); try (apply X2; auto; lra); try (apply X3; auto; lra);
  try (apply X4; auto; lra); try (apply X5; auto; lra); try (apply X6; auto; lra).
Qed.
(** from a point of the frame to a point out of it, the border is met *)
Lemma linear_exit (l : list (R * R)) : Forall (fun g => 0 <= fst g) l -> Exists (fun g => snd g < 0) l ->
  exists s, 0 <= s <= 1 /\ Forall (fun g => 0 <= fst g + s * (snd g - fst g)) l /\ Exists (fun g => fst g + s * (snd g - fst g) = 0) l.
Proof.
  induction l as [|[u v] l IH]; intros F E; [inversion E|]. inversion_clear F as [|? ? U F']. cbn [fst snd] in U.
  destruct (Rlt_le_dec v 0) as [V|V].
  - set (s0 := u / (u - v)).
    assert (P : 0 < u - v) by lra.
    assert (S0 : 0 <= s0 <= 1).
    { unfold s0. split; [apply Rcomplements.Rdiv_le_0_compat; lra|]. apply Rcomplements.Rle_div_l; lra. }
    assert (Z0 : u + s0 * (v - u) = 0) by (unfold s0; field; lra).
    destruct (Exists_dec (fun g => snd g < 0) l) as [EX|NX]; [intros g; destruct (Rlt_dec (snd g) 0); auto| |].
    + destruct (IH F' EX) as (s & S & A & B). destruct (Rle_dec s s0) as [L|L].
      * exists s. split; [exact S|]. split; [constructor; [cbn [fst snd]; nra|exact A]|]. now apply Exists_cons_tl.
      * exists s0. split; [exact S0|]. split.
        -- constructor; [cbn [fst snd]; lra|]. rewrite Forall_forall in *. intros g G. specialize (A g G). specialize (F' g G). cbn in F'. nra.
        -- apply Exists_cons_hd. exact Z0.
    + exists s0. split; [exact S0|]. split.
      * constructor; [cbn [fst snd]; lra|]. rewrite Forall_forall in *. intros g G. specialize (F' g G). cbn in F'.
        assert (0 <= snd g). { destruct (Rlt_le_dec (snd g) 0); [|assumption]. exfalso. apply NX. apply Exists_exists. eauto. }
        nra.
      * apply Exists_cons_hd. exact Z0.
  - inversion_clear E as [? ? Y|? ? Y]; [cbn [snd] in Y; lra|]. destruct (IH F' Y) as (s & S & A & B).
    exists s. split; [exact S|]. split; [constructor; [cbn [fst snd]; nra|exact A]|]. now apply Exists_cons_tl.
Qed.
Lemma exit_point w h p q : in_frame w h p -> ~ in_frame w h q -> exists x, on_seg p q x /\ on_border w h x.
Proof.
  intros P Q.
  destruct (linear_exit [(fst p - 1, fst q - 1); (w - 1 - fst p, w - 1 - fst q); (snd p - 1, snd q - 1); (h - 1 - snd p, h - 1 - snd q)])
    as (s & S & A & B).
  - unfold in_frame in P. repeat (apply Forall_cons; [cbn [fst]; lra|]). apply Forall_nil.
  - unfold in_frame in Q. destruct (Rlt_le_dec (fst q - 1) 0); [now apply Exists_cons_hd|apply Exists_cons_tl].
    destruct (Rlt_le_dec (w - 1 - fst q) 0); [now apply Exists_cons_hd|apply Exists_cons_tl].
    destruct (Rlt_le_dec (snd q - 1) 0); [now apply Exists_cons_hd|apply Exists_cons_tl].
    destruct (Rlt_le_dec (h - 1 - snd q) 0); [now apply Exists_cons_hd|exfalso]. apply Q. lra.
  - exists (at_param p q s). split; [eexists; split; [exact S|reflexivity]|].
    repeat match goal with H : Forall _ (_ :: _) |- _ => inversion_clear H end. cbn [fst snd] in *.
    unfold on_border, in_frame, at_param. cbn [fst snd].
    repeat match goal with H : Exists _ (_ :: _) |- _ => inversion_clear H | H : Exists _ [] |- _ => inversion H end;
      cbn [fst snd] in *; split; try lra; split; lra.
Qed.
(** a segment of the frame that does not meet the border stays in the frame *)
Lemma stays_in w h a b x : in_frame w h x -> on_seg a b x -> (forall q, on_seg a b q -> ~ on_border w h q) ->
  in_frame w h a /\ in_frame w h b.
Proof.
  intros F X N. split.
  - destruct (Classical_Prop.classic (in_frame w h a)) as [I|I]; [exact I|exfalso].
    destruct (exit_point w h x a F I) as (y & Y & B). apply (N y); [|exact B]. apply (on_seg_sub a b x a); auto. apply on_seg_start.
  - destruct (Classical_Prop.classic (in_frame w h b)) as [I|I]; [exact I|exfalso].
    destruct (exit_point w h x b F I) as (y & Y & B). apply (N y); [|exact B]. apply (on_seg_sub a b x b); auto. apply on_seg_end.
Qed.
Lemma frame_image w h q : in_frame w h q -> in_image w h q.
Proof. unfold in_frame, in_image. lra. Qed.

Lemma crossings_value crossings w h a b : 2 <= w -> 2 <= h -> gives_crossings crossings (screen_boundary w h) a b ->
  exists l, crossings a b (screen_boundary w h) = Some l /\ crosses w h a b l.
Proof.
  intros W H (l & E & ND & I). exists l. split; [exact E|]. split; [exact ND|]. intros q. rewrite I, ring_border by assumption. reflexivity.
Qed.
(** A segment is accepted exactly when a part of it is in the image at one pixel or more of the
    border, or when both its ends are in the image. *)
Theorem C86_accepted : forall crossings width height a b, 2 <= width -> 2 <= height ->
  gives_crossings crossings (screen_boundary width height) a b ->
  (clamp_to_screen crossings width height a b <> None <->
   (exists q, on_seg a b q /\ in_frame width height q) \/ (in_image width height a /\ in_image width height b)).
Proof.
  intros crossings w h a b W H G. destruct (crossings_value _ _ _ _ _ W H G) as (l & E & C).
  pose proof (at_most_two _ _ _ _ _ C) as L. unfold clamp_to_screen. rewrite E.
  destruct l as [|p [|q [|r l]]]; cbn [length] in L; [| | |lia].
  - destruct C as [_ C]. destruct (in_screen_2d_b w h a) eqn:A; destruct (in_screen_2d_b w h b) eqn:B; cbn [negb orb].
    + rewrite in_screen_2d_iff in A, B. split; [tauto|discriminate].
    + split; [congruence|]. intros [(x & X & F)|[_ Y]].
      * destruct (stays_in w h a b x F X) as [_ FB]; [intros q Q OB; apply (C q); auto|]. apply frame_image in FB.
        rewrite <- in_screen_2d_iff in FB. congruence.
      * rewrite <- in_screen_2d_iff in Y. congruence.
    + split; [congruence|]. intros [(x & X & F)|[Y _]].
      * destruct (stays_in w h a b x F X) as [FA _]; [intros q Q OB; apply (C q); auto|]. apply frame_image in FA.
        rewrite <- in_screen_2d_iff in FA. congruence.
      * rewrite <- in_screen_2d_iff in Y. congruence.
    + split; [congruence|]. intros [(x & X & F)|[Y _]].
      * destruct (stays_in w h a b x F X) as [FA _]; [intros q Q OB; apply (C q); auto|]. apply frame_image in FA.
        rewrite <- in_screen_2d_iff in FA. congruence.
      * rewrite <- in_screen_2d_iff in Y. congruence.
  - assert (I : on_seg a b p /\ on_border w h p) by (apply C; now left).
    destruct (in_screen_2d_b w h p); (split; [intros _; left; exists p; split; [apply I|apply I]|discriminate]).
  - assert (I : on_seg a b p /\ on_border w h p) by (apply C; now left).
    split; [intros _; left; exists p; split; [apply I|apply I]|discriminate].
Qed.
Print Assumptions C86_accepted.
(** The clamped segment is a part of the segment and is in the image. *)
Theorem C86_clamped_in_image : forall crossings width height a b p q, 2 <= width -> 2 <= height ->
  gives_crossings crossings (screen_boundary width height) a b ->
  clamp_to_screen crossings width height a b = Some (p, q) ->
  forall x, on_seg p q x -> on_seg a b x /\ in_image width height x.
Proof.
  intros crossings w h a b p q W H G K x X. destruct (crossings_value _ _ _ _ _ W H G) as (l & E & C).
  assert (T : (on_seg a b p /\ in_image w h p) /\ (on_seg a b q /\ in_image w h q)).
  { unfold clamp_to_screen in K. rewrite E in K. destruct C as [_ C].
    destruct l as [|p' [|q' [|r l]]].
    - destruct (in_screen_2d_b w h a) eqn:A; destruct (in_screen_2d_b w h b) eqn:B; cbn in K; try discriminate.
      injection K as <- <-. rewrite in_screen_2d_iff in A, B. split; (split; [|assumption]); [apply on_seg_start|apply on_seg_end].
    - assert (I : on_seg a b p' /\ on_border w h p') by (apply C; now left). destruct I as [I J].
      destruct (in_screen_2d_b w h p'); injection K as <- <-; split; (split; [exact I|apply frame_image, J]).
    - assert (I : on_seg a b p' /\ on_border w h p') by (apply C; now left).
      assert (I' : on_seg a b q' /\ on_border w h q') by (apply C; right; now left).
      injection K as <- <-. split; (split; [apply I || apply I'|apply frame_image; apply I || apply I']).
    - discriminate. }
  destruct T as [[P P'] [Q Q']]. split; [now apply (on_seg_sub a b p q)|].
  destruct X as (t & T & ->). unfold in_image, at_param in *. cbn [fst snd]. nra.
Qed.
Print Assumptions C86_clamped_in_image.
Lemma param_eq a b s t : at_param a b s = at_param a b t -> a = b \/ s = t.
Proof.
  intros E. destruct (point2_eq_dec a b) as [D|D]; [now left|right]. now apply (at_param_inj a b).
Qed.
Lemma beyond w h a b l p q x : crosses w h a b l -> on_seg a b p -> on_seg a b q -> on_seg a b x -> p <> q ->
  on_border w h p -> on_border w h q -> in_frame w h x -> on_seg p q x.
Proof.
  intros C (s & S & ->) (t & T & ->) (u & U & ->) N P Q X.
  assert (AB : a <> b). { intros ->. apply N. unfold at_param. f_equal; ring. }
  assert (ST : s <> t) by congruence.
  assert (K : exists v, 0 <= v <= 1 /\ u = s + v * (t - s)).
  { destruct (Rtotal_order s t) as [O|[O|O]]; [|easy|].
    - destruct (Rlt_le_dec u s) as [U1|U1]; [exfalso; apply (ordered_contradiction w h a b l u s t C AB); auto; apply P || apply Q|].
      destruct (Rlt_le_dec t u) as [U2|U2]; [exfalso; apply (ordered_contradiction w h a b l s t u C AB); auto; apply P || apply Q|].
      exists ((u - s) / (t - s)). split; [|field; lra]. split; [apply Rcomplements.Rdiv_le_0_compat; lra|]. apply Rcomplements.Rle_div_l; lra.
    - destruct (Rlt_le_dec u t) as [U1|U1]; [exfalso; apply (ordered_contradiction w h a b l u t s C AB); auto; apply P || apply Q|].
      destruct (Rlt_le_dec s u) as [U2|U2]; [exfalso; apply (ordered_contradiction w h a b l t s u C AB); auto; apply P || apply Q|].
      exists ((s - u) / (s - t)). split; [|field; lra]. split; [apply Rcomplements.Rdiv_le_0_compat; lra|]. apply Rcomplements.Rle_div_l; lra. }
  destruct K as (v & V & ->). exists v. split; [exact V|]. now rewrite at_param_conv.
Qed.
Lemma strict_no_border w h a b q : in_frame w h a -> ~ on_border w h a -> in_frame w h b -> ~ on_border w h b ->
  on_seg a b q -> ~ on_border w h q.
Proof.
  intros FA NA FB NB (t & T & ->) OB. destruct (Req_dec t 0) as [->|T0].
  - apply NA. replace (at_param a b 0) with a in OB; [exact OB|]. destruct a. unfold at_param. cbn [fst snd]. f_equal; ring.
  - destruct (Req_dec t 1) as [->|T1].
    + apply NB. replace (at_param a b 1) with b in OB; [exact OB|]. destruct a, b. unfold at_param. cbn [fst snd]. f_equal; ring.
    + apply NA. apply (border_middle w h a b t FA FB); [lra|exact OB|apply on_seg_start].
Qed.
(** When the ends of the segment are both out of this frame, or both strictly in it, the clamped
    segment is exactly the part of the segment in the frame. *)
Theorem C86_visible_part : forall crossings width height a b p q, 2 <= width -> 2 <= height ->
  gives_crossings crossings (screen_boundary width height) a b ->
  (~ in_frame width height a /\ ~ in_frame width height b) \/
  (in_frame width height a /\ ~ on_border width height a /\ in_frame width height b /\ ~ on_border width height b) ->
  (exists x, on_seg a b x /\ in_frame width height x) ->
  clamp_to_screen crossings width height a b = Some (p, q) ->
  forall x, on_seg p q x <-> on_seg a b x /\ in_frame width height x.
Proof.
  intros crossings w h a b p q W H G SIDE (x0 & X0 & F0) K x. destruct (crossings_value _ _ _ _ _ W H G) as (l & E & C).
  destruct SIDE as [[NA NB]|(FA & BA & FB & BB)].
  - unfold clamp_to_screen in K. rewrite E in K. destruct l as [|p' [|q' [|r l]]].
    + exfalso. apply NA. apply (stays_in w h a b x0 F0 X0). intros y Y YB. destruct C as [_ C]. apply (C y). auto.
    + assert (I : on_seg a b p' /\ on_border w h p') by (apply C; now left). destruct I as [I J].
      assert (PQ : p = p' /\ q = p') by (destruct (in_screen_2d_b w h p'); injection K as <- <-; auto). destruct PQ as [-> ->].
      split.
      * intros (t & T & ->). replace (at_param p' p' t) with p'; [split; [exact I|apply J]|].
        destruct p'. unfold at_param. cbn [fst snd]. f_equal; ring.
      * intros [X F]. assert (x = p') as ->; [|apply on_seg_start].
        destruct (exit_point w h x a F NA) as (y & Y & YB). destruct (exit_point w h x b F NB) as (z & Z & ZB).
        assert (Y' : on_seg a b y) by (apply (on_seg_sub a b x a); auto; apply on_seg_start).
        assert (Z' : on_seg a b z) by (apply (on_seg_sub a b x b); auto; apply on_seg_end).
        assert (y = p'). { destruct C as [_ C]. destruct (proj2 (C y)); auto. contradiction. }
        assert (z = p'). { destruct C as [_ C]. destruct (proj2 (C z)); auto. contradiction. } subst y z.
        destruct X as (t & T & ->). destruct Y as (u & U & EY), Z as (v & V & EZ).
        replace (at_param (at_param a b t) a u) with (at_param a b (t - u * t)) in EY by (destruct a; unfold at_param; cbn [fst snd]; f_equal; ring).
        replace (at_param (at_param a b t) b v) with (at_param a b (t + v * (1 - t))) in EZ by (destruct b; unfold at_param; cbn [fst snd]; f_equal; ring).
        destruct (param_eq a b (t - u * t) (t + v * (1 - t))) as [D|D]; [congruence| |].
        -- rewrite EY, D. unfold at_param. f_equal; ring.
        -- rewrite EY. f_equal. assert (0 <= u * t) by nra. assert (0 <= v * (1 - t)) by nra. lra.
    + assert (I : on_seg a b p' /\ on_border w h p') by (apply C; now left).
      assert (I' : on_seg a b q' /\ on_border w h q') by (apply C; right; now left).
      injection K as <- <-. destruct I as [I J], I' as [I' J']. split.
      * intros X. split; [now apply (on_seg_sub a b p' q')|]. apply (frame_convex w h p' q'); [apply J|apply J'|exact X].
      * intros [X F]. apply (beyond w h a b [p'; q']); auto. destruct C as [ND _]. inversion_clear ND. cbn in *. intuition congruence.
    + discriminate.
  - assert (l = []) as ->.
    { destruct l as [|y l]; [reflexivity|exfalso]. destruct C as [_ C]. destruct (proj1 (C y)) as [Y YB]; [now left|].
      now apply (strict_no_border w h a b y). }
    unfold clamp_to_screen in K. rewrite E in K.
    apply frame_image in FA as IA. apply frame_image in FB as IB. rewrite <- in_screen_2d_iff in IA, IB. rewrite IA, IB in K. cbn in K.
    injection K as <- <-. split; [|tauto]. intros X. split; [exact X|]. now apply (frame_convex w h a b).
Qed.
Print Assumptions C86_visible_part.
(** When only one end is in the frame, the clamped segment is a single point of the border,
    although the part of the segment in the frame has a length. *)
Theorem C86_half_visible : forall crossings width height a b, 2 <= width -> 2 <= height ->
  gives_crossings crossings (screen_boundary width height) a b ->
  in_frame width height a -> ~ on_border width height a -> ~ in_frame width height b ->
  exists p, clamp_to_screen crossings width height a b = Some (p, p) /\ on_border width height p /\ on_seg a b p /\ p <> a /\
            forall x, on_seg a p x -> on_seg a b x /\ in_frame width height x.
Proof.
  intros crossings w h a b W H G FA BA NB. destruct (crossings_value _ _ _ _ _ W H G) as (l & E & C).
  destruct (exit_point w h a b FA NB) as (p & P & PB).
  assert (AP : p <> a) by congruence.
  assert (U : forall q, on_seg a b q -> on_border w h q -> q = p).
  { intros q Q QB. destruct (point2_eq_dec q p) as [D|D]; [exact D|exfalso].
    assert (on_seg q p a) as (t & T & EA).
    { apply (beyond w h a b l q p a C); auto. apply on_seg_start. }
    destruct (Req_dec t 0) as [->|T0].
    - apply BA. replace a with q; [exact QB|]. rewrite EA. destruct q. unfold at_param. cbn [fst snd]. f_equal; ring.
    - destruct (Req_dec t 1) as [->|T1].
      + apply AP. rewrite EA. destruct q, p. unfold at_param. cbn [fst snd]. f_equal; ring.
      + destruct P as (s & S & EP), Q as (r & R & EQ).
        assert (AB : a <> b) by (intros ->; apply AP; rewrite EP; unfold at_param; destruct b; cbn [fst snd]; f_equal; ring).
        assert (Z : at_param a b 0 = at_param a b (r + t * (s - r))).
        { rewrite <- at_param_conv, <- EP, <- EQ, <- EA. destruct a. unfold at_param. cbn [fst snd]. f_equal; ring. }
        apply at_param_inj in Z; [|exact AB].
        assert (r = 0 /\ s = 0) as [-> ->] by (apply (middle_zero r s t); lra).
        apply D. now rewrite EP, EQ. }
  assert (l = [p]) as ->.
  { destruct C as [ND C]. assert (IP : In p l) by (apply C; auto).
    destruct l as [|y [|z l]].
    - inversion IP.
    - destruct IP as [->|[]]. reflexivity.
    - exfalso. assert (y = p) by (apply U; apply C; now left). assert (z = p) by (apply U; apply C; right; now left). subst.
      inversion_clear ND. cbn in *. tauto. }
  exists p. unfold clamp_to_screen. rewrite E. split; [now destruct (in_screen_2d_b w h p)|].
  split; [exact PB|]. split; [exact P|]. split; [exact AP|]. intros x X. split.
  - apply (on_seg_sub a b a p); auto. apply on_seg_start.
  - apply (frame_convex w h a p); auto. apply PB.
Qed.
Print Assumptions C86_half_visible.

(** ** 2D points *)

Lemma camera_affine q t w2c p : unit_quat q -> world_to_camera (camera_to_world q t) w2c ->
  point_to_camera w2c p = vadd (col w2c) (mvmul (lin w2c) p).
Proof.
  intros U I. pose proof (camera_to_world_rigid q t U) as R.
  destruct (rigid_round_trip _ w2c p R I) as [_ [_ R']]. rewrite rigid_to_camera by exact R'. now apply rigid_point.
Qed.
Definition pixel fx fy cx cy (c : vec) : point2 := (fx * vx c / vz c + cx, fy * vy c / vz c + cy).
Lemma perspective_forth fx fy cx cy a b t : 0 < vz a -> 0 < vz b -> 0 <= t <= 1 ->
  0 < vz (vadd a (vscal t (vsub b a))) /\
  on_seg (pixel fx fy cx cy a) (pixel fx fy cx cy b) (pixel fx fy cx cy (vadd a (vscal t (vsub b a)))).
Proof.
  destruct a as [a1 a2 a3], b as [b1 b2 b3]. unfold vadd, vscal, vsub, pixel. cbn [vx vy vz]. intros A B T.
  assert (P : 0 < a3 + t * (b3 - a3)) by nra. split; [exact P|]. exists (t * b3 / (a3 + t * (b3 - a3))). split.
  - split; [apply Rcomplements.Rdiv_le_0_compat; nra|]. apply Rcomplements.Rle_div_l; nra.
  - unfold at_param. cbn [fst snd]. f_equal; field; lra.
Qed.
Lemma perspective_back fx fy cx cy a b x : 0 < vz a -> 0 < vz b ->
  on_seg (pixel fx fy cx cy a) (pixel fx fy cx cy b) x ->
  exists t, 0 <= t <= 1 /\ x = pixel fx fy cx cy (vadd a (vscal t (vsub b a))).
Proof.
  destruct a as [a1 a2 a3], b as [b1 b2 b3]. unfold vadd, vscal, vsub, pixel. cbn [vx vy vz]. intros A B (s & S & ->).
  assert (P : 0 < s * a3 + (1 - s) * b3) by nra.
  exists (s * a3 / (s * a3 + (1 - s) * b3)).
  split; [split; [apply Rcomplements.Rdiv_le_0_compat; nra|]; apply Rcomplements.Rle_div_l; nra|].
  assert (Q : a3 + s * a3 / (s * a3 + (1 - s) * b3) * (b3 - a3) = a3 * b3 / (s * a3 + (1 - s) * b3)) by (field; lra).
  rewrite Q. unfold at_param. cbn [fst snd]. assert (0 < a3 * b3) by nra. f_equal; field; repeat split; nra.
Qed.
(** When both its extreme places are in front of the camera, a 2D point is visible exactly when
    one of the places between them is seen in the image at one pixel or more of the border, or
    when both extreme places are seen in the image. *)
Theorem C86_point2d_visible : forall crossings fx fy cx cy width height q t w2c p variance far near,
  unit_quat q -> world_to_camera (camera_to_world q t) w2c -> 2 <= width -> 2 <= height ->
  furthest_estimation p (sqrt variance) = Some far -> closest_estimation p (sqrt variance) = Some near ->
  0 < vz (point_to_camera w2c far) -> 0 < vz (point_to_camera w2c near) ->
  (forall a b, seen_at fx fy cx cy (point_to_camera w2c far) (fst a) (snd a) ->
               seen_at fx fy cx cy (point_to_camera w2c near) (fst b) (snd b) ->
               gives_crossings crossings (screen_boundary width height) a b) ->
  (point2d_visible crossings (intrinsics fx fy cx cy) width height w2c p variance = true <->
   (exists w, on_segment far near w /\ seen_in fx fy cx cy w2c w (in_frame width height)) \/
   (seen_in fx fy cx cy w2c far (in_image width height) /\ seen_in fx fy cx cy w2c near (in_image width height))).
Proof.
  intros crossings fx fy cx cy w h q t w2c p variance far near U I W H EF EN ZF ZN G.
  unfold point2d_visible, screen_segment. rewrite EF, EN.
  set (cf := point_to_camera w2c far) in *. set (cn := point_to_camera w2c near) in *.
  rewrite !to_screen_value by lra. cbn [vx vy vz].
  change (fx * vx cf / vz cf + cx, fy * vy cf / vz cf + cy) with (pixel fx fy cx cy cf).
  change (fx * vx cn / vz cn + cx, fy * vy cn / vz cn + cy) with (pixel fx fy cx cy cn).
  assert (G' : gives_crossings crossings (screen_boundary w h) (pixel fx fy cx cy cf) (pixel fx fy cx cy cn)).
  { apply G; split; reflexivity. }
  assert (AFF : forall s, point_to_camera w2c (vadd far (vscal s (vsub near far))) = vadd cf (vscal s (vsub cn cf))).
  { intros s. unfold cf, cn. rewrite !(camera_affine q t) by assumption. rewrite mvmul_add, mvmul_scal, mvmul_sub.
    generalize (mvmul (lin w2c) far) (mvmul (lin w2c) near) (col w2c). intros. v3ring. }
  transitivity (clamp_to_screen crossings w h (pixel fx fy cx cy cf) (pixel fx fy cx cy cn) <> None).
  { destruct (clamp_to_screen _ _ _ _ _); split; congruence. }
  rewrite (C86_accepted _ _ _ _ _ W H G'). split.
  - intros [(x & X & F)|[A B]].
    + left. destruct (perspective_back fx fy cx cy cf cn x ZF ZN X) as (s & S & ->).
      exists (vadd far (vscal s (vsub near far))). split; [exists s; auto|]. unfold seen_in. rewrite AFF.
      split; [now apply (perspective_forth fx fy cx cy)|]. eexists _, _. split; [split; reflexivity|exact F].
    + right. unfold seen_in. fold cf cn. split; (split; [assumption|]; eexists _, _; split; [split; reflexivity|assumption]).
  - intros [(w' & (s & S & ->) & [Z (u & v & [-> ->] & F)])|[[_ (u & v & [-> ->] & F)] [_ (u' & v' & [-> ->] & F')]]].
    + left. rewrite AFF in F. exists (pixel fx fy cx cy (vadd cf (vscal s (vsub cn cf)))).
      split; [now apply perspective_forth|exact F].
    + right. split; assumption.
Qed.
Print Assumptions C86_point2d_visible.

Lemma center_crossings : crossing_points (screen_boundary 640 480) (320, 240) (320, 240) [].
Proof.
  split; [constructor|]. intros q. split; [intros []|]. intros [(t & T & ->) B]. rewrite ring_border in B by lra.
  destruct B as [_ B]. unfold at_param in B. cbn [fst snd] in B. lra.
Qed.
(** A 2D point behind the camera can be visible: the depths of the extreme places are not
    tested. *)
Theorem C86_point2d_behind_refuted : exists w2c p far near,
  world_to_camera (camera_to_world (mkQuat 1 0 0 0) v0) w2c /\ valid_idp p /\
  furthest_estimation p (sqrt 0) = Some far /\ closest_estimation p (sqrt 0) = Some near /\
  vz (point_to_camera w2c far) < 0 /\ vz (point_to_camera w2c near) < 0 /\
  forall crossings, crossings (320, 240) (320, 240) (screen_boundary 640 480) = Some [] ->
    point2d_visible crossings (intrinsics 500 500 320 240) 640 480 w2c p 0 = true.
Proof.
  assert (U : unit_quat (mkQuat 1 0 0 0)) by (unfold unit_quat; cbn; lra).
  destruct (C46_inverse_exists _ v0 U) as (w2c & W & _). exists w2c.
  pose proof PI_RGT_0 as PP.
  set (p := mkIdp v0 (1 / 1000) (PI / 2) PI). exists p, (mkV (- 10 ^ 9) 0 0), (mkV (- 10 ^ 9) 0 0).
  assert (T : 0 < 10 ^ 9) by (apply pow_lt; lra).
  assert (EST : estimation p (Rmin (1 / 1000 + 0 * 3) (1 / 10 ^ 9)) = Some (mkV (- 10 ^ 9) 0 0)).
  { rewrite Rmin_right.
    - unfold estimation. assert (0 < 1 / 10 ^ 9) by (apply Rdiv_lt_0_compat; lra). destruct (Req_EM_T _ 0); [lra|].
      unfold bearing, cartesian_from, p. cbn [theta phi first vx vy vz]. rewrite sin_PI2, cos_PI2, sin_PI, cos_PI.
      f_equal. unfold vadd, vscal, v0. cbn [vx vy vz]. f_equal; field; lra.
    - replace (1 / 1000 + 0 * 3) with (1 / 1000) by lra. unfold Rdiv. apply Rmult_le_compat_l; [lra|].
      apply Rinv_le_contravar; lra. }
  assert (F : furthest_estimation p (sqrt 0) = Some (mkV (- 10 ^ 9) 0 0)).
  { unfold furthest_estimation. rewrite sqrt_0. cbn [inverse_depth p]. replace (1 / 1000 - 0 * 3) with (1 / 1000 + 0 * 3) by lra. exact EST. }
  assert (N : closest_estimation p (sqrt 0) = Some (mkV (- 10 ^ 9) 0 0)).
  { unfold closest_estimation. rewrite sqrt_0. cbn [inverse_depth p]. exact EST. }
  assert (C : point_to_camera w2c (mkV (- 10 ^ 9) 0 0) = mkV 0 0 (- 10 ^ 9)).
  { destruct (C46_inverse _ v0 w2c (mkV 0 0 (- 10 ^ 9)) U W) as [I _].
    destruct (C46_camera_center (mkQuat 1 0 0 0) v0) as [_ CC]. rewrite CC in I.
    replace (vadd (mkV (- 10 ^ 9) 0 0) (world_axes v0)) with (mkV (- 10 ^ 9) 0 0) in I; [exact I|].
    unfold vadd, world_axes, v0. cbn [vx vy vz]. f_equal; ring. }
  split; [exact W|]. split; [unfold valid_idp, p; cbn [inverse_depth theta phi]; lra|].
  split; [exact F|]. split; [exact N|]. rewrite C. cbn [vz]. split; [lra|]. split; [lra|].
  intros crossings E. unfold point2d_visible, screen_segment. rewrite F, N, C. rewrite to_screen_value by (cbn [vz]; lra). cbn [vx vy vz].
  assert (E1 : 500 * 0 / - 10 ^ 9 + 320 = 320) by (field; lra). assert (E2 : 500 * 0 / - 10 ^ 9 + 240 = 240) by (field; lra).
  rewrite E1, E2. unfold clamp_to_screen. rewrite E.
  assert (S : in_screen_2d_b 640 480 (320, 240) = true) by (apply in_screen_2d_iff; unfold in_image; cbn [fst snd]; lra).
  rewrite S. reflexivity.
Qed.
Print Assumptions C86_point2d_behind_refuted.

(** ** Planes *)

Lemma screen_points_value fx fy cx cy p boundary : frame (x_axis p) (y_axis p) ->
  Forall (fun q => vz (upt (center p) (x_axis p) (y_axis p) q) <> 0) boundary ->
  screen_points (intrinsics fx fy cx cy) p boundary =
  Value (Some (map (fun q => let c := upt (center p) (x_axis p) (y_axis p) q in
                             mkV (fst (pixel fx fy cx cy c)) (snd (pixel fx fy cx cy c)) (vz c)) boundary)).
Proof.
  intros F. induction boundary as [|q l IH]; intros A; [reflexivity|]. inversion_clear A as [|? ? A1 A2]. cbn [screen_points].
  rewrite unproject_point_ok by exact F. cbn [bind]. rewrite to_screen_value by exact A1. rewrite IH by exact A2. reflexivity.
Qed.
Lemma screen_points_none fx fy cx cy p boundary : frame (x_axis p) (y_axis p) ->
  Exists (fun q => vz (upt (center p) (x_axis p) (y_axis p) q) = 0) boundary ->
  screen_points (intrinsics fx fy cx cy) p boundary = Value None.
Proof.
  intros F. induction boundary as [|q l IH]; intros A; [inversion A|]. cbn [screen_points].
  rewrite unproject_point_ok by exact F. cbn [bind]. set (c := upt _ _ _ q) in *.
  destruct (Req_dec (vz c) 0) as [Z|Z].
  - unfold camera_to_screen. rewrite Z. now destruct (Req_EM_T 0 0).
  - rewrite to_screen_value by exact Z. inversion_clear A as [? ? X|? ? X]; [easy|]. rewrite IH by exact X. reflexivity.
Qed.
(** The visibility test of a plane never ends the program. A plane is visible exactly when the
    polygon of the pixels of its boundary points overlaps the image (without its border); when a
    point of the boundary is at the depth of the camera, the polygon is taken as empty. *)
Theorem C86_plane_visible : forall overlap fx fy cx cy width height q t w2c p pts,
  unit_quat q -> world_to_camera (camera_to_world q t) w2c -> sound p -> unprojected p = Value pts ->
  (Forall (fun v => vz (point_to_camera w2c v) <> 0) pts ->
   exists pixels, Forall2 (fun v x => seen_at fx fy cx cy (point_to_camera w2c v) (fst x) (snd x)) pts pixels /\
     plane_visible overlap (intrinsics fx fy cx cy) width height w2c p = Value (overlap (correct pixels) (screen_boundary width height))) /\
  (Exists (fun v => vz (point_to_camera w2c v) = 0) pts ->
   plane_visible overlap (intrinsics fx fy cx cy) width height w2c p = Value (overlap [] (screen_boundary width height))).
Proof.
  intros overlap fx fy cx cy w h q t w2c p pts U I S EP.
  pose proof (camera_to_world_rigid q t U) as R.
  destruct (rigid_round_trip _ w2c (center p) R I) as [_ [_ R']].
  pose proof S as [F _]. rewrite unprojected_ok in EP by exact F. injection EP as <-.
  unfold plane_visible, to_camera_space. rewrite (rigid_to_camera w2c) by exact R'. rewrite move_ok by assumption. cbn [bind].
  unfold to_screen_space. cbn [outline].
  set (cp := mkPolygon (outline p) (point_to_world w2c (center p)) (mvmul (lin w2c) (x_axis p)) (mvmul (lin w2c) (y_axis p)) (stored_area p)).
  destruct (rigid_frame w2c _ _ R' F) as [_ [_ F']].
  assert (V : forall a, upt (center cp) (x_axis cp) (y_axis cp) a = point_to_camera w2c (upt (center p) (x_axis p) (y_axis p) a)).
  { intros [a b]. unfold cp, upt. cbn [center x_axis y_axis fst snd]. rewrite !(camera_affine q t), !rigid_point by assumption.
    rewrite !mvmul_add, !mvmul_scal. generalize (mvmul (lin w2c) (center p)) (mvmul (lin w2c) (x_axis p)) (mvmul (lin w2c) (y_axis p)) (col w2c).
    intros. v3ring. }
  split.
  - intros A. rewrite screen_points_value; [|exact F'|]. 2:{ rewrite Forall_map in A. eapply Forall_impl; [|exact A]. intros a Z. now rewrite V. }
    cbn [bind]. rewrite map_map. cbn [vx vy].
    exists (map (fun x => pixel fx fy cx cy (upt (center cp) (x_axis cp) (y_axis cp) x)) (outline p)). split.
    + clear A S. clearbody cp. induction (outline p) as [|a l IH]; cbn [map]; [constructor|]. constructor; [|exact IH]. rewrite V. split; reflexivity.
    + reflexivity.
  - intros A. rewrite screen_points_none; [|exact F'|]. 2:{ rewrite Exists_map in A. eapply Exists_impl; [|exact A]. intros a Z. cbv beta. now rewrite V. }
    cbn [bind map]. unfold correct. cbn [close_ring rev]. now destruct (Rlt_dec _ 0).
Qed.
Print Assumptions C86_plane_visible.

(** A plane behind the camera can be visible: its points are projected through the camera. *)
Theorem C86_plane_behind_refuted : exists w2c p pts,
  world_to_camera (camera_to_world (mkQuat 1 0 0 0) v0) w2c /\ sound p /\ 0 < stored_area p /\
  unprojected p = Value pts /\ Forall (fun v => vz (point_to_camera w2c v) < 0) pts /\
  forall overlap, (forall r, 0 < ring_area r -> overlap r r = true) ->
    plane_visible overlap (intrinsics 1 1 320 240) 640 480 w2c p = Value true.
Proof.
  assert (U : unit_quat (mkQuat 1 0 0 0)) by (unfold unit_quat; cbn; lra).
  destruct (C46_inverse_exists _ v0 U) as (w2c & W & _). exists w2c.
  set (o := [(319, 239); (319, - 239); (- 319, - 239); (- 319, 239); (319, 239)] : list point2).
  set (c := mkPolygon o (mkV 0 0 (-1)) (mkV 1 0 0) (mkV 0 1 0) (ring_area o)).
  assert (A : ring_area o = 638 * 478).
  { unfold ring_area, o. cbn [length Nat.ltb Nat.leb edges fst snd]. lra. }
  assert (S : sound c).
  { split; [unfold c; cbn [x_axis y_axis]; repeat split; unfold dot; cbn [vx vy vz]; ring|].
    unfold c. cbn [outline stored_area]. split; [split; [intros d; reflexivity|rewrite A; lra]|reflexivity]. }
  destruct (C48_moves _ v0 w2c c U W S) as (p & pts & _ & SP & O & AR & UC & UP & B).
  exists p, (map (point_to_world (camera_to_world (mkQuat 1 0 0 0) v0)) pts).
  split; [exact W|]. split; [exact SP|]. split; [rewrite AR; unfold c; cbn [stored_area]; rewrite A; lra|]. split; [exact UP|].
  rewrite unprojected_ok in UC by apply S.
  assert (EP : pts = map (upt (center c) (x_axis c) (y_axis c)) (outline c)) by congruence. rewrite EP. clear EP UC UP.
  assert (BACK : forall v, point_to_camera w2c (point_to_world (camera_to_world (mkQuat 1 0 0 0) v0) v) = v).
  { intros v. now destruct (C46_inverse _ v0 w2c v U W). }
  split.
  - rewrite map_map, Forall_map. apply Forall_forall. intros x _. rewrite BACK. unfold upt, c, vadd, vscal. cbn [center x_axis y_axis vx vy vz]. lra.
  - intros overlap L. unfold plane_visible. rewrite B. cbn [bind]. unfold to_screen_space. cbn [outline].
    rewrite screen_points_value; [|apply S|].
    2:{ apply Forall_forall. intros x _. unfold upt, c, vadd, vscal. cbn [center x_axis y_axis vx vy vz]. lra. }
    cbn [bind]. rewrite map_map. cbn [vx vy].
    set (r := [(1, 1); (1, 479); (639, 479); (639, 1); (1, 1)] : list point2).
    assert (E : map (fun x => (fst (pixel 1 1 320 240 (upt (center c) (x_axis c) (y_axis c) x)),
                               snd (pixel 1 1 320 240 (upt (center c) (x_axis c) (y_axis c) x)))) (outline c) = r).
    { unfold c, o, r, pixel, upt. cbn [outline map center x_axis y_axis fst snd vx vy vz vadd vscal].
      repeat (apply f_equal2; [f_equal; field|]). reflexivity. }
    unfold c in E at 7. cbn [outline] in E. cbn [outline c]. rewrite E.
    assert (AR1 : ring_area r = 638 * 478) by (unfold ring_area, r; cbn [length Nat.ltb Nat.leb edges fst snd]; lra).
    assert (C1 : correct r = r).
    { unfold correct, close_ring. cbn [length Nat.ltb Nat.leb r]. destruct (point2_eq_dec (1, 1) _) as [_|X]; [|exfalso; now apply X].
      fold r. rewrite AR1. destruct (Rlt_dec (638 * 478) 0); [lra|reflexivity]. }
    assert (C2 : screen_boundary 640 480 = r).
    { unfold screen_boundary, boundary_size. replace (640 - 1) with 639 by ring. replace (480 - 1) with 479 by ring.
      unfold correct, close_ring. cbn [length Nat.ltb Nat.leb]. destruct (point2_eq_dec (1, 1) _) as [_|X]; [|exfalso; now apply X].
      destruct (Rlt_dec _ 0) as [_|X]; [reflexivity|]. exfalso. apply X. unfold ring_area. cbn [length Nat.ltb Nat.leb edges fst snd]. lra. }
    rewrite C1, C2. rewrite L; [reflexivity|]. rewrite AR1. lra.
Qed.
Print Assumptions C86_plane_behind_refuted.

(** The segment from the center of an image of 640 by 480 pixels to a point on its right: it
    meets the border once, and is clamped to a point. *)
Example C86_half_example :
  crossing_points (screen_boundary 640 480) (320, 240) (1000, 240) [(639, 240)] /\
  in_frame 640 480 (320, 240) /\ ~ on_border 640 480 (320, 240) /\ ~ in_frame 640 480 (1000, 240) /\
  clamp_to_screen (fun _ _ _ => Some [(639, 240)]) 640 480 (320, 240) (1000, 240) = Some ((639, 240), (639, 240)).
Proof.
  split; [|split; [|split; [|split]]].
  - split; [constructor; [intros []|constructor]|]. intros q. rewrite ring_border by lra. split.
    + intros [<-|[]]. split; [apply on_seg_h; cbn; lra|]. unfold on_border, in_frame. cbn [fst snd]. lra.
    + intros [S B]. apply on_seg_h in S; [|lra]. unfold on_border, in_frame in B. destruct q as [x y]. cbn [fst snd] in *.
      left. f_equal; lra.
  - unfold in_frame; cbn; lra.
  - unfold on_border, in_frame; cbn; lra.
  - unfold in_frame; cbn; lra.
  - unfold clamp_to_screen. now destruct (in_screen_2d_b _ _ _).
Qed.
(** A segment across the whole image is clamped to its part in it. *)
Example C86_through_example :
  crossing_points (screen_boundary 640 480) (-100, 240) (1000, 240) [(1, 240); (639, 240)] /\
  clamp_to_screen (fun _ _ _ => Some [(1, 240); (639, 240)]) 640 480 (-100, 240) (1000, 240) = Some ((1, 240), (639, 240)).
Proof.
  split; [|reflexivity]. split.
  - constructor; [intros [X|[]]; injection X; lra|]. constructor; [intros []|constructor].
  - intros q. rewrite ring_border by lra. split.
    + intros [<-|[<-|[]]]; (split; [apply on_seg_h; cbn; lra|]; unfold on_border, in_frame; cbn [fst snd]; lra).
    + intros [S B]. apply on_seg_h in S; [|lra]. unfold on_border, in_frame in B. destruct q as [x y]. cbn [fst snd] in *. cbn [In].
      destruct (proj2 B) as [Z|[Z|[Z|Z]]]; [left|right; left|lra|lra]; f_equal; lra.
Qed.

(** Property C100: the text files of a dataset. *)
From Coq Require Import Reals Lra Lia Arith.
From Verif Require Import TumModel AssociationSpec AssociationProps TumSpec.
From Flocq Require Import Core IEEE754.BinarySingleNaN.
Local Open Scope R_scope.

(** ** Lines *)

Lemma newline_eqb : forall c, Ascii.eqb c newline = true <-> c = newline.
Proof. intros c. apply Ascii.eqb_eq. Qed.

Lemma lines_from_are : forall s line started, ~ In newline line -> (started = false -> line = []) -> (started = true -> line <> []) ->
  lines_are (line ++ s) (lines_from line started s).
Proof.
  induction s as [|c r IH]; intros line started N F T; cbn [lines_from].
  - rewrite app_nil_r. destruct started.
    + split; [intros l [<-|[]]; easy|]. right. exists [], line. cbn. repeat split; auto.
    + rewrite (F eq_refl). split; [intros l []|]. left. reflexivity.
  - destruct (Ascii.eqb c newline) eqn:E.
    + apply newline_eqb in E. subst c. destruct (IH [] false ltac:(intros []) ltac:(easy) ltac:(discriminate)) as [A B]. cbn [app] in B.
      split; [intros l [<-|I]; auto|]. destruct B as [B|(first & last & B1 & B2 & B3)].
      * left. unfold ended. cbn [flat_map]. fold (ended (lines_from [] false r)). rewrite <- B, <- app_assoc. reflexivity.
      * right. exists (line :: first), last. rewrite B1. split; [reflexivity|]. split; [easy|]. rewrite B3.
        unfold ended. cbn [flat_map]. rewrite <- !app_assoc. reflexivity.
    + specialize (IH (line ++ [c]) true). rewrite <- app_assoc in IH. apply IH; [|discriminate|destruct line; discriminate].
      intros I. apply in_app_or in I. destruct I as [I|[I|[]]]; [easy|]. apply newline_eqb in I. congruence.
Qed.

(** C100: a file is read as its lines, whatever their ends, *)
Theorem C100_lines : forall s, lines_are s (lines_of (Some s)).
Proof. intros s. apply (lines_from_are s [] false); [intros []|easy|discriminate]. Qed.

(** and only so. *)
Lemma ended_cons : forall l ls, ended (l :: ls) = l ++ newline :: ended ls.
Proof. intros. unfold ended. cbn. now rewrite <- app_assoc. Qed.
Lemma split_newline : forall a b x y, ~ In newline a -> ~ In newline b -> a ++ newline :: x = b ++ newline :: y -> a = b /\ x = y.
Proof.
  induction a as [|c a IH]; intros [|d b] x y A B E; cbn in E.
  - now injection E.
  - injection E as <- _. destruct B. now left.
  - injection E as -> _. destruct A. now left.
  - injection E as <- E. apply IH in E; [|intros I; apply A; now right|intros I; apply B; now right]. destruct E as [-> ->]. easy.
Qed.
Lemma no_newline_in : forall a b x, ~ In newline b -> a ++ newline :: x <> b.
Proof. intros a b x B <-. apply B, in_or_app. right. now left. Qed.

Theorem C100_lines_unique : forall s a b, lines_are s a -> lines_are s b -> a = b.
Proof.
  assert (shape : forall s a, lines_are s a ->
    match a with
    | [] => s = []
    | l :: ls => ~ In newline l /\ ((exists r, s = l ++ newline :: r /\ lines_are r ls) \/ (s = l /\ l <> [] /\ ls = []))
    end).
  { intros s a [N [E|(first & last & -> & L & E)]].
    - destruct a as [|l ls]; [easy|]. split; [apply N; now left|]. left. exists (ended ls). rewrite <- ended_cons. split; [easy|].
      split; [intros x I; apply N; now right|]. now left.
    - destruct first as [|l first]; cbn.
      + split; [apply N; now left|]. right. easy.
      + split; [apply N; now left|]. left. exists (ended first ++ last). rewrite E, ended_cons, <- app_assoc. split; [easy|].
        split; [intros x I; apply N; now right|]. right. now exists first, last. }
  intros s a. revert s. induction a as [|l ls IH]; intros s b A B; apply shape in A; apply shape in B.
  - subst s. destruct b as [|l ls]; [easy|]. destruct B as [_ [(r & E & _)|(E & L & _)]]; [now destruct l|congruence].
  - destruct A as [A HA]. destruct b as [|l' ls'].
    + subst s. destruct HA as [(r & E & _)|(E & L & _)]; [now destruct l|congruence].
    + destruct B as [B HB]. destruct HA as [(r & E & HA)|(E & L & ->)], HB as [(r' & E' & HB)|(E' & L' & ->)]; subst s.
      * apply split_newline in E'; [|easy|easy]. destruct E' as [-> ->]. f_equal. now apply (IH r').
      * exfalso. now apply (no_newline_in l l' r).
      * exfalso. now apply (no_newline_in l' l r').
      * now subst.
Qed.

(** ** Blanks *)

Lemma blank_correct : forall c, blank c = true <-> blank_char c.
Proof.
  intros c. unfold blank, blank_char. split.
  - intros H. destruct c as [[] [] [] [] [] [] [] []]; cbn in *; try discriminate; tauto.
  - intros H. cbn in H. intuition (subst; reflexivity).
Qed.
Lemma blank_false : forall c, blank c = false <-> ~ blank_char c.
Proof. intros c. rewrite <- blank_correct. destruct (blank c); split; intros; try easy; congruence. Qed.

Lemma skip_spec : forall s, exists w, s = w ++ skip_blanks s /\ blanks w /\ (skip_blanks s = [] \/ starts_solid (skip_blanks s)).
Proof.
  induction s as [|c r IH]; cbn [skip_blanks].
  - exists []. split; [easy|]. split; [intros c []|]. now left.
  - destruct (blank c) eqn:B.
    + destruct IH as (w & E & W & H). exists (c :: w). split; [cbn; now rewrite <- E|]. split; [|easy].
      intros x [<-|I]; [now apply blank_correct|now apply W].
    + exists []. split; [easy|]. split; [intros x []|]. right. exists c, r. split; [easy|]. now apply blank_false.
Qed.
Lemma skip_blanks_app : forall w s, blanks w -> skip_blanks (w ++ s) = skip_blanks s.
Proof.
  induction w as [|c w IH]; intros s W; [easy|]. cbn. rewrite (proj2 (blank_correct c)); [|apply W; now left].
  apply IH. intros x I. apply W. now right.
Qed.
Lemma skip_solid : forall s, starts_solid s -> skip_blanks s = s.
Proof. intros s (c & r & -> & B). cbn. apply blank_false in B. now rewrite B. Qed.
Lemma skip_all : forall s, blanks s -> skip_blanks s = [].
Proof. intros s W. rewrite <- (app_nil_r s), skip_blanks_app by easy. reflexivity. Qed.

Lemma take_spec : forall s, s = fst (take_word s) ++ snd (take_word s) /\ (forall c, In c (fst (take_word s)) -> ~ blank_char c) /\
  (snd (take_word s) = [] \/ exists c r, snd (take_word s) = c :: r /\ blank_char c).
Proof.
  induction s as [|c r IH]; cbn [take_word].
  - split; [easy|]. split; [intros x []|]. now left.
  - destruct (blank c) eqn:B.
    + cbn. split; [easy|]. split; [intros x []|]. right. exists c, r. split; [easy|]. now apply blank_correct.
    + destruct (take_word r) as [w l]. cbn in *. destruct IH as (-> & H & K). split; [easy|]. split; [|easy].
      intros x [<-|I]; [now apply blank_false|now apply H].
Qed.
Lemma take_app : forall w r, (forall c, In c w -> ~ blank_char c) -> (r = [] \/ exists c r', r = c :: r' /\ blank_char c) -> take_word (w ++ r) = (w, r).
Proof.
  induction w as [|c w IH]; intros r W R; cbn.
  - destruct R as [->|(c & r' & -> & B)]; [easy|]. cbn. apply blank_correct in B. now rewrite B.
  - rewrite (proj2 (blank_false c)); [|apply W; now left]. rewrite IH; [easy| |easy]. intros x I. apply W. now right.
Qed.

Lemma comment_correct : forall line, is_comment line = false <-> ~ commented line.
Proof.
  intros [|c r]; cbn.
  - split; [intros _ (r & E); discriminate|easy].
  - destruct (Ascii.eqb_spec c hash) as [->|N]; split; intros H; try easy.
    + destruct H. now exists r.
    + intros (r' & E). injection E as ->. easy.
Qed.

Section Readers.
Variable number : text -> dbl * option text.
(** numbers are stored as finite doubles (a number too large is stored as the largest
    double, and the conversion fails) *)
Hypothesis finite_numbers : forall s, is_finite (fst (number s)) = true.

Notation number_at := (number_at number).
Notation image_line := (image_line number).
Notation truth_line := (truth_line number).
Notation association_line := (association_line number).
Notation get_number := (get_number number).

Lemma get_number_at : forall V (f : dbl -> V) old s v r, number_at s v r -> get_number f old (Some s) = (f v, Some r).
Proof.
  intros V f old s v r (w & n & -> & W & Sn & E). unfold TumModel.get_number. rewrite skip_blanks_app, skip_solid by easy.
  destruct n; [destruct Sn as (? & ? & ? & ?); discriminate|]. now rewrite E.
Qed.
Lemma number_get_at : forall V (f : dbl -> V) old s v' r, get_number f old (Some s) = (v', Some r) -> exists v, v' = f v /\ number_at s v r.
Proof.
  intros V f old s v' r E. unfold TumModel.get_number in E. destruct (skip_spec s) as (w & Es & W & H). destruct (skip_blanks s) as [|c t] eqn:K; [discriminate|].
  destruct (number (c :: t)) as [v o] eqn:En. injection E as <- ->. exists v. split; [easy|]. exists w, (c :: t). repeat split; try easy. now destruct H.
Qed.
Lemma get_word_at : forall s w r, word_at s w r -> get_word (Some s) = (w, Some r).
Proof.
  intros s w r (b & -> & B & [N Sw] & R). unfold get_word. rewrite skip_blanks_app by easy.
  destruct w as [|c w]; [easy|]. rewrite skip_solid.
  - cbn [app]. change (c :: w ++ r) with ((c :: w) ++ r). rewrite take_app by easy. reflexivity.
  - exists c, (w ++ r). split; [easy|]. apply Sw. now left.
Qed.
Lemma word_get_at : forall s w st, get_word (Some s) = (w, st) -> w <> [] -> exists r, st = Some r /\ word_at s w r.
Proof.
  intros s w st E N. unfold get_word in E. destruct (skip_spec s) as (b & Es & B & H).
  destruct (skip_blanks s) as [|c t] eqn:K; [injection E as <- <-; easy|].
  pose proof (take_spec (c :: t)) as (T1 & T2 & T3). destruct (take_word (c :: t)) as [w' r]. cbn [fst snd] in *. injection E as <- <-.
  exists r. split; [easy|]. exists b. rewrite <- T1. repeat split; try easy.
Qed.
Lemma get_number_none : forall V (f : dbl -> V) old, get_number f old None = (old, None).
Proof. reflexivity. Qed.

(** what a line of images stores *)
Definition image_entry (line : text) : option (dbl * text) :=
  if is_comment line then None
  else
    let (time, st) := get_number Datatypes.id dzero (Some line) in
    let (path, _) := get_word st in
    if given_path path && dlt dzero time then Some (time, path) else None.
Definition truth_entry (line : text) : option (dbl * raw_pose) :=
  if is_comment line then None
  else let (time, st) := get_number Datatypes.id dzero (Some line) in Some (time, get_cells number 7 st).
Definition store {A} (entry : text -> option (dbl * A)) (m : list (dbl * A)) (line : text) : list (dbl * A) :=
  match entry line with Some (t, v) => try_emplace t v m | None => m end.

Lemma image_step_store : forall m line, image_step number m line = store image_entry m line.
Proof.
  intros m line. unfold image_step, store, image_entry. destruct (is_comment line); [easy|].
  destruct (get_number Datatypes.id dzero (Some line)) as [t st]. destruct (get_word st) as [p st']. now destruct (given_path p && dlt dzero t).
Qed.
Lemma truth_step_store : forall m line, truth_step number m line = store truth_entry m line.
Proof.
  intros m line. unfold truth_step, store, truth_entry. destruct (is_comment line); [easy|].
  now destruct (get_number Datatypes.id dzero (Some line)) as [t st].
Qed.
Lemma fold_ext : forall A B (f g : A -> B -> A) l a, (forall a b, f a b = g a b) -> fold_left f l a = fold_left g l a.
Proof. intros A B f g l. induction l as [|b l IH]; intros a H; cbn; [easy|]. rewrite H. now apply IH. Qed.

(** ** Maps *)

Definition finite_map {A} (m : list (dbl * A)) : Prop :=
  (forall e, In e m -> is_finite (fst e) = true) /\ StronglySorted (fun a b => seconds (fst a) < seconds (fst b)) m.

Lemma try_emplace_in : forall A k (v : A) m e, finite_map m -> is_finite k = true ->
  In e (try_emplace k v m) <-> In e m \/ (e = (k, v) /\ forall e', In e' m -> seconds (fst e') <> seconds k).
Proof.
  intros A k v m e. induction m as [|x m IH]; intros [F S] K; cbn [try_emplace].
  - cbn. intuition (subst; auto). 
  - inversion S as [|? ? S' L]; subst. assert (Fx : is_finite (fst x) = true) by (apply F; now left).
    assert (FM : finite_map m) by (split; [intros y I; apply F; now right|easy]).
    rewrite Forall_forall in L. destruct (dlt k (fst x)) eqn:D1.
    + apply dlt_seconds in D1; [|easy|easy]. cbn [In]. split; [|intros [[H|H]|[-> _]]; auto].
      intros [<-|H]; [right|auto]. split; [easy|]. intros e' [<-|I]; [lra|]. specialize (L e' I). lra.
    + destruct (dlt (fst x) k) eqn:D2.
      * apply dlt_seconds in D2; [|easy|easy]. cbn [In]. rewrite IH by easy. split.
        -- intros [H|[H|[-> H]]]; auto. right. split; [easy|]. intros e' [<-|I]; [lra|now apply H].
        -- intros [[H|H]|[-> H]]; auto. right. right. split; [easy|]. intros e' I. apply H. now right.
      * split; [auto|]. intros [H|[-> H]]; [easy|]. exfalso. apply (H x); [now left|].
        destruct (Rtotal_order (seconds (fst x)) (seconds k)) as [C|[C|C]]; [|easy|].
        -- apply dlt_seconds in C; [congruence|easy|easy].
        -- apply dlt_seconds in C; [congruence|easy|easy].
Qed.
Lemma try_emplace_map : forall A k (v : A) m, finite_map m -> is_finite k = true -> finite_map (try_emplace k v m).
Proof.
  intros A k v m M K. split.
  - intros e I. apply try_emplace_in in I; [|easy|easy]. destruct I as [I|[-> _]]; [now apply M|easy].
  - induction m as [|x m IH]; cbn [try_emplace]; [repeat constructor|]. destruct M as [F S]. inversion S as [|? ? S' L]; subst.
    assert (Fx : is_finite (fst x) = true) by (apply F; now left).
    assert (FM : finite_map m) by (split; [intros y I; apply F; now right|easy]).
    rewrite Forall_forall in L. destruct (dlt k (fst x)) eqn:D1.
    + apply dlt_seconds in D1; [|easy|easy]. constructor; [easy|]. apply Forall_forall. intros y [<-|I]; cbn; [easy|]. specialize (L y I). lra.
    + destruct (dlt (fst x) k) eqn:D2; [|easy]. apply dlt_seconds in D2; [|easy|easy]. constructor; [now apply IH|].
      apply Forall_forall. intros y I. apply try_emplace_in in I; [|easy|easy]. destruct I as [I|[-> _]]; [now apply L|easy].
Qed.
Lemma try_emplace_time : forall A k (v : A) m, finite_map m -> is_finite k = true -> exists e, In e (try_emplace k v m) /\ seconds (fst e) = seconds k.
Proof.
  intros A k v m M K. destruct (Exists_dec (fun e : dbl * A => seconds (fst e) = seconds k) m) as [H|H].
  - intros x. destruct (Req_EM_T (seconds (fst x)) (seconds k)); [now left|now right].
  - apply Exists_exists in H. destruct H as (e & I & E). exists e. split; [|easy]. apply try_emplace_in; auto.
  - exists (k, v). split; [|easy]. apply try_emplace_in; [easy|easy|]. right. split; [easy|]. intros e' I E. apply H. apply Exists_exists. now exists e'.
Qed.

Lemma store_spec : forall A (entry : text -> option (dbl * A)), (forall l t v, entry l = Some (t, v) -> is_finite t = true) ->
  forall lines, let m := fold_left (store entry) lines [] in
  finite_map m /\
  (forall l t v, In l lines -> entry l = Some (t, v) -> exists e, In e m /\ seconds (fst e) = seconds t) /\
  forall t v, In (t, v) m <-> first_with (fun l t v => entry l = Some (t, v)) lines t v.
Proof.
  intros A entry F lines. cbv zeta. induction lines as [|line lines IH] using rev_ind.
  - cbn. split; [split; [intros e []|constructor]|]. split; [intros l t v []|]. intros t v. split; [intros []|].
    intros (before & line & after & E & _). now destruct before.
  - rewrite fold_left_app. cbn [fold_left]. set (m := fold_left (store entry) lines []) in *. destruct IH as (M & P & Q).
    clearbody m. unfold store. destruct (entry line) as [[k w]|] eqn:E.
    + assert (K : is_finite k = true) by now apply (F line k w). split; [now apply try_emplace_map|]. split.
      * intros l t v I H. apply in_app_or in I. destruct I as [I|[<-|[]]].
        -- destruct (P l t v I H) as (e & Ie & Ee). exists e. split; [|easy]. apply try_emplace_in; auto.
        -- rewrite E in H. injection H as <- <-. now apply try_emplace_time.
      * intros t v. rewrite try_emplace_in by easy. rewrite Q. split.
        -- intros [(before & l & after & -> & H & N)|[H N]].
           ++ exists before, l, (after ++ [line]). rewrite <- app_assoc. easy.
           ++ injection H as -> ->. exists lines, line, []. split; [easy|]. split; [easy|].
              intros l' t' v' I' H'. destruct (P l' t' v' I' H') as (e & Ie & Ee). rewrite <- Ee. now apply N.
        -- intros (before & l & after & El & H & N). destruct after as [|x after] using rev_ind.
           ++ apply app_inj_tail in El. destruct El as [-> ->]. rewrite E in H. injection H as -> ->. right. split; [easy|].
              intros [t' v'] I' Et. apply Q in I'. destruct I' as (b & l' & a & -> & H' & _). apply (N l' t' v'); [|easy|easy]. apply in_or_app. right. now left.
           ++ clear IHafter. rewrite app_comm_cons, app_assoc in El. apply app_inj_tail in El. destruct El as [-> ->]. left. now exists before, l, after.
    + split; [easy|]. split.
      * intros l t v I H. apply in_app_or in I. destruct I as [I|[<-|[]]]; [now apply (P l t v)|congruence].
      * intros t v. rewrite Q. split.
        -- intros (before & l & after & -> & H & N). exists before, l, (after ++ [line]). rewrite <- app_assoc. easy.
        -- intros (before & l & after & El & H & N). destruct after as [|x after] using rev_ind.
           ++ apply app_inj_tail in El. destruct El as [-> ->]. congruence.
           ++ clear IHafter. rewrite app_comm_cons, app_assoc in El. apply app_inj_tail in El. destruct El as [-> ->]. now exists before, l, after.
Qed.

Lemma finite_number_at : forall s v r, number_at s v r -> is_finite v = true.
Proof. intros s v r (w & n & _ & _ & _ & E). specialize (finite_numbers n). now rewrite E in finite_numbers. Qed.
Lemma zero_seconds : seconds dzero = 0.
Proof. reflexivity. Qed.

Lemma image_entry_spec : forall line t p, image_entry line = Some (t, p) <-> image_line line t p /\ 0 < seconds t.
Proof.
  intros line t p. unfold image_entry. split.
  - destruct (is_comment line) eqn:C; [discriminate|]. apply comment_correct in C.
    destruct (get_number Datatypes.id dzero (Some line)) as [time st] eqn:E1. destruct st as [r1|].
    + apply number_get_at in E1. destruct E1 as (v & -> & N1). destruct (get_word (Some r1)) as [path st] eqn:E2. unfold Datatypes.id in *.
      destruct (given_path path) eqn:G; [|discriminate]. cbn [andb]. destruct (dlt dzero v) eqn:D; [|discriminate]. intros H. injection H as -> ->.
      apply dlt_seconds in D; [|easy|now apply finite_number_at in N1]. rewrite zero_seconds in D.
      apply word_get_at in E2; [|intros ->; discriminate]. destruct E2 as (r2 & -> & W). split; [|easy]. split; [easy|]. now exists r1, r2.
    + cbn. discriminate.
  - intros ((C & r1 & r2 & N & W) & P). apply comment_correct in C. rewrite C, (get_number_at _ _ _ _ _ _ N), (get_word_at _ _ _ W).
    unfold Datatypes.id. destruct W as (b & _ & _ & [Ne _] & _). destruct p; [easy|]. cbn [given_path andb].
    assert (D : dlt dzero t = true). { apply dlt_seconds; [easy|now apply finite_number_at in N|]. now rewrite zero_seconds. } now rewrite D.
Qed.

Lemma first_with_ext : forall V (P Q : text -> dbl -> V -> Prop) lines t v, (forall l t v, P l t v <-> Q l t v) ->
  first_with P lines t v -> first_with Q lines t v.
Proof.
  intros V P Q lines t v H (b & l & a & E & Hl & N). exists b, l, a. split; [easy|]. split; [now apply H|].
  intros l' t' v' I Hq. apply (N l' t' v'); [easy|]. now apply H.
Qed.

(** the images of a file are those of its lines, the first line with a time stamp being
    kept; the lines with no positive time stamp or no path, and the comments, do not count *)
Theorem C100_images : forall file t p,
  In (t, p) (parse_file number file) <->
  first_with (fun line t p => image_line line t p /\ 0 < seconds t) (lines_of file) t p.
Proof.
  intros file t p. unfold parse_file. rewrite (fold_ext _ _ _ (store image_entry)) by apply image_step_store.
  destruct (store_spec _ image_entry) with (lines := lines_of file) as (_ & _ & Q).
  - intros l t' v H. apply image_entry_spec in H. destruct H as ((_ & r1 & r2 & N & _) & _). now apply finite_number_at in N.
  - rewrite Q. split; apply first_with_ext; intros l t' v; [apply image_entry_spec|symmetry; apply image_entry_spec].
Qed.

(** they are stored by increasing times: what the association of the images needs *)
Theorem C100_image_map : forall file, time_map (parse_file number file).
Proof.
  intros file. split.
  - intros [t p] I. apply C100_images in I. destruct I as (b & l & a & _ & ((_ & r1 & r2 & N & _) & P) & _). cbn. split; [now apply finite_number_at in N|easy].
  - unfold parse_file. rewrite (fold_ext _ _ _ (store image_entry)) by apply image_step_store. apply (store_spec _ image_entry).
    intros l t' v H. apply image_entry_spec in H. destruct H as ((_ & r1 & r2 & N & _) & _). now apply finite_number_at in N.
Qed.

(** a file that cannot be opened has no image *)
Theorem C100_no_file : parse_file number None = [] /\ parse_ground_truth number None = [] /\
  forall junk truths, parse_association_file number junk None truths = [].
Proof. easy. Qed.

(** ** Ground truth *)

Lemma get_cells_none : forall n, get_cells number n None = repeat None n.
Proof. induction n; cbn; [easy|]. now f_equal. Qed.
Lemma cells_hold : forall n s, holds number n s (get_cells number n (Some s)).
Proof.
  induction n as [|n IH]; intros s; [constructor|]. cbn [get_cells]. destruct (get_number Some None (Some s)) as [c st] eqn:E. destruct st as [r|].
  - apply number_get_at in E. destruct E as (v & -> & N). eapply holds_read; [exact N|apply IH].
  - rewrite get_cells_none. unfold TumModel.get_number in E. destruct (skip_spec s) as (w & Es & W & H). destruct (skip_blanks s) as [|x t] eqn:K.
    + injection E as <-. rewrite app_nil_r in Es. subst w. apply (holds_end number (S n) s W).
    + destruct (number (x :: t)) as [v o] eqn:En. injection E as <- ->. rewrite Es. destruct H as [H|H]; [discriminate|]. now apply holds_failed.
Qed.
Lemma number_at_unique : forall s v r v' r', number_at s v r -> number_at s v' r' -> v = v' /\ r = r'.
Proof.
  intros s v r v' r' A B. pose proof (get_number_at _ Datatypes.id dzero _ _ _ A) as E. rewrite (get_number_at _ Datatypes.id dzero _ _ _ B) in E. unfold Datatypes.id in E. now injection E.
Qed.
Lemma blanks_solid : forall w s, starts_solid s -> ~ blanks (w ++ s).
Proof. intros w s (c & r & -> & N) B. apply N, B, in_or_app. right. now left. Qed.
Lemma holds_unique : forall n s vs, holds number n s vs -> vs = get_cells number n (Some s).
Proof.
  intros n s vs H. induction H as [s|n s B|n w s v B S E|n s v r vs N H IH].
  - reflexivity.
  - destruct n; [easy|]. cbn [get_cells repeat]. unfold TumModel.get_number. rewrite skip_all by easy. now rewrite get_cells_none.
  - cbn [get_cells]. unfold TumModel.get_number. rewrite skip_blanks_app, skip_solid by easy. destruct s; [now destruct S as (? & ? & ? & ?)|].
    rewrite E. now rewrite get_cells_none.
  - cbn [get_cells]. rewrite (get_number_at _ _ _ _ _ _ N). now rewrite <- IH.
Qed.

Lemma truth_entry_spec : forall line t pose, truth_entry line = Some (t, pose) <-> truth_line line t pose.
Proof.
  intros line t pose. unfold truth_entry, TumSpec.truth_line. rewrite <- comment_correct. destruct (is_comment line); [split; [discriminate|now intros []]|].
  destruct (get_number Datatypes.id dzero (Some line)) as [time st] eqn:E.
  assert (G : exists first, get_cells number 8 (Some line) = first :: get_cells number 7 st /\ time = match first with Some v => v | None => dzero end).
  { change (get_cells number 8 (Some line)) with (let (c, st') := get_number Some None (Some line) in c :: get_cells number 7 st').
    unfold TumModel.get_number in *. destruct (skip_blanks line); [injection E as <- <-; now exists None|].
    destruct (number (a :: l)) as [v o]. injection E as <- <-. now exists (Some v). }
  destruct G as (first & G & ->). set (cells := get_cells number 7 st) in *. clearbody cells. split.
  - intros H. injection H as <- <-. split; [easy|]. exists first. split; [|easy]. rewrite <- G. apply cells_hold.
  - intros (_ & f & H & ->). apply holds_unique in H. rewrite G in H. injection H as -> ->. easy.
Qed.
Lemma truth_entry_finite : forall line t pose, truth_entry line = Some (t, pose) -> is_finite t = true.
Proof.
  intros line t pose. unfold truth_entry. destruct (is_comment line); [discriminate|]. destruct (get_number Datatypes.id dzero (Some line)) as [time st] eqn:E.
  intros H. injection H as <- _. unfold TumModel.get_number in E. destruct (skip_blanks line) as [|c r]; [now injection E as <- _|].
  pose proof (finite_numbers (c :: r)) as Fn. destruct (number (c :: r)). now injection E as <- _.
Qed.

(** every line that is not a comment gives a pose, the first line with a time being kept:
    the numbers that are missing are a time of 0 and indeterminate components *)
Theorem C100_ground_truth : forall file t pose,
  In (t, pose) (parse_ground_truth number file) <-> first_with truth_line (lines_of file) t pose.
Proof.
  intros file t pose. unfold parse_ground_truth. rewrite (fold_ext _ _ _ (store truth_entry)) by apply truth_step_store.
  destruct (store_spec _ truth_entry truth_entry_finite (lines_of file)) as (_ & _ & Q).
  rewrite Q. split; apply first_with_ext; intros l t' v; [apply truth_entry_spec|symmetry; apply truth_entry_spec].
Qed.
Lemma truth_map : forall file, finite_map (parse_ground_truth number file).
Proof.
  intros file. unfold parse_ground_truth. rewrite (fold_ext _ _ _ (store truth_entry)) by apply truth_step_store.
  apply (store_spec _ truth_entry truth_entry_finite).
Qed.

(** a line with its eight numbers gives them *)
Lemma complete_holds : forall vs n s, (fix read (s : text) (vs : list dbl) : Prop :=
     match vs with [] => True | v :: vs => exists r, number_at s v r /\ read r vs end) s vs -> n = length vs -> holds number n s (map Some vs).
Proof.
  induction vs as [|v vs IH]; intros n s H ->; [constructor|]. destruct H as (r & N & H). cbn. eapply holds_read; [exact N|]. now apply IH.
Qed.
Theorem C100_complete_lines : forall line values, ~ commented line -> complete_line number line values ->
  exists time pose, values = time :: pose /\ forall t p, truth_line line t p <-> t = time /\ p = map Some pose.
Proof.
  intros line values C (L & H). pose proof (complete_holds values 8 line H (eq_sym L)) as K. destruct values as [|time pose]; [discriminate|].
  exists time, pose. split; [easy|]. cbn [map] in K. intros t p. split.
  - intros (_ & f & H' & ->). apply holds_unique in H'. apply holds_unique in K. rewrite <- K in H'. now injection H' as -> ->.
  - intros [-> ->]. split; [easy|]. now exists (Some time).
Qed.

(** ** Association files *)

Lemma association_step_spec : forall junk truths line,
  match association_step number junk truths line with
  | [] => forall depth rgb, ~ association_line line depth rgb
  | [f] => association_line line (f_depth f) (f_rgb f) /\ f_truth f = find_key (fst (f_rgb f)) truths
  | _ => False
  end.
Proof.
  intros junk truths line. unfold association_step. destruct (is_comment line) eqn:C.
  - intros depth rgb (N & _). apply comment_correct in N. congruence.
  - assert (Hall : forall depth rgb, association_line line depth rgb -> 
      (let (dt, st1) := get_number Datatypes.id (fst junk) (Some line) in
       let (dp, st2) := get_word st1 in
       let (rt, st3) := get_number Datatypes.id (snd junk) st2 in
       let (rp, _) := get_word st3 in (given_path dp && given_path rp) = true)).
    { intros depth rgb (_ & r1 & r2 & r3 & r4 & N1 & W1 & N2 & W2). rewrite (get_number_at _ _ _ _ _ _ N1), (get_word_at _ _ _ W1), (get_number_at _ _ _ _ _ _ N2), (get_word_at _ _ _ W2).
      destruct W1 as (b1 & _ & _ & [Ne1 _] & _). destruct W2 as (b2 & _ & _ & [Ne2 _] & _). now destruct (snd depth), (snd rgb). }
    destruct (get_number Datatypes.id (fst junk) (Some line)) as [dt st1] eqn:E1. destruct (get_word st1) as [dp st2] eqn:E2.
    destruct (get_number Datatypes.id (snd junk) st2) as [rt st3] eqn:E3. destruct (get_word st3) as [rp st4] eqn:E4.
    destruct (given_path dp) eqn:G1; [|intros d r H; specialize (Hall d r H); discriminate].
    destruct (given_path rp) eqn:G2; [|intros d r H; specialize (Hall d r H); discriminate]. clear Hall. cbn [andb f_depth f_rgb f_truth fst].
    split; [|easy]. split; [now apply comment_correct|].
    destruct st1 as [r1|]; [|injection E2 as <- _; discriminate]. apply number_get_at in E1. destruct E1 as (v1 & -> & N1).
    apply word_get_at in E2; [|intros ->; discriminate]. destruct E2 as (r2 & -> & W1).
    destruct st3 as [r3|]; [|injection E4 as <- _; discriminate]. apply number_get_at in E3. destruct E3 as (v2 & -> & N2).
    apply word_get_at in E4; [|intros ->; discriminate]. destruct E4 as (r4 & -> & W2). now exists r1, r2, r3, r4.
Qed.

Lemma find_key_at : forall V (m : list (dbl * V)) t, finite_map m -> is_finite t = true -> pose_at m t (find_key t m).
Proof.
  intros V m t [F S] Ft. assert (Hs : forall e, In e m -> (same_key (fst e) t = true <-> seconds (fst e) = seconds t)).
  { intros e I. pose proof (F e I) as Fe. unfold same_key. rewrite andb_true_iff, !negb_true_iff, <- !not_true_iff_false, !dlt_seconds by easy. lra. }
  unfold find_key, pose_at. destruct (find _ m) as [e|] eqn:E.
  - apply find_some in E. destruct E as [I E]. split; [easy|]. now apply Hs.
  - intros e I Et. pose proof (find_none _ _ E e I) as H. cbv beta in H. rewrite (proj2 (Hs e I) Et) in H. discriminate.
Qed.

(** an association file gives one frame for each line with two images, in their order, with
    the pose recorded at exactly the time of its RGB image *)
Theorem C100_associations : forall junk s truths,
  frames_are number (parse_ground_truth number truths) (lines_of (Some s)) (parse_association_file number junk (Some s) truths).
Proof.
  intros junk s truths. unfold parse_association_file. induction (lines_of (Some s)) as [|line lines IH]; [constructor|]. cbn [flat_map].
  pose proof (association_step_spec junk (parse_ground_truth number truths) line) as H.
  destruct (association_step number junk (parse_ground_truth number truths) line) as [|f [|? ?]]; [|cbn [app]|easy].
  - now apply frames_skip.
  - destruct H as [A T]. destruct f as [rgb depth pose]. cbn [f_rgb f_depth f_truth] in *. subst pose. apply frames_keep; [easy| |easy].
    apply find_key_at; [apply truth_map|]. destruct A as (_ & ? & ? & ? & ? & _ & _ & N & _). now apply finite_number_at in N.
Qed.

(** what is not initialised is not used *)
Theorem C100_no_junk : forall junk junk' s truths, parse_association_file number junk s truths = parse_association_file number junk' s truths.
Proof.
  intros junk junk' [s|] truths; [|easy]. unfold parse_association_file. induction (lines_of (Some s)) as [|line lines IH]; [easy|]. cbn [flat_map].
  rewrite IH. f_equal. unfold association_step. destruct (is_comment line); [easy|].
  assert (J : forall st o o', match get_number Datatypes.id o st, get_number Datatypes.id o' st with (a, Some r), (a', Some r') => a = a' /\ r = r' | (_, None), (_, None) => True | _, _ => False end).
  { intros [t|] o o'; [|easy]. unfold TumModel.get_number. destruct (skip_blanks t); [easy|]. destruct (number _) as [v [r|]]; easy. }
  pose proof (J (Some line) (fst junk) (fst junk')) as J1. destruct (get_number Datatypes.id (fst junk) (Some line)) as [a [r|]], (get_number Datatypes.id (fst junk') (Some line)) as [a' [r'|]]; try easy.
  destruct J1 as [<- <-]. destruct (get_word (Some r)) as [dp st2]. pose proof (J st2 (snd junk) (snd junk')) as J2.
  destruct (get_number Datatypes.id (snd junk) st2) as [b [q|]], (get_number Datatypes.id (snd junk') st2) as [b' [q'|]]; try easy; [destruct J2 as [<- <-]; easy|].
  cbn. now rewrite !andb_false_r.
Qed.

(** ** The whole dataset *)

(** without an association file, every RGB image of the list is in exactly one frame, and a
    depth image of the list is in at most one frame and within 0.15 s of its RGB image *)
Theorem C100_dataset : forall junk order arrange rgb depth truths,
  sorted_candidates (parse_file number rgb) (parse_file number depth) order ->
  (forall l, Permutation (arrange l) l) ->
  exists frames, get_data_association number junk order arrange None rgb depth truths = inr frames /\
    Permutation (map (fun f => d_rgb (fst f)) frames) (parse_file number rgb) /\
    (exists unused, Permutation (depths_of (map fst frames) ++ unused) (parse_file number depth)) /\
    (forall f d, In f frames -> d_depth (fst f) = Some d -> Rabs (seconds (fst (d_rgb (fst f))) - seconds (fst d)) < 15 / 100).
Proof.
  intros junk order arrange rgb depth truths O A. exists (parse_dataset number order arrange rgb depth truths). split; [reflexivity|].
  unfold parse_dataset. set (frames := arrange _). assert (P : Permutation frames (associate order (parse_file number rgb) (parse_file number depth))) by apply A.
  clearbody frames. set (ts := attach _ frames).
  assert (L : length ts = length frames).
  { subst ts. generalize (parse_ground_truth number truths). clear. induction frames as [|f frames IH]; intros m; [easy|]. cbn [attach].
    destruct (closest _ _ _ _ m) as [[g|] s]; [destruct (dlt s dmax)|]; cbn [length]; f_equal; apply IH. }
  clearbody ts. assert (M : map fst (combine frames ts) = frames).
  { revert ts L. clear. induction frames as [|f frames IH]; intros [|t ts] L; try easy. cbn. rewrite IH; [easy|]. now injection L. }
  pose proof (C100_image_map rgb) as R. pose proof (C100_image_map depth) as D.
  split; [|split].
  - rewrite <- (map_map fst d_rgb), M. rewrite P. now apply C42_every_rgb_once.
  - rewrite M. destruct (C42_depth_at_most_once _ _ _ R D O) as (u & U). exists u. rewrite <- U. apply Permutation_app_tail. unfold depths_of.
    now apply Permutation_flat_map.
  - intros f d I E. assert (If : In (fst f) frames) by (rewrite <- M; now apply in_map). apply (Permutation_in _ P) in If.
    now destruct (C42_paired_images_are_close _ _ _ _ d R D O If E).
Qed.
(** a pose given to a frame is one of the list, less than 0.05 s away (rounded to a double),
    when the times of the list are positive *)
Theorem C100_poses : forall order arrange rgb depth truths f g,
  sorted_candidates (parse_file number rgb) (parse_file number depth) order ->
  (forall l, Permutation (arrange l) l) ->
  (forall line t p, In line (lines_of truths) -> truth_line line t p -> 0 < seconds t) ->
  In (f, Some g) (parse_dataset number order arrange rgb depth truths) ->
  In g (parse_ground_truth number truths) /\ Rabs (seconds (fst (d_rgb f)) - seconds (fst g)) < seconds max_ground_truth_difference.
Proof.
  intros order arrange rgb depth truths f g O A T I. unfold parse_dataset in I. cbv zeta in I.
  assert (P := A (associate order (parse_file number rgb) (parse_file number depth))). set (frames := arrange _) in *. clearbody frames.
  assert (M : time_map (parse_ground_truth number truths)).
  { destruct (truth_map truths) as [F S]. split; [|easy]. intros [t p] J. split; [now apply F|]. apply C100_ground_truth in J.
    destruct J as (b & l & a & E & L & _). apply (T l t p); [|easy]. rewrite E. apply in_or_app. right. now left. }
  assert (Tf : forall x, In x frames -> time_stamp (fst (d_rgb x))).
  { intros x J. apply (Permutation_in _ P) in J. apply (C100_image_map rgb). apply (Permutation_in _ (C42_every_rgb_once _ _ _ (C100_image_map rgb) (C100_image_map depth) O)). now apply in_map. }
  apply In_nth_error in I. destruct I as (k & E).
  assert (N : nth_error frames k = Some f /\ nth_error (attach (parse_ground_truth number truths) frames) k = Some (Some g)).
  { revert E. generalize (attach (parse_ground_truth number truths) frames). clear. revert frames. induction k as [|k IH]; intros [|x frames] [|y ts] E; try discriminate; cbn in *.
    - now injection E as -> ->.
    - now apply IH. }
  destruct N as [N1 N2]. now apply C64_attached_is_close with (frames := frames) (k := k).
Qed.
(** and an association file is preferred *)
Theorem C100_association_first : forall junk order arrange s rgb depth truths,
  get_data_association number junk order arrange (Some s) rgb depth truths = inl (parse_association_file number junk (Some s) truths).
Proof. reflexivity. Qed.
End Readers.

(** ** Poses that are not in the file *)

(** an empty line is a pose at the time 0 whose components are indeterminate *)
Theorem C100_empty_line_refuted : forall number,
  parse_ground_truth number (Some [newline]) = [(dzero, repeat None 7)].
Proof. reflexivity. Qed.

(** numbers of one digit *)
Definition digit_number (s : text) : dbl * option text :=
  match s with
  | c :: r => let n := nat_of_ascii c in if Nat.leb 48 n && Nat.leb n 57 then (d_of_Z (Z.of_nat (n - 48)), Some r) else (dzero, None)
  | [] => (dzero, None)
  end.
Lemma digit_number_finite : forall s, is_finite (fst (digit_number s)) = true.
Proof.
  intros [|c r]; [easy|]. destruct c as [[] [] [] [] [] [] [] []]; vm_compute; reflexivity.
Qed.
From Coq Require Import String.
Definition txt (s : string) : text := list_ascii_of_string s.

(** a line cut after its time gives a frame a pose, marked valid, that no one wrote *)
Theorem C100_cut_line_refuted : exists number, (forall s, is_finite (fst (number s)) = true) /\
  exists associations truths frame, forall junk,
    parse_association_file number junk (Some associations) (Some truths) = [frame] /\
    f_truth frame = Some (d_of_Z 7, repeat None 7).
Proof.
  exists digit_number. split; [apply digit_number_finite|].
  exists (txt "8 d/8.png 7 r/7.png"), (txt "7"), (mkFrame (d_of_Z 7, txt "r/7.png") (d_of_Z 8, txt "d/8.png") (Some (d_of_Z 7, repeat None 7))).
  intros junk. split; reflexivity.
Qed.

(** ** Examples *)

Definition nl : string := String newline "".
Definition rgb_file : text := txt ("# rgb" ++ nl ++ "3 r/3.png" ++ nl ++ "  1 r/1.png  " ++ nl ++ nl ++ "3 r/again.png" ++ nl ++ "0 r/0.png" ++ nl ++ "x" ++ nl ++ "5 r/5.png")%string.
Example images_example : parse_file digit_number (Some rgb_file) =
  [(d_of_Z 1, txt "r/1.png"); (d_of_Z 3, txt "r/3.png"); (d_of_Z 5, txt "r/5.png")].
Proof. reflexivity. Qed.
Example lines_example : lines_of (Some rgb_file) =
  [txt "# rgb"; txt "3 r/3.png"; txt "  1 r/1.png  "; []; txt "3 r/again.png"; txt "0 r/0.png"; txt "x"; txt "5 r/5.png"].
Proof. reflexivity. Qed.
Example truths_example : parse_ground_truth digit_number (Some (txt ("3 1 2 3 4 5 6 7" ++ nl ++ "2 9 9 9 9 9 9 9 ")%string)) =
  [(d_of_Z 2, repeat (Some (d_of_Z 9)) 7); (d_of_Z 3, map (fun z => Some (d_of_Z z)) [1; 2; 3; 4; 5; 6; 7]%Z)].
Proof. reflexivity. Qed.
Example associations_example : forall junk, parse_association_file digit_number junk
    (Some (txt ("# a comment" ++ nl ++ "4 d/4.png 3 r/3.png" ++ nl ++ "4 d/4.png 3" ++ nl ++ "1 d/1.png 1 r/1.png")%string))
    (Some (txt "3 1 2 3 4 5 6 7")) =
  [mkFrame (d_of_Z 3, txt "r/3.png") (d_of_Z 4, txt "d/4.png") (Some (d_of_Z 3, map (fun z => Some (d_of_Z z)) [1; 2; 3; 4; 5; 6; 7]%Z));
   mkFrame (d_of_Z 1, txt "r/1.png") (d_of_Z 1, txt "d/1.png") None].
Proof. intros junk. reflexivity. Qed.
(** the hypothesis of [C100_dataset] is met: with one depth image, one candidate *)
Example dataset_example : let depth_file := txt "3 d/3.png" in
  sorted_candidates (parse_file digit_number (Some rgb_file)) (parse_file digit_number (Some depth_file)) [(d_of_Z 3, d_of_Z 3)] /\
  map (fun f => d_rgb (fst f)) (parse_dataset digit_number [(d_of_Z 3, d_of_Z 3)] (fun l => l) (Some rgb_file) (Some depth_file) None) =
    [(d_of_Z 3, txt "r/3.png"); (d_of_Z 1, txt "r/1.png"); (d_of_Z 5, txt "r/5.png")].
Proof.
  split; [|reflexivity]. split; [|repeat constructor].
  assert (E : candidates (parse_file digit_number (Some rgb_file)) (parse_file digit_number (Some (txt "3 d/3.png"))) = [(d_of_Z 3, d_of_Z 3)]) by reflexivity.
  rewrite E. apply Permutation_refl.
Qed.

Print Assumptions C100_lines.
Print Assumptions C100_lines_unique.
Print Assumptions C100_images.
Print Assumptions C100_image_map.
Print Assumptions C100_no_file.
Print Assumptions C100_ground_truth.
Print Assumptions C100_complete_lines.
Print Assumptions C100_associations.
Print Assumptions C100_no_junk.
Print Assumptions C100_dataset.
Print Assumptions C100_poses.
Print Assumptions C100_association_first.
Print Assumptions C100_empty_line_refuted.
Print Assumptions C100_cut_line_refuted.

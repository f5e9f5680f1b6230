(** Vocabulary of the property C100: the text files of a dataset. *)
From Coq Require Import Reals.
From Verif Require Import TumModel AssociationSpec.

(** the blank characters: space, tabulation, line feed, vertical tabulation, form feed,
    carriage return *)
Definition blank_char (c : ascii) : Prop := In c [" "; "009"; "010"; "011"; "012"; "013"]%char.
Definition blanks (s : text) : Prop := forall c, In c s -> blank_char c.
Definition solid (s : text) : Prop := s <> [] /\ forall c, In c s -> ~ blank_char c.
Definition starts_solid (s : text) : Prop := exists c r, s = c :: r /\ ~ blank_char c.

(** the lines of a file: each ends with a line feed, except maybe the last *)
Definition ended (lines : list text) : text := flat_map (fun l => l ++ [newline]) lines.
Definition lines_are (file : text) (lines : list text) : Prop :=
  (forall l, In l lines -> ~ In newline l) /\
  (file = ended lines \/ exists first last, lines = first ++ [last] /\ last <> [] /\ file = ended first ++ last).

Definition commented (line : text) : Prop := exists r, line = hash :: r.

Section Lines.
Variable number : text -> dbl * option text.

(** after blanks, a number *)
Definition number_at (s : text) (v : dbl) (rest : text) : Prop :=
  exists w n, s = w ++ n /\ blanks w /\ starts_solid n /\ number n = (v, Some rest).
(** after blanks, a word, up to a blank or the end *)
Definition word_at (s word rest : text) : Prop :=
  exists w, s = w ++ word ++ rest /\ blanks w /\ solid word /\ (rest = [] \/ exists c r, rest = c :: r /\ blank_char c).

(** a line that names an image: a time stamp, a path, and anything *)
Definition image_line (line : text) (time : dbl) (path : text) : Prop :=
  ~ commented line /\ exists r1 r2, number_at line time r1 /\ word_at r1 path r2.

(** a line that names a depth image and an RGB image *)
Definition association_line (line : text) (depth rgb : dbl * text) : Prop :=
  ~ commented line /\ exists r1 r2 r3 r4,
    number_at line (fst depth) r1 /\ word_at r1 (snd depth) r2 /\ number_at r2 (fst rgb) r3 /\ word_at r3 (snd rgb) r4.

(** what [n] variables hold after reading [n] numbers: those after the first number that
    cannot be read hold what they held; that one holds what the conversion leaves in it *)
Inductive holds : nat -> text -> list (option dbl) -> Prop :=
| holds_done : forall s, holds 0 s []
| holds_end : forall n s, blanks s -> holds n s (repeat None n)
| holds_failed : forall n w s v, blanks w -> starts_solid s -> number s = (v, None) -> holds (S n) (w ++ s) (Some v :: repeat None n)
| holds_read : forall n s v r vs, number_at s v r -> holds n r vs -> holds (S n) s (Some v :: vs).

(** what the code stores for a line of the ground truth *)
Definition truth_line (line : text) (time : dbl) (pose : raw_pose) : Prop :=
  ~ commented line /\ exists first, holds 8 line (first :: pose) /\
    time = match first with Some v => v | None => dzero end.

(** a line with its eight numbers *)
Definition complete_line (line : text) (values : list dbl) : Prop := length values = 8 /\ 
  (fix read (s : text) (vs : list dbl) : Prop :=
     match vs with [] => True | v :: vs => exists r, number_at s v r /\ read r vs end) line values.

(** an element of a list of lines is the first one with its time *)
Definition first_with {V} (line_is : text -> dbl -> V -> Prop) (lines : list text) (time : dbl) (v : V) : Prop :=
  exists before line after, lines = before ++ line :: after /\ line_is line time v /\
    forall l' t' v', In l' before -> line_is l' t' v' -> seconds t' <> seconds time.

(** the pose recorded at exactly a time *)
Definition pose_at {V} (truths : list (dbl * V)) (time : dbl) (found : option (dbl * V)) : Prop :=
  match found with
  | Some e => In e truths /\ seconds (fst e) = seconds time
  | None => forall e, In e truths -> seconds (fst e) <> seconds time
  end.

(** the frames of the lines of an association file *)
Inductive frames_are (truths : list (dbl * raw_pose)) : list text -> list frame -> Prop :=
| frames_none : frames_are truths [] []
| frames_skip : forall line lines frames, (forall depth rgb, ~ association_line line depth rgb) ->
    frames_are truths lines frames -> frames_are truths (line :: lines) frames
| frames_keep : forall line lines frames depth rgb pose, association_line line depth rgb -> pose_at truths (fst rgb) pose ->
    frames_are truths lines frames -> frames_are truths (line :: lines) (mkFrame rgb depth pose :: frames).
End Lines.

(** Model of the readers of the text files of a TUM dataset.
    Source: /repo/examples/TUM_parser.hpp, /repo/examples/main_TUM.cpp:90-126.
    A file is [None] when it cannot be opened, or its characters. A stream on a line is the
    characters left, or [None] once its fail bit is set. Time stamps are IEEE doubles.
    Oracle: the conversion of characters to a number by [std::istream], given the text from
    its first character that is not blank: the value it stores, and the text left, or [None]
    when it fails. Not modelled: reading errors of the disk, the messages. *)
From Coq Require Export Ascii.
From Verif Require Export AssociationModel.
From Flocq Require IEEE754.BinarySingleNaN.

Notation text := (list ascii).
Definition newline : ascii := "010".
Definition hash : ascii := "#".

(** successive calls of [std::getline], TUM_parser.hpp:75,120,143: a last line may have no
    end, and there is no line after the last end *)
Fixpoint lines_from (line : text) (started : bool) (s : text) : list text :=
  match s with
  | [] => if started then [line] else []
  | c :: r => if Ascii.eqb c newline then line :: lines_from [] false r else lines_from (line ++ [c]) true r
  end.
Definition lines_of (file : option text) : list text :=
  match file with None => [] | Some s => lines_from [] false s end.

(** [line[0] == '#'], TUM_parser.hpp:77,122,145 (the first character of an empty line is the
    null character) *)
Definition is_comment (line : text) : bool :=
  match line with [] => false | c :: _ => Ascii.eqb c hash end.

(** [std::isspace] in the classic locale *)
Definition blank (c : ascii) : bool :=
  Ascii.eqb c " " || (Nat.leb 9 (nat_of_ascii c) && Nat.leb (nat_of_ascii c) 13).
(** the sentry of [operator>>] *)
Fixpoint skip_blanks (s : text) : text :=
  match s with [] => [] | c :: r => if blank c then skip_blanks r else s end.
Fixpoint take_word (s : text) : text * text :=
  match s with
  | [] => ([], [])
  | c :: r => if blank c then ([], s) else let (w, l) := take_word r in (c :: w, l)
  end.

Section Readers.
Variable number : text -> dbl * option text.

(** [operator>>(double&)]: the object keeps its value when there is nothing to read *)
Definition get_number {V} (inject : dbl -> V) (old : V) (st : option text) : V * option text :=
  match st with
  | None => (old, None)
  | Some s => match skip_blanks s with [] => (old, None) | s' => let (v, r) := number s' in (inject v, r) end
  end.
(** [operator>>(std::string&)] on an empty string *)
Definition get_word (st : option text) : text * option text :=
  match st with
  | None => ([], None)
  | Some s => match skip_blanks s with [] => ([], None) | s' => let (w, r) := take_word s' in (w, Some r) end
  end.

(** [std::map::try_emplace] *)
Fixpoint try_emplace {A} (key : dbl) (v : A) (m : list (dbl * A)) : list (dbl * A) :=
  match m with
  | [] => [(key, v)]
  | e :: r => if dlt key (fst e) then (key, v) :: m else if dlt (fst e) key then e :: try_emplace key v r else m
  end.

(** [path != ""] *)
Definition given_path (p : text) : bool := match p with [] => false | _ => true end.

(** a line of [parse_file], TUM_parser.hpp:145-157 *)
Definition image_step (m : list (dbl * text)) (line : text) : list (dbl * text) :=
  if is_comment line then m
  else
    let (time, st) := get_number id dzero (Some line) in
    let (path, _) := get_word st in
    if given_path path && dlt dzero time then try_emplace time path m else m.
(** [parse_file], TUM_parser.hpp:138-160 *)
Definition parse_file (file : option text) : list (dbl * text) := fold_left image_step (lines_of file) [].

(** the components of a pose, in their order in a line (position, then x, y, z, w of the
    rotation); [None] is an indeterminate value *)
Definition raw_pose := list (option dbl).
Fixpoint get_cells (n : nat) (st : option text) : raw_pose :=
  match n with
  | O => []
  | S n => let (c, st') := get_number Some None st in c :: get_cells n st'
  end.
(** a line of [parse_ground_truth], TUM_parser.hpp:122-131 *)
Definition truth_step (m : list (dbl * raw_pose)) (line : text) : list (dbl * raw_pose) :=
  if is_comment line then m
  else let (time, st) := get_number id dzero (Some line) in try_emplace time (get_cells 7 st) m.
(** [parse_ground_truth], TUM_parser.hpp:115-134 *)
Definition parse_ground_truth (file : option text) : list (dbl * raw_pose) := fold_left truth_step (lines_of file) [].

(** a frame of an association file *)
Record frame := mkFrame { f_rgb : dbl * text; f_depth : dbl * text; f_truth : option (dbl * raw_pose) }.
(** a line of [parse_association_file], TUM_parser.hpp:77-111; [junk] is what the two time
    stamps, not initialised, hold *)
Definition association_step (junk : dbl * dbl) (truths : list (dbl * raw_pose)) (line : text) : list frame :=
  if is_comment line then []
  else
    let (depth_time, st1) := get_number id (fst junk) (Some line) in
    let (depth_path, st2) := get_word st1 in
    let (rgb_time, st3) := get_number id (snd junk) st2 in
    let (rgb_path, _) := get_word st3 in
    if given_path depth_path && given_path rgb_path
    then [mkFrame (rgb_time, rgb_path) (depth_time, depth_path) (find_key rgb_time truths)]
    else [].
(** [parse_association_file], TUM_parser.hpp:62-112 *)
Definition parse_association_file (junk : dbl * dbl) (associations truths : option text) : list frame :=
  match associations with
  | None => []
  | Some _ => flat_map (association_step junk (parse_ground_truth truths)) (lines_of associations)
  end.

(** [parse_dataset], TUM_parser.hpp:51-60: [order] is the first sort of the candidates and
    [arrange] the sort of the frames *)
Definition parse_dataset (order : list (dbl * dbl)) (arrange : list (data text) -> list (data text))
    (rgb depth truths : option text) : list (data text * option (dbl * raw_pose)) :=
  let frames := arrange (associate order (parse_file rgb) (parse_file depth)) in
  combine frames (attach (parse_ground_truth truths) frames).

(** [get_data_association], main_TUM.cpp:105-127: an association file is used if there is one *)
Definition get_data_association (junk : dbl * dbl) (order : list (dbl * dbl)) (arrange : list (data text) -> list (data text))
    (associations rgb depth truths : option text) : list frame + list (data text * option (dbl * raw_pose)) :=
  match associations with
  | Some _ => inl (parse_association_file junk associations truths)
  | None => inr (parse_dataset order arrange rgb depth truths)
  end.
End Readers.

(** Model of the log messages and of their writing by several threads.
    Source: /repo/src/outputs/logger.cpp.
    A thread is the list of its calls. The characters of a message are written one by one to
    [std::cout] or [std::cerr], and the threads run in any order between them: the standard
    only says that concurrent writes to these streams are not data races. A stream never
    fails. *)
From Coq Require Import List Ascii String NArith ZArith Bool Arith DecimalString.
Import ListNotations.
Local Open Scope list_scope.

Inductive level := Info | Warning | Error.
Definition level_eqb (a b : level) : bool :=
  match a, b with Info, Info | Warning, Warning | Error, Error => true | _, _ => false end.
(** One call of [log], [log_warning] or [log_error], with its source location *)
Record call := mkCall { c_level : level; c_file : string; c_line : N; c_column : N; c_message : string }.

(** [InfoLevel] 8-16: the greatest [INFO_LEVEL] that shows the message, 23, 38, 53 *)
Definition rank (l : level) : Z := match l with Info => 1 | Warning => 2 | Error => 3 end.
(** [INFO_LEVEL] 19 *)
Definition info_level : Z := 0.
Definition shown (setting : Z) (c : call) : bool := Z.leb setting (rank (c_level c)).

Definition chars (s : string) : list ascii := list_ascii_of_string s.
Definition escape : ascii := ascii_of_nat 27.
Definition newline : ascii := ascii_of_nat 10.
(** [std::filesystem::path::filename]: what follows the last separator *)
Fixpoint filename_from (l acc : list ascii) : list ascii :=
  match l with
  | [] => rev acc
  | c :: l => if Ascii.eqb c "/" then filename_from l [] else filename_from l (c :: acc)
  end.
Definition filename (l : list ascii) : list ascii := filename_from l [].
Definition decimal (n : N) : list ascii := chars (NilEmpty.string_of_uint (N.to_uint n)).
(** the text between the escape character and the file, 29, 44, 59 *)
Definition prefix (l : level) : string :=
  match l with Info => "[34m[INF] " | Warning => "[33m[WARN] " | Error => "[31m[ERR] " end.
(** what a call writes, 29-33, 44-48, 59-63 *)
Definition text (c : call) : list ascii :=
  escape :: chars (prefix (c_level c)) ++ filename (chars (c_file c)) ++ chars "(" ++ decimal (c_line c) ++ chars ":" ++
  decimal (c_column c) ++ chars ") " ++ chars (c_message c) ++ escape :: chars "[0m" ++ [newline].

(** ** The threads *)

(** [writing]: the message being written and what is left of it; [todo]: the next calls *)
Record thread := mkThread { writing : option (level * list ascii); todo : list call }.
(** [holder]: who has the mutex of the function (25, 40, 55: one for each function) *)
Record state := mkState { holder : level -> option nat; threads : nat -> thread; out : list ascii; err : list ascii }.
Definition set_holder (f : level -> option nat) (l : level) (h : option nat) : level -> option nat :=
  fun k => if level_eqb k l then h else f k.
Definition set_thread (f : nat -> thread) (t : nat) (x : thread) : nat -> thread := fun k => if Nat.eqb k t then x else f k.
(** the stream of each function: [std::cout] 29, [std::cerr] 44 and 59 *)
Definition write (s : state) (l : level) (c : ascii) : state :=
  match l with
  | Info => mkState (holder s) (threads s) (out s ++ [c]) (err s)
  | Warning | Error => mkState (holder s) (threads s) (out s) (err s ++ [c])
  end.
(** A step of the thread [t]: it starts a call, if the mutex is free, writes a character, or
    ends the call; else it waits. A call that is not shown does nothing. *)
Definition step (setting : Z) (s : state) (t : nat) : state :=
  let x := threads s t in
  match writing x with
  | Some (l, c :: rest) =>
    let s := write s l c in mkState (holder s) (set_thread (threads s) t (mkThread (Some (l, rest)) (todo x))) (out s) (err s)
  | Some (l, []) => mkState (set_holder (holder s) l None) (set_thread (threads s) t (mkThread None (todo x))) (out s) (err s)
  | None =>
    match todo x with
    | [] => s
    | c :: calls =>
      if shown setting c then
        match holder s (c_level c) with
        | Some _ => s
        | None => mkState (set_holder (holder s) (c_level c) (Some t))
                          (set_thread (threads s) t (mkThread (Some (c_level c, text c)) calls)) (out s) (err s)
        end
      else mkState (holder s) (set_thread (threads s) t (mkThread None calls)) (out s) (err s)
    end
  end.
Definition init (program : nat -> list call) : state := mkState (fun _ => None) (fun t => mkThread None (program t)) [] [].
Definition run_from (setting : Z) (s : state) (schedule : list nat) : state := fold_left (step setting) schedule s.
Definition run (setting : Z) (program : nat -> list call) (schedule : list nat) : state := run_from setting (init program) schedule.

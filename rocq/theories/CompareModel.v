(** Model of the drawing and of the comparison of segments by the line segment detector.
    Source: /repo/third_party/line_segment_detector.cpp:980-1081. The pixels of a drawn segment are
    an argument, the pixels are numbered row by row. The conversion of integer coordinates to
    floats (1034-1037) belongs to this argument. *)
From Coq Require Import List ZArith Bool Arith.
Import ListNotations.

Section Compare.
  Variable segment : Type.
  (** [cv::line]: whether pixel [i] of an image of this size (columns, rows) is drawn *)
  Variable drawn : nat * nat -> segment -> nat -> bool.
  Definition total (size : nat * nat) : nat := fst size * snd size.
  Definition byte : Type := Z.
  (** an image of several channels, with its bytes in order *)
  Record image := mkImage { i_size : nat * nat; channels : nat; continuous : bool; bytes : list byte }.

  (** [line(I, b, e, Scalar::all(255), 1)], on an image of one channel *)
  Definition line_mask (size : nat * nat) (m : list byte) (l : segment) : list byte :=
    map (fun iv => if drawn size l (fst iv) then 255%Z else snd iv) (combine (seq 0 (length m)) m).
  (** 1023-1024 and 1040-1051 *)
  Definition mask (size : nat * nat) (lines : list segment) : list byte :=
    fold_left (line_mask size) lines (repeat 0%Z (total size)).
  (** [bitwise_xor] and [countNonZero], 1054-1056 *)
  Definition disagreements (a b : list byte) : nat :=
    length (filter (fun v => negb (v =? 0)%Z) (map (fun ab => Z.lxor (fst ab) (snd ab)) (combine a b))).
  (** the assignment of a byte *)
  Fixpoint put (i : nat) (v : byte) (l : list byte) : list byte :=
    match l, i with
    | [], _ => []
    | _ :: l, O => v :: l
    | x :: l, S i => x :: put i v l
    end.
  (** the loop of 1064-1077, from pixel [i] *)
  Fixpoint colour (i : nat) (a b : list byte) (img : list byte) : list byte :=
    match a, b with
    | v :: a, w :: b =>
      let img :=
        if negb (v =? 0)%Z || negb (w =? 0)%Z then
          let base := i * 3 in
          let img := if negb (v =? 0)%Z then put base 255%Z img else put base 0%Z img in
          let img := put (base + 1) 0%Z img in
          if negb (w =? 0)%Z then put (base + 2) 255%Z img else put (base + 2) 0%Z img
        else img in
      colour (S i) a b img
    | _, _ => img
    end.
  Definition size_eqb (a b : nat * nat) : bool := (fst a =? fst b) && (snd a =? snd b).
  (** [compareSegments], 1017-1081; the number and the image, if there is one. [None]: an assertion
      fails *)
  Definition compare_segments (size : nat * nat) (lines1 lines2 : list segment) (img : option image) : option (nat * option image) :=
    let sz := match img with Some i => if negb (size_eqb (i_size i) size) then i_size i else size | None => size end in
    if total sz =? 0 then None
    else
      let i1 := mask sz lines1 in
      let i2 := mask sz lines2 in
      let n := disagreements i1 i2 in
      match img with
      | None => Some (n, None)
      | Some i =>
        if negb (channels i =? 3) then None
        else if negb (continuous i) then None
        else Some (n, Some (mkImage (i_size i) (channels i) (continuous i) (colour 0 i1 i2 (bytes i))))
      end.

  (** [cvtColor] with [COLOR_GRAY2BGR], 986: three times each byte *)
  Definition gray_to_bgr (l : list byte) : list byte := flat_map (fun v => [v; v; v]) l.
  (** [line(image, b, e, Scalar(0, 0, 255), 1)], on an image of three channels *)
  Definition line_red (size : nat * nat) (img : list byte) (l : segment) : list byte :=
    fold_left (fun img i => if drawn size l i then put (i * 3 + 2) 255%Z (put (i * 3 + 1) 0%Z (put (i * 3) 0%Z img)) else img) (seq 0 (total size)) img.
  (** [drawSegments], 980-1015; [None]: an assertion fails *)
  Definition draw_segments (img : image) (lines : list segment) : option image :=
    if (total (i_size img) =? 0) || negb ((channels img =? 1) || (channels img =? 3)) then None
    else
      let img := if channels img =? 1 then mkImage (i_size img) 3 true (gray_to_bgr (bytes img)) else img in
      Some (mkImage (i_size img) (channels img) (continuous img) (fold_left (line_red (i_size img)) lines (bytes img))).
End Compare.

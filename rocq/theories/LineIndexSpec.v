(** Editor positions as the Language Server Protocol defines them, for texts whose
    only line separator is the line feed. *)
From Coq Require Import List NArith Arith.
From Verif Require Import Text LineIndexModel.
Import ListNotations.

(** Code units of one character / of a text in an encoding. *)
Definition units1 (enc : encoding) (c : char) : nat :=
  match enc with EUtf8 => utf8_len c | EUtf16 => utf16_len c | EUtf32 => 1 end.
Fixpoint units (enc : encoding) (t : text) : nat :=
  match t with [] => 0 | c :: r => units1 enc c + units enc r end.

(** Number of line feeds. *)
Fixpoint count_lf (t : text) : nat :=
  match t with [] => 0 | c :: r => (if (c =? LF)%N then 1 else 0) + count_lf r end.

(** The part of a text after its last line feed. *)
Fixpoint after_last_lf (t : text) : text :=
  match t with
  | [] => []
  | c :: r => if Nat.eqb (count_lf r) 0
              then (if (c =? LF)%N then r else c :: r)
              else after_last_lf r
  end.

(** The position just after the text [pre] (the start of the document up to there). *)
Definition position_after (enc : encoding) (pre : text) : position :=
  {| pos_line := count_lf pre; pos_char := units enc (after_last_lf pre) |}.

(** Document order of positions. *)
Definition pos_lt (a b : position) : Prop :=
  pos_line a < pos_line b \/ (pos_line a = pos_line b /\ pos_char a < pos_char b).

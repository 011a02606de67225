(** Common vocabulary for texts.

    A Rust [String]/[&str] is modelled as a list of Unicode scalar values
    ([N]).  Rust indexes strings by UTF-8 byte offset, so byte lengths are
    computed with [utf8_len] (the encoding length fixed by the UTF-8 standard
    and used by [char::len_utf8]). *)
From Coq Require Import List NArith Lia Bool Arith.
Import ListNotations.

Definition char := N.
Definition text := list char.

Definition CR : char := 13%N.
Definition LF : char := 10%N.
Definition SPACE : char := 32%N.

(** Number of bytes of a scalar value in UTF-8. *)
Definition utf8_len (c : char) : nat :=
  if (c <? 128)%N then 1
  else if (c <? 2048)%N then 2
  else if (c <? 65536)%N then 3
  else 4.

(** Number of UTF-16 code units of a scalar value. *)
Definition utf16_len (c : char) : nat :=
  if (c <? 65536)%N then 1 else 2.

(** Byte length of a text ([str::len]). *)
Fixpoint blen (t : text) : nat :=
  match t with
  | [] => 0
  | c :: r => utf8_len c + blen r
  end.

(** [split_at n t]: split at byte offset [n]; [None] when [n] is not a
    character boundary of [t] (where Rust slicing panics). *)
Fixpoint split_at (n : nat) (t : text) : option (text * text) :=
  match n with
  | 0 => Some ([], t)
  | _ =>
    match t with
    | [] => None
    | c :: r =>
      if utf8_len c <=? n then
        match split_at (n - utf8_len c) r with
        | Some (a, b) => Some (c :: a, b)
        | None => None
        end
      else None
    end
  end.

Definition text_eqb (a b : text) : bool :=
  if list_eq_dec N.eq_dec a b then true else false.

(** ASCII literals: texts from Coq strings, for examples and constants. *)
From Coq Require Import String Ascii.
Fixpoint of_string (s : string) : text :=
  match s with
  | EmptyString => []
  | String a s' => N_of_ascii a :: of_string s'
  end.
(** [$ "abc"] is the text "abc". *)
Notation "$ s" := (of_string s%string) (at level 1, s at level 0, only parsing).

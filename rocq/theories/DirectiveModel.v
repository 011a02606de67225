(** Model of crates/comments/src/directive.rs. *)
From Coq Require Import List NArith Bool String.
From Verif Require Import Text.
Import ListNotations.

(** directive.rs:1-11. *)
Inductive directive := DSkip | DSkipFile | DTable.

(** [char::is_whitespace] of the standard library (Unicode White_Space). *)
Definition is_whitespace (c : char) : bool :=
  ((9 <=? c)%N && (c <=? 13)%N) || (c =? 32)%N || (c =? 133)%N || (c =? 160)%N || (c =? 5760)%N
  || ((8192 <=? c)%N && (c <=? 8202)%N) || (c =? 8232)%N || (c =? 8233)%N || (c =? 8239)%N
  || (c =? 8287)%N || (c =? 12288)%N.

Definition HASH : char := 35%N.
Definition COLON : char := 58%N.

(** [str::trim_start_matches] with a character predicate. *)
Fixpoint trim_start_matches (p : char -> bool) (t : text) : text :=
  match t with
  | c :: r => if p c then trim_start_matches p r else t
  | [] => []
  end.

(** [str::trim_end] and [str::trim]. *)
Definition trim_end (t : text) : text := rev (trim_start_matches is_whitespace (rev t)).
Definition trim (t : text) : text := trim_end (trim_start_matches is_whitespace t).

(** [str::split_once(':')]. *)
Fixpoint split_once (sep : char) (t : text) : option (text * text) :=
  match t with
  | [] => None
  | c :: r =>
    if (c =? sep)%N then Some ([], r)
    else match split_once sep r with None => None | Some (a, b) => Some (c :: a, b) end
  end.

(** [str::starts_with]. *)
Fixpoint starts_with (p t : text) : bool :=
  match p, t with
  | [], _ => true
  | _, [] => false
  | x :: p', y :: t' => (x =? y)%N && starts_with p' t'
  end.

(** directive.rs:50-55, [trim_comment]. *)
Definition trim_comment (t : text) : option text :=
  match t with
  | c :: r =>
    if (c =? HASH)%N then
      Some (trim_start_matches is_whitespace (trim_start_matches (fun c => (c =? HASH)%N) r))
    else None
  | [] => None
  end.

(** directive.rs:57-65, [parse_format_directive]. *)
Definition parse_format_directive (t : text) : option directive :=
  if text_eqb t $"skip" then Some DSkip
  else if text_eqb t $"skip file" then Some DSkipFile
  else if text_eqb t $"table" then Some DTable
  else None.

(** directive.rs:36-47, [parse_comment_directive]. *)
Definition parse_comment_directive (t : text) : option directive :=
  match trim_comment t with
  | None => None
  | Some t =>
    match split_once COLON t with
    | None => None
    | Some (category, t) =>
      let t := trim t in
      if text_eqb category $"fmt" then parse_format_directive t else None
    end
  end.

(** directive.rs:69-78, [parse_special_skip_file]. *)
Definition parse_special_skip_file (t : text) : option directive :=
  match trim_comment t with
  | None => None
  | Some t => if starts_with $"Generated by" t then Some DSkipFile else None
  end.

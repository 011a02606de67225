(** Specification of line ending handling, by character positions. *)
From Coq Require Import List NArith Bool Arith.
From Verif Require Import Text LineEndingModel.
Import ListNotations.

(** Position [i] of [x] holds a CR directly followed by an LF. *)
Definition crlf_at (x : text) (i : nat) : bool :=
  match nth_error x i, nth_error x (S i) with
  | Some c, Some d => ((c =? CR)%N && (d =? LF)%N)%bool
  | _, _ => false
  end.

(** The text made of all positions of [x] except those satisfying [crlf_at]. *)
Definition without_cr_of_crlf (x : text) : text :=
  map (fun i => nth i x 0%N)
      (filter (fun i => negb (crlf_at x i)) (seq 0 (length x))).

Definition has_crlf (x : text) : Prop := exists i, crlf_at x i = true.

(** CR CR LF occurs in [x]. *)
Definition has_crcrlf (x : text) : Prop :=
  exists a b, x = a ++ CR :: CR :: LF :: b.

(** The first line ending of a text: the first LF, and whether a CR stands
    directly before it. *)
Fixpoint first_line_ending_from (prev_cr : bool) (x : text) : option line_ending :=
  match x with
  | [] => None
  | c :: r =>
    if (c =? LF)%N then Some (if prev_cr then Crlf else Lf)
    else first_line_ending_from (c =? CR)%N r
  end.
Definition first_line_ending (x : text) : option line_ending :=
  first_line_ending_from false x.

(** All line endings of a text, in order. *)
Fixpoint line_endings_from (prev_cr : bool) (x : text) : list line_ending :=
  match x with
  | [] => []
  | c :: r =>
    if (c =? LF)%N
    then (if prev_cr then Crlf else Lf) :: line_endings_from false r
    else line_endings_from (c =? CR)%N r
  end.
Definition line_endings (x : text) : list line_ending := line_endings_from false x.

(** The documented rule of docs/configuration.qmd (line-ending, "auto"). *)
Definition documented_auto (x : text) : line_ending :=
  match first_line_ending x with
  | Some e => e
  | None => Lf
  end.

(** Text with every LF written as CR LF. *)
Fixpoint to_crlf (x : text) : text :=
  match x with
  | [] => []
  | c :: r => if (c =? LF)%N then CR :: LF :: to_crlf r else c :: to_crlf r
  end.

Definition no_cr (x : text) : Prop := ~ In CR x.

(** Two texts that differ only in CRLF versus LF at line ends. *)
Inductive same_modulo_line_ends : text -> text -> Prop :=
| smle_nil : same_modulo_line_ends [] []
| smle_char : forall c a b, c <> CR -> c <> LF -> same_modulo_line_ends a b ->
    same_modulo_line_ends (c :: a) (c :: b)
| smle_end : forall a b e f, In e [[LF]; [CR; LF]] -> In f [[LF]; [CR; LF]] ->
    same_modulo_line_ends a b -> same_modulo_line_ends (e ++ a) (f ++ b).

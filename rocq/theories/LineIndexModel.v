(** Model of the line table ([biome_line_index::LineIndex]) and of the position
    conversions in crates/aether_lsp_utils/src/proto/{from_proto,to_proto}.rs.

    [biome_line_index] is a dependency and not in /repo; its functions are transcribed
    from the published source (see DESIGN.md).  Numbers are unbounded here: the [u32]
    limits of [TextSize] and LSP positions are not modelled. *)
From Coq Require Import List NArith Bool Arith.
From Verif Require Import Text BinSearchModel.
Import ListNotations.

(** proto.rs:6-10, [PositionEncoding] with [WideEncoding] inlined. *)
Inductive encoding := EUtf8 | EUtf16 | EUtf32.

(** biome_line_index [WideChar]: byte columns of a non-ASCII character in its line. *)
Record wide_char := { wc_start : nat; wc_end : nat }.

(** biome_line_index [LineIndex]: line starts and, per line that has any, the
    non-ASCII characters ([FxHashMap] as an association list). *)
Record line_index := {
  newlines : list nat;
  line_wide_chars : list (nat * list wide_char)
}.

(** [char::is_ascii]. *)
Definition is_ascii (c : char) : bool := (c <? 128)%N.

(** biome_line_index [LineIndex::new]: state of the loop over [char_indices]. *)
Record li_state := {
  st_newlines : list nat;
  st_map : list (nat * list wide_char);
  st_wide : list wide_char;
  st_offset : nat;
  st_col : nat;
  st_line : nat
}.
Definition save_wide (st : li_state) : list (nat * list wide_char) :=
  match st_wide st with
  | [] => st_map st
  | w => st_map st ++ [(st_line st, w)]
  end.
Definition li_step (st : li_state) (c : char) : li_state :=
  if (c =? LF)%N then
    {| st_newlines := st_newlines st ++ [st_offset st + utf8_len c];
       st_map := save_wide st; st_wide := [];
       st_offset := st_offset st + utf8_len c; st_col := 0; st_line := st_line st + 1 |}
  else
    {| st_newlines := st_newlines st; st_map := st_map st;
       st_wide := if is_ascii c then st_wide st
                  else st_wide st ++ [{| wc_start := st_col st; wc_end := st_col st + utf8_len c |}];
       st_offset := st_offset st + utf8_len c; st_col := st_col st + utf8_len c; st_line := st_line st |}.
Definition li_init : li_state :=
  {| st_newlines := [0]; st_map := []; st_wide := []; st_offset := 0; st_col := 0; st_line := 0 |}.
Definition line_index_new (t : text) : line_index :=
  let st := fold_left li_step t li_init in
  {| newlines := st_newlines st; line_wide_chars := save_wide st |}.

Record line_col := { lc_line : nat; lc_col : nat }.

(** [slice::partition_point(pred)]: binary search with [Less] where [pred] holds. *)
Definition partition_point (pred : nat -> bool) (l : list nat) : nat :=
  match binary_search_by (fun x => if pred x then Lt else Gt) l with
  | Found i => i
  | NotFound i => i
  end.

(** biome_line_index [LineIndex::line_col]. *)
Definition li_line_col (li : line_index) (offset : nat) : option line_col :=
  let line := partition_point (fun it => it <=? offset) (newlines li) - 1 in
  match nth_error (newlines li) line with
  | None => None
  | Some start => Some {| lc_line := line; lc_col := offset - start |}
  end.

(** biome_line_index [LineIndex::offset]: no check of the column. *)
Definition li_offset (li : line_index) (lc : line_col) : option nat :=
  match nth_error (newlines li) (lc_line lc) with
  | None => None
  | Some start => Some (start + lc_col lc)
  end.

(** [FxHashMap::get]. *)
Definition wide_get (li : line_index) (line : nat) : list wide_char :=
  match find (fun e => Nat.eqb (fst e) line) (line_wide_chars li) with
  | None => []
  | Some e => snd e
  end.

(** biome_line_index [WideChar::wide_len]. *)
Definition wide_len (enc : encoding) (c : wide_char) : nat :=
  match enc with
  | EUtf16 => if Nat.eqb (wc_end c - wc_start c) 4 then 2 else 1
  | _ => 1
  end.

(** biome_line_index [utf8_to_wide_col]. *)
Fixpoint to_wide_loop (enc : encoding) (l : list wide_char) (col res : nat) : nat :=
  match l with
  | [] => res
  | c :: r =>
    if wc_end c <=? col
    then to_wide_loop enc r col (res - ((wc_end c - wc_start c) - wide_len enc c))
    else res
  end.

(** biome_line_index [wide_to_utf8_col]. *)
Fixpoint to_utf8_loop (enc : encoding) (l : list wide_char) (col : nat) : nat :=
  match l with
  | [] => col
  | c :: r =>
    if wc_start c <? col
    then to_utf8_loop enc r (col + ((wc_end c - wc_start c) - wide_len enc c))
    else col
  end.

(** [lsp_types::Position] and [Range]. *)
Record position := { pos_line : nat; pos_char : nat }.
Record lsp_range := { r_start : position; r_end : position }.

(** to_proto.rs:16-30, [position_from_line_col] ([to_wide] always succeeds). *)
Definition position_from_line_col (enc : encoding) (li : line_index) (lc : line_col) : position :=
  match enc with
  | EUtf8 => {| pos_line := lc_line lc; pos_char := lc_col lc |}
  | _ => {| pos_line := lc_line lc;
            pos_char := to_wide_loop enc (wide_get li (lc_line lc)) (lc_col lc) (lc_col lc) |}
  end.

(** to_proto.rs:34-44, [position_from_offset]; [None] is the error. *)
Definition position_from_offset (enc : encoding) (li : line_index) (offset : nat) : option position :=
  match li_line_col li offset with
  | None => None
  | Some lc => Some (position_from_line_col enc li lc)
  end.

(** to_proto.rs:48-56, [range]. *)
Definition range_to_proto (enc : encoding) (li : line_index) (s e : nat) : option lsp_range :=
  match position_from_offset enc li s, position_from_offset enc li e with
  | Some a, Some b => Some {| r_start := a; r_end := b |}
  | _, _ => None
  end.

(** from_proto.rs:12-30, [line_col_from_position]. *)
Definition line_col_from_position (enc : encoding) (li : line_index) (p : position) : line_col :=
  match enc with
  | EUtf8 => {| lc_line := pos_line p; lc_col := pos_char p |}
  | _ => {| lc_line := pos_line p;
            lc_col := to_utf8_loop enc (wide_get li (pos_line p)) (pos_char p) |}
  end.

(** from_proto.rs:34-44, [offset_from_position]; [None] is the error "out of range". *)
Definition offset_from_position (enc : encoding) (li : line_index) (p : position) : option nat :=
  li_offset li (line_col_from_position enc li p).

(** Result of a fallible function that may also panic. *)
Inductive outcome_of (A : Type) := Val (a : A) | Fail | Panic.
Arguments Val {A}. Arguments Fail {A}. Arguments Panic {A}.

(** from_proto.rs:48-56, [text_range]; [TextRange::new] panics if start > end. *)
Definition text_range (enc : encoding) (li : line_index) (r : lsp_range) : outcome_of (nat * nat) :=
  match offset_from_position enc li (r_start r) with
  | None => Fail
  | Some s =>
    match offset_from_position enc li (r_end r) with
    | None => Fail
    | Some e => if s <=? e then Val (s, e) else Panic
    end
  end.

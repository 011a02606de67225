(** Specification of edits exchanged with the editor. *)
From Coq Require Import List NArith Bool Arith.
From Verif Require Import Text LineEndingModel LineEndingSpec LineIndexModel LineIndexSpec DocsSpec
  TextEditModel TextEditSpec ProtoEditsModel.
Import ListNotations.

(** The edit [e] replaces the bytes [i_start d .. i_end d] of [t]. *)
Definition denotes (enc : encoding) (t : text) (e : text_edit) (d : indel) : Prop :=
  exists a m b, t = a ++ m ++ b /\ i_start d = blen a /\ i_end d = blen (a ++ m) /\
    te_range e = {| r_start := position_after enc a; r_end := position_after enc (a ++ m) |} /\
    i_insert d = normalize (te_text e).

(** The editor's application of ordered edits to its own text.  [pre] is what stands
    before [rest] in the document; positions are those of the unedited document, in
    the editor's own line ends. *)
Inductive client_edits (enc : encoding) : text -> text -> list text_edit -> text -> Prop :=
| CEnd : forall pre rest, client_edits enc pre rest [] rest
| CEdit : forall pre keep gone rest x es rest',
    paired keep -> paired gone ->
    client_edits enc (pre ++ keep ++ gone) rest es rest' ->
    client_edits enc pre (keep ++ gone ++ rest)
      ({| te_range := {| r_start := editor_position enc (pre ++ keep) 0 0;
                         r_end := editor_position enc (pre ++ keep ++ gone) 0 0 |};
          te_text := x |} :: es)
      (keep ++ x ++ rest').

(** Contract of the diff library: the chunks spell the two texts. *)
Definition diff_contract (dissimilar : text -> text -> list chunk) : Prop :=
  forall a b, old_text (dissimilar a b) = a /\ new_text (dissimilar a b) = b.

(** The text printed by the formatter for source [t]: [fmt] formats with LF, the
    printer writes the configured line ending. *)
Definition printed (windows : bool) (setting : line_ending_setting) (fmt : text -> option text) (t : text) : option text :=
  match fmt t with
  | None => None
  | Some y => Some (match finalize windows setting t with Lf => y | Crlf => to_crlf y end)
  end.

(** All line ends of [u] are alike. *)
Definition uniform (u : text) : Prop := no_cr u \/ exists t, no_cr t /\ u = to_crlf t.

(** What becomes of formatted text [y] in a notebook cell: its last line end, if it ends
    with one, is not part of the cell. *)
Definition cell_end (notebook : bool) (y x : text) : Prop :=
  if notebook then y = x ++ [LF] \/ (x = y /\ forall z, y <> z ++ [LF]) else x = y.

(** Model of the edits exchanged with the editor:
    crates/aether_lsp_utils/src/proto/to_proto.rs:58-122,
    crates/aether_lsp_utils/src/proto/from_proto.rs:134-165 and
    crates/lsp/src/handlers_format.rs:14-69. *)
From Coq Require Import List NArith ZArith Bool Arith.
From Verif Require Import Text LineEndingModel LineIndexModel DocsModel TextEditModel.
Import ListNotations.

(** [lsp_types::TextEdit]. *)
Record text_edit := { te_range : lsp_range; te_text : text }.

(** The comparison of from_proto.rs:146-153: descending by start. *)
Definition start_desc (a b : text_edit) : bool :=
  let p := r_start (te_range a) in
  let q := r_start (te_range b) in
  (pos_line q <? pos_line p) || ((pos_line q =? pos_line p) && (pos_char q <=? pos_char p)).

(** from_proto.rs:134-165, [apply_text_edits] ([sort_by] is stable). *)
Definition apply_text_edits (enc : encoding) (t : text) (edits : list text_edit) (li : line_index)
    : option (text * line_index) :=
  apply_text_changes enc t
    (map (fun e => {| c_range := Some (te_range e); c_text := te_text e |}) (sort_by start_desc edits)) li.

(** [str::replace('\n', "\r\n")]. *)
Definition lf_to_crlf (t : text) : text :=
  flat_map (fun c => if (c =? LF)%N then [CR; LF] else [c]) t.

(** to_proto.rs:58-70, [text_edit]. *)
Definition text_edit_of (enc : encoding) (li : line_index) (endings : line_ending) (d : indel) : option text_edit :=
  match range_to_proto enc li (i_start d) (i_end d) with
  | None => None
  | Some r => Some {| te_range := r;
                      te_text := match endings with Lf => i_insert d | Crlf => lf_to_crlf (i_insert d) end |}
  end.

(** to_proto.rs:72-82, [text_edit_vec]. *)
Fixpoint text_edit_vec (enc : encoding) (li : line_index) (endings : line_ending) (ds : list indel) : option (list text_edit) :=
  match ds with
  | [] => Some []
  | d :: r =>
    match text_edit_of enc li endings d with
    | None => None
    | Some e => match text_edit_vec enc li endings r with None => None | Some es => Some (e :: es) end
    end
  end.

(** to_proto.rs:102-111, [replace_range_edit]. *)
Definition replace_range_edit (s e : nat) (x : text) (li : line_index) (enc : encoding) (endings : line_ending)
    : option (list text_edit) :=
  match build [{| i_start := s; i_end := e; i_insert := x |}] with
  | None => None
  | Some ds => text_edit_vec enc li endings ds
  end.

(** to_proto.rs:113-122, [replace_all_edit]; [dissimilar] is the diff library. *)
Definition replace_all_edit (dissimilar : text -> text -> list chunk) (t x : text)
    (li : line_index) (enc : encoding) (endings : line_ending) : option (list text_edit) :=
  match diff (dissimilar t x) with
  | None => None
  | Some ds => text_edit_vec enc li endings ds
  end.

Inductive reply := Edits (es : list text_edit) | NoEdits | Failed.

Section Formatting.
  Variable T : Type.
  Variable has_error : T -> bool.
  Variable print : text -> option text.   (* formatter and printer, under the document's options *)
  Variable dissimilar : text -> text -> list chunk.

  (** [formatted.pop()] when it ends with a line feed (handlers_format.rs:52-58). *)
  Definition pop_lf (t : text) : text :=
    match rev t with
    | c :: r => if (c =? LF)%N then rev r else t
    | [] => t
    end.

  (** handlers_format.rs:14-69, [document_formatting], once the document is found. *)
  Definition document_formatting (excluded notebook : bool) (d : document T) : reply :=
    if excluded then NoEdits
    else if has_error (d_parse d) then NoEdits
    else
      match print (d_contents d) with
      | None => Failed
      | Some out =>
        if (blen (d_contents d) =? blen out) && text_eqb (d_contents d) out then NoEdits
        else
          let out := if notebook then pop_lf out else out in
          match replace_all_edit dissimilar (d_contents d) out (d_line_index d) (d_enc d) (d_endings d) with
          | None => Failed
          | Some es => Edits es
          end
      end.
End Formatting.

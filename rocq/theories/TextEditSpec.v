(** Specification of text edits: simultaneous replacement, character by character. *)
From Coq Require Import List NArith Bool Arith.
From Verif Require Import Text TextEditModel.
Import ListNotations.

(** What the edits put at byte offset [off]: the insertions there in list order, then
    the replacement of the range starting there. *)
Definition placed_at (es : list indel) (off : nat) : text :=
  flat_map i_insert (filter (fun e => (i_start e =? off) && (i_end e =? off)) es) ++
  flat_map i_insert (filter (fun e => (i_start e =? off) && (off <? i_end e)) es).

(** The character at [off] lies in an edited range. *)
Definition removed_at (es : list indel) (off : nat) : bool :=
  existsb (fun e => (i_start e <=? off) && (off <? i_end e)) es.

(** Text [t], which begins at byte [off] of the document, with all edits done at once. *)
Fixpoint replaced (es : list indel) (off : nat) (t : text) : text :=
  placed_at es off ++
  match t with
  | [] => []
  | c :: r => (if removed_at es off then [] else [c]) ++ replaced es (off + utf8_len c) r
  end.

(** Ranges are ranges of the text, on character boundaries. *)
Definition boundary (t : text) (o : nat) : Prop := exists a b, t = a ++ b /\ blen a = o.
Definition in_bounds (t : text) (e : indel) : Prop :=
  i_start e <= i_end e /\ boundary t (i_start e) /\ boundary t (i_end e).

(** Two ranges that do not overlap (they may touch). *)
Definition apart (a b : indel) : Prop := i_end a <= i_start b \/ i_end b <= i_start a.

(** Ordered edits, each ending before (or where) the next begins. *)
Inductive in_order : list indel -> Prop :=
| IONil : in_order []
| IOOne : forall e, in_order [e]
| IOMore : forall a b r, i_end a <= i_start b -> in_order (b :: r) -> in_order (a :: b :: r).
(** The same with a gap between neighbours. *)
Inductive separated : list indel -> Prop :=
| SepNil : separated []
| SepOne : forall e, separated [e]
| SepMore : forall a b r, i_end a < i_start b -> separated (b :: r) -> separated (a :: b :: r).

(** Texts spelled by the chunks of a diff. *)
Definition old_text (cs : list chunk) : text :=
  flat_map (fun c => match c with Equal x | Delete x => x | Insert _ => [] end) cs.
Definition new_text (cs : list chunk) : text :=
  flat_map (fun c => match c with Equal x | Insert x => x | Delete _ => [] end) cs.

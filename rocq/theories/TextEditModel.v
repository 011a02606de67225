(** Model of crates/aether_lsp_utils/src/text_edit.rs and
    crates/aether_lsp_utils/src/diff.rs.  [None] is a panic.  [TextSize] is a [nat]
    (no overflow at 4 GiB); subtraction below zero is a panic. *)
From Coq Require Import List NArith Bool Arith.
From Verif Require Import Text DocsModel.
Import ListNotations.

(** text_edit.rs:20-25, [Indel]; [delete] is the range [i_start..i_end]. *)
Record indel := { i_start : nat; i_end : nat; i_insert : text }.

Definition indel_eqb (a b : indel) : bool :=
  (i_start a =? i_start b) && (i_end a =? i_end b) && text_eqb (i_insert a) (i_insert b).

(** text_edit.rs:52-56, [Indel::apply]. *)
Definition indel_apply (d : indel) (t : text) : option text :=
  replace_range t (i_start d) (i_end d) (i_insert d).

(** text_edit.rs:104-112, the running length ([total_len += ..; total_len -= ..]). *)
Fixpoint total_len (n : nat) (ds : list indel) : option nat :=
  match ds with
  | [] => Some n
  | d :: r =>
    let n := n + blen (i_insert d) in
    let m := i_end d - i_start d in
    if n <? m then None else total_len (n - m) r
  end.

(** text_edit.rs:118-120, the loop over [self.indels.iter().rev()]. *)
Fixpoint apply_back_to_front (ds : list indel) (t : text) : option text :=
  match ds with
  | [] => Some t
  | d :: r =>
    match apply_back_to_front r t with
    | None => None
    | Some t' => indel_apply d t'
    end
  end.

(** text_edit.rs:94-123, [TextEdit::apply] ([reserve] has no visible effect). *)
Definition edit_apply (ds : list indel) (t : text) : option text :=
  match ds with
  | [] => Some t
  | [d] => indel_apply d t
  | _ =>
    match total_len (blen t) ds with
    | None => None
    | Some n =>
      match apply_back_to_front ds t with
      | None => None
      | Some t' => if blen t' =? n then Some t' else None
      end
    end
  end.

(** text_edit.rs:214-223, [check_disjoint]. *)
Fixpoint check_disjoint (ds : list indel) : bool :=
  match ds with
  | l :: ((r :: _) as rest) => ((i_end l <=? i_start r) || indel_eqb l r) && check_disjoint rest
  | _ => true
  end.

(** [slice::sort_by_key] is stable; every stable sort returns this list. *)
Section Sort.
  Context {A : Type}.
  Variable le : A -> A -> bool.
  Fixpoint insert_by (x : A) (l : list A) : list A :=
    match l with
    | [] => [x]
    | y :: r => if le x y then x :: l else y :: insert_by x r
    end.
  Fixpoint sort_by (l : list A) : list A :=
    match l with
    | [] => []
    | x :: r => insert_by x (sort_by r)
    end.
End Sort.

(** The key [(start, end)] of text_edit.rs:211. *)
Definition key_le (a b : indel) : bool :=
  (i_start a <? i_start b) || ((i_start a =? i_start b) && (i_end a <=? i_end b)).

(** text_edit.rs:206-213, [assert_disjoint_or_equal], [check_disjoint_and_sort]. *)
Definition assert_disjoint_or_equal (ds : list indel) : option (list indel) :=
  let s := sort_by key_le ds in
  if check_disjoint s then Some s else None.

(** text_edit.rs:225-238, [coalesce_indels] (itertools [coalesce]). *)
Fixpoint coalesce_from (a : indel) (l : list indel) : list indel :=
  match l with
  | [] => [a]
  | b :: r =>
    if i_end a =? i_start b
    then coalesce_from {| i_start := i_start a; i_end := i_end b;
                          i_insert := i_insert a ++ i_insert b |} r
    else a :: coalesce_from b r
  end.
Definition coalesce_indels (ds : list indel) : list indel :=
  match ds with [] => [] | a :: r => coalesce_from a r end.

(** text_edit.rs:198-203, [TextEditBuilder::indel]. *)
Definition builder_indel (b : list indel) (d : indel) : option (list indel) :=
  let b := b ++ [d] in
  if length b <=? 16 then assert_disjoint_or_equal b else Some b.

(** text_edit.rs:187-192, [TextEditBuilder::finish]. *)
Definition builder_finish (b : list indel) : option (list indel) :=
  match assert_disjoint_or_equal b with
  | None => None
  | Some s => Some (coalesce_indels s)
  end.

(** A builder fed with [ds] in this order, then finished. *)
Fixpoint builder_feed (b : list indel) (ds : list indel) : option (list indel) :=
  match ds with
  | [] => Some b
  | d :: r => match builder_indel b d with None => None | Some b' => builder_feed b' r end
  end.
Definition build (ds : list indel) : option (list indel) :=
  match builder_feed [] ds with None => None | Some b => builder_finish b end.

(** text_edit.rs:193-197, [invalidates_offset]. *)
Definition invalidates_offset (b : list indel) (offset : nat) : bool :=
  existsb (fun d => (i_start d <=? offset) && (offset <=? i_end d)) b.

(** itertools [merge_by] with [|l, r| l.start <= r.start] (text_edit.rs:125-127). *)
Fixpoint merge_starts (l : list indel) : list indel -> list indel :=
  match l with
  | [] => fun r => r
  | a :: l' =>
    fix inner (r : list indel) : list indel :=
      match r with
      | [] => a :: l'
      | b :: r' => if i_start a <=? i_start b then a :: merge_starts l' r else b :: inner r'
      end
  end.

(** itertools [dedup_by] with [a == b && !a.delete.is_empty()] (text_edit.rs:133-136);
    it keeps the first of each run. *)
Fixpoint dedup_from (a : indel) (l : list indel) : list indel :=
  match l with
  | [] => [a]
  | b :: r =>
    if indel_eqb a b && negb (i_start a =? i_end a)
    then dedup_from a r
    else a :: dedup_from b r
  end.
Definition dedup_indels (l : list indel) : list indel :=
  match l with [] => [] | a :: r => dedup_from a r end.

(** text_edit.rs:124-138, [union]; [None] is the [Err(other)] result (no panic). *)
Definition edit_union (l r : list indel) : option (list indel) :=
  let m := merge_starts l r in
  if check_disjoint m then Some (dedup_indels m) else None.

(** text_edit.rs:140-153, [apply_to_offset]. *)
Inductive transported := Lost | Moved (offset : nat) | TransportPanic.
Fixpoint apply_to_offset_from (res : nat) (ds : list indel) (offset : nat) : transported :=
  match ds with
  | [] => Moved res
  | d :: r =>
    if offset <=? i_start d then Moved res
    else if offset <? i_end d then Lost
    else
      let res := res + blen (i_insert d) in
      let m := i_end d - i_start d in
      if res <? m then TransportPanic else apply_to_offset_from (res - m) r offset
  end.
Definition apply_to_offset (ds : list indel) (offset : nat) : transported :=
  apply_to_offset_from offset ds offset.

(** * diff.rs *)

(** [dissimilar::Chunk]. *)
Inductive chunk := Equal (x : text) | Delete (x : text) | Insert (x : text).

(** diff.rs:18-43: the replacements handed to the builder, in order. *)
Fixpoint diff_indels (pos : nat) (cs : list chunk) : list indel :=
  match cs with
  | [] => []
  | Equal x :: r => diff_indels (pos + blen x) r
  | Insert x :: r => {| i_start := pos; i_end := pos; i_insert := x |} :: diff_indels pos r
  | Delete x :: r =>
    match r with
    | Insert y :: r' =>
      {| i_start := pos; i_end := pos + blen x; i_insert := y |} :: diff_indels (pos + blen x) r'
    | _ =>
      {| i_start := pos; i_end := pos + blen x; i_insert := [] |} :: diff_indels (pos + blen x) r
    end
  end.

(** diff.rs:11-44, [diff], given the chunks returned by [dissimilar::diff]. *)
Definition diff (cs : list chunk) : option (list indel) := build (diff_indels 0 cs).

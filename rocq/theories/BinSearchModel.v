(** Model of [slice::binary_search_by] of the Rust standard library (1.8x),
    used by crates/settings/src/sorted_strings.rs:36-40 and
    crates/workspace/src/resolve.rs:74,97-99.  Library code, not in /repo; the
    loop is transcribed from the published source:
    [while size > 1 { half = size/2; mid = base+half;
       base = if f(mid) == Greater { base } else { mid }; size -= half }]. *)
From Coq Require Import List Arith.
Import ListNotations.

Inductive search_result := Found (i : nat) | NotFound (i : nat).

Section BinSearch.
  Variable A : Type.
  Variable f : A -> comparison.   (* the probe: [Lt] means "element is Less" *)

  (** [fuel] bounds the loop; [size] strictly decreases so [fuel = size] is enough. *)
  Fixpoint bs_loop (fuel : nat) (l : list A) (base size : nat) : nat :=
    match fuel with
    | 0 => base
    | S fuel' =>
      if size <=? 1 then base
      else
        let half := size / 2 in
        let mid := base + half in
        let base' := match nth_error l mid with
                     | Some x => match f x with Gt => base | _ => mid end
                     | None => base
                     end in
        bs_loop fuel' l base' (size - half)
    end.

  Definition binary_search_by (l : list A) : search_result :=
    match l with
    | [] => NotFound 0
    | _ =>
      let base := bs_loop (length l) l 0 (length l) in
      match nth_error l base with
      | None => NotFound base
      | Some x =>
        match f x with
        | Eq => Found base
        | Lt => NotFound (base + 1)
        | Gt => NotFound base
        end
      end
    end.
End BinSearch.
Arguments binary_search_by {A} f l.
Arguments bs_loop {A} f fuel l base size.

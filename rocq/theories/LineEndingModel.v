(** Model of crates/line_ending/src/lib.rs and of
    crates/workspace/src/settings/line_ending.rs.

    Simplification: the Rust code works on the UTF-8 bytes of the string.  CR
    and LF are one-byte characters that occur in no other character's
    encoding, so the model works on the list of characters. *)
From Coq Require Import List NArith Bool Arith.
From Verif Require Import Text.
Import ListNotations.

(** crates/settings/src/line_ending.rs:4-11, [settings::LineEnding]. *)
Inductive line_ending := Lf | Crlf.

(** crates/line_ending/src/lib.rs:11, [FINDER.find]: index of the first
    occurrence of CR LF ([memmem::Finder], first match). *)
Fixpoint find_crlf (t : text) : option nat :=
  match t with
  | [] => None
  | c :: r =>
    match r with
    | d :: _ =>
      if ((c =? CR)%N && (d =? LF)%N)%bool then Some 0
      else option_map S (find_crlf r)
    | [] => None
    end
  end.

(** crates/line_ending/src/lib.rs:13-20, [infer]. *)
Definition infer (x : text) : line_ending :=
  match find_crlf x with
  | Some _ => Crlf
  | None => Lf
  end.

(** [slice::copy_within(src_start..src_end, 0)] on a slice: the range is moved
    to the front, all other positions keep their content. *)
Definition copy_within_front (src_start src_end : nat) (s : text) : text :=
  firstn (src_end - src_start) (skipn src_start s) ++ skipn (src_end - src_start) s.

(** crates/line_ending/src/lib.rs:36-67, [normalize].
    State: [buf] the whole buffer, [pos] the start of the [tail] slice inside
    it, [gap_len], [crlf_seen].  [fuel] bounds the loop; [None] is "out of
    fuel" and is shown unreachable. *)
Fixpoint normalize_loop (fuel : nat) (buf : text) (pos gap_len : nat)
    (crlf_seen : bool) : option text :=
  match fuel with
  | 0 => None
  | S fuel' =>
    let tail := skipn pos buf in
    let found := find_crlf (skipn gap_len tail) in
    match found, crlf_seen with
    | None, false => Some buf                                   (* line 46 *)
    | _, _ =>
      let idx := match found with
                 | None => length tail                          (* line 44 *)
                 | Some i => i + gap_len                        (* line 49 *)
                 end in
      let seen' := match found with None => crlf_seen | Some _ => true end in
      let tail1 := copy_within_front gap_len idx tail in        (* line 52 *)
      let buf1 := firstn pos buf ++ tail1 in
      let pos1 := pos + (idx - gap_len) in                      (* line 53 *)
      if length (skipn pos1 buf1) =? gap_len                    (* line 54 *)
      then Some (firstn (length buf1 - gap_len) buf1)           (* lines 62-66 *)
      else normalize_loop fuel' buf1 pos1 (gap_len + 1) seen'   (* line 57 *)
    end
  end.

(** The loop runs at most once per character plus one. *)
Definition normalize_opt (x : text) : option text :=
  normalize_loop (S (S (length x))) x 0 0 false.

(** crates/line_ending/src/lib.rs:36. Out of fuel is shown impossible in
    [LineEndingProofs.normalize_total]. *)
Definition normalize (x : text) : text :=
  match normalize_opt x with Some y => y | None => x end.

(** crates/line_ending/src/lib.rs:73-78, [normalize_ref]. *)
Definition normalize_ref (x : text) : text :=
  match infer x with
  | Lf => x
  | Crlf => normalize x
  end.

(** crates/workspace/src/settings/line_ending.rs:13-28. *)
Inductive line_ending_setting := SAuto | SLf | SCrlf | SNative.

(** crates/workspace/src/settings/line_ending.rs:42-52, [finalize];
    [windows] is the compile-time target. *)
Definition finalize (windows : bool) (s : line_ending_setting) (source : text)
    : line_ending :=
  match s with
  | SLf => Lf
  | SCrlf => Crlf
  | SNative => if windows then Crlf else Lf
  | SAuto => infer source
  end.

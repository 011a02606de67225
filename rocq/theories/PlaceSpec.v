(** The comments of the source between two tokens, and the expressions next to
    them. *)
From Coq Require Import List Arith Bool NArith.
From Verif Require Import Text SyntaxKind ParseModel ParseSpec FmtTree FmtSpec SourceSpec.
Import ListNotations.

(** The comments with [h] tokens before them. *)
Fixpoint in_gap (h : nat) (ls : list leaf) : list (nat * nat) :=
  match ls with
  | [] => []
  | LTok _ _ _ :: r => match h with 0 => [] | S m => in_gap m r end
  | LCom s f :: r => match h with 0 => (s, f) :: in_gap 0 r | _ => in_gap h r end
  end.
(** The bytes between the token number [h] and the one before it. *)
Definition gap_start (t : ts) (h : nat) : nat :=
  match h with
  | 0 => 0
  | S m => match nth_error (token_leaves (leaves t)) m with Some (_, _, f) => f | None => 0 end
  end.
Definition gap_end (src : text) (t : ts) (h : nat) : nat :=
  match nth_error (token_leaves (leaves t)) h with Some (_, s, _) => s | None => blen src end.
(** No carriage return without a line feed among them. *)
Definition gap_clean (src : text) (t : ts) (h : nat) : Prop :=
  forall gap, slice (gap_start t h) (gap_end src t h) src = Some gap -> cr_paired gap.

(** The text of a comment and whether there is a line break between it and
    the token before it. *)
Definition alone (src : text) (t : ts) (h s : nat) : bool :=
  (h =? 0) ||
  match slice (gap_start t h) s src with
  | Some x => existsb (fun c => (c =? LF)%N) x
  | None => false
  end.
Definition gap_comments (src : text) (t : ts) (h : nat) : list (text * bool) :=
  flat_map (fun c => match slice (fst c) (snd c) src with
                     | Some x => [(x, alone src t h (fst c))]
                     | None => []
                     end) (in_gap h (leaves t)).
Definition all_comments (l : list (text * bool)) : list text := map fst l.
(** Comments on lines of their own, and those at the end of a line. *)
Definition own_line (l : list (text * bool)) : list text := map fst (filter snd l).
Definition end_of_line (l : list (text * bool)) : list text := map fst (filter (fun c => negb (snd c)) l).

(** The expressions [es] of the file or of a pair of braces ([true]), with [g]
    tokens before them. *)
Inductive sequence (r : root) : bool -> nat -> list expr -> Prop :=
| file_sequence : sequence r false (bom_tokens r) (r_exprs r)
| brace_sequence g n es : In (g, EBraced n es) (root_nodes r) -> sequence r true (g + 1) es.
Definition wide (es : list expr) : nat := List.length (flat_map etokens es).

(** The comments before an expression that belong to it ([a]: the expressions
    before it), and those behind it ([b]: the expressions after it). *)
Definition kept_before (a : list expr) (l : list (text * bool)) : list text :=
  match a with [] => all_comments l | _ => own_line l end.
Definition kept_behind (b : list expr) (l : list (text * bool)) : list (text * bool) :=
  match b with [] => l | _ => filter (fun c => negb (snd c)) l end.

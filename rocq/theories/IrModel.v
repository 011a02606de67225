(** The intermediate representation of biome_formatter that the rules write,
    the layouts its printer may choose, and the printing of a layout.

    biome_formatter is a dependency and is not in /repo; the builders modelled
    are those the rules of crates/air_r_formatter call.  Their meaning is the
    documented one (biome_formatter::builders).  Which groups break depends on
    the line width; [lay] leaves that open: a group may be laid out either
    way, whatever the width.  Theorems hold for every layout. *)
From Coq Require Import List Arith Bool NArith String.
From Verif Require Import Text SyntaxKind FmtTree.
Import ListNotations.

(** What text elements of a document can be. *)
Inductive word :=
| WTok (t : token)        (* a token, with its line endings normalised *)
| WComment (c : text)     (* a comment *)
| WPad (n : nat)          (* [" ".repeat(n)] written as text *)
| WVerb (e : expr)        (* source text of a node, copied *)
| WBreak.                 (* [text("\n")], joiner_ext.rs:68 *)

Inductive line_mode := LSoft | LSoftOrSpace | LHard | LEmpty.

(** What a comment held back to the end of the line starts with: a space, or a
    line break ([true]: an empty line).  Only trailing comments are held back. *)
Inductive gap := GSpace | GLine (empty : bool).

(** [FormatElement]s as a tree. *)
Inductive doc :=
| DNil
| DCat (a b : doc)
| DWord (w : word)
| DSpace
| DLine (m : line_mode)
| DIndent (d : doc)
| DGroup (expand : bool) (d : doc)
| DIfBreaks (d : doc)
| DExpandParent
| DSuffix (g : gap) (c : text)       (* [line_suffix] of a comment and what precedes it *)
| DBest (flat rest : doc)            (* [BestFitting]: the first variant, then the others *)
| DPanic.                            (* the rule panics here *)

Fixpoint cat (ds : list doc) : doc :=
  match ds with
  | [] => DNil
  | d :: r => DCat d (cat r)
  end.

(** Nothing was written ([is_empty] of a recording). *)
Fixpoint is_nil (d : doc) : bool :=
  match d with
  | DNil => true
  | DCat a b => is_nil a && is_nil b
  | _ => false
  end.

(** [indent], [block_indent], [soft_block_indent] and
    [soft_space_or_block_indent] of biome_formatter::builders: the line
    breaks are only written around content. *)
Definition indent (d : doc) : doc := if is_nil d then DNil else DIndent d.
Definition block_indent (d : doc) : doc :=
  if is_nil d then DNil else cat [DIndent (DCat (DLine LHard) d); DLine LHard].
Definition soft_block_indent (d : doc) : doc :=
  if is_nil d then DNil else cat [DIndent (DCat (DLine LSoft) d); DLine LSoft].
Definition soft_space_or_block_indent (d : doc) : doc :=
  if is_nil d then DNil
  else cat [DIndent (DCat (DLine LSoftOrSpace) d); DLine LSoftOrSpace].
Definition group (expand : bool) (d : doc) : doc := DGroup expand d.
Definition maybe_space (b : bool) : doc := if b then DSpace else DNil.

(** Texts with a line break, for [will_break].  The text of a copied node has
    one exactly if its source has. *)
Definition has_lf (t : text) : bool := existsb (fun c => N.eqb c LF) t.
Definition word_breaks (w : word) : bool :=
  match w with
  | WTok t => has_lf (t_text t)
  | WComment c => has_lf c
  | WPad _ => false
  | WVerb e => has_lf (n_src (notes_of e))
  | WBreak => true
  end.

(** [FormatElements::will_break]: an element that forces the enclosing group
    onto several lines.  Suffixes are skipped; of the variants only the first
    counts. *)
Fixpoint will_break (d : doc) : bool :=
  match d with
  | DNil | DSpace | DPanic => false
  | DCat a b => will_break a || will_break b
  | DWord w => word_breaks w
  | DLine LHard | DLine LEmpty => true
  | DLine LSoft | DLine LSoftOrSpace => false
  | DIndent d => will_break d
  | DGroup expand d => expand || will_break d
  | DIfBreaks d => will_break d
  | DExpandParent => true
  | DSuffix _ _ => false
  | DBest flat _ => will_break flat
  end.

(** [RemoveSoftLinesBuffer]: soft line breaks vanish or become spaces, and
    content printed only when the group breaks is dropped. *)
Fixpoint remove_soft (d : doc) : doc :=
  match d with
  | DLine LSoft => DNil
  | DLine LSoftOrSpace => DSpace
  | DIfBreaks _ => DNil
  | DCat a b => DCat (remove_soft a) (remove_soft b)
  | DIndent d => DIndent (remove_soft d)
  | DGroup expand d => DGroup expand (remove_soft d)
  | DBest a b => DBest (remove_soft a) (remove_soft b)
  | d => d
  end.

(** * Layouts *)

(** Printer steps: words, possible spaces and line breaks ([true]: an empty
    line).  [OSuffix]: a comment held back to the end of the line. *)
Inductive step := SWord (w : word) | SSpace | SLine (empty : bool).
Inductive op := OStep (s : step) | OSuffix (g : gap) (c : text).

(** [Flat] inside a group that fits on the line, [Expanded] otherwise. *)
Inductive mode := Flat | Expanded.

(** The layouts of a document.  Forced line breaks print in either mode, a
    group marked for expansion is expanded, and any other group and any
    variant of a best-fitting choice may be laid out either way. *)
Fixpoint lay (m : mode) (d : doc) (os : list op) : Prop :=
  match d with
  | DNil | DExpandParent => os = []
  | DCat a b => exists x y, lay m a x /\ lay m b y /\ os = x ++ y
  | DWord w => os = [OStep (SWord w)]
  | DSpace => os = [OStep SSpace]
  | DLine LHard => os = [OStep (SLine false)]
  | DLine LEmpty => os = [OStep (SLine true)]
  | DLine LSoft => os = match m with Flat => [] | Expanded => [OStep (SLine false)] end
  | DLine LSoftOrSpace =>
    os = match m with Flat => [OStep SSpace] | Expanded => [OStep (SLine false)] end
  | DIndent d => lay m d os
  | DGroup true d => lay Expanded d os
  | DGroup false d => exists m', lay m' d os
  | DIfBreaks d => match m with Flat => os = [] | Expanded => lay Expanded d os end
  | DSuffix g c => os = [OSuffix g c]
  | DBest a b => exists m', lay m' a os \/ lay m' b os
  | DPanic => False
  end.

(** * Printing *)

(** The printed file: words, spaces and line breaks.  Indentation, which the
    printer writes after a line break before the next word, is left out. *)
Inductive piece := PWord (w : word) | PSpace | PNewline.

(** biome_formatter's [PrinterState]: something is on the current line; a
    space is pending; the last thing printed is an empty line. *)
Record pstate := { p_line : bool; p_space : bool; p_empty : bool }.
Definition pstart : pstate := {| p_line := false; p_space := false; p_empty := false |}.

(** [Printer::print_element] for text, spaces and line breaks: a space is
    only remembered on a non-empty line and printed before the next word; a
    line break is skipped on an empty line, except that an empty line is
    added once. *)
Definition print_step (st : pstate) (s : step) : list piece * pstate :=
  match s with
  | SWord w =>
    ((if p_space st then [PSpace] else []) ++ [match w with WBreak => PNewline | _ => PWord w end],
     {| p_line := match w with WBreak => false | _ => true end;
        p_space := false; p_empty := false |})
  | SSpace =>
    ([], {| p_line := p_line st; p_space := p_space st || p_line st; p_empty := p_empty st |})
  | SLine empty =>
    let out := if p_line st then [PNewline] else [] in
    let was_empty := if p_line st then false else p_empty st in
    if empty && negb was_empty
    then (out ++ [PNewline], {| p_line := false; p_space := false; p_empty := true |})
    else (out, {| p_line := false; p_space := false; p_empty := was_empty |})
  end.

Fixpoint print_steps (st : pstate) (ss : list step) : list piece * pstate :=
  match ss with
  | [] => ([], st)
  | s :: r =>
    let '(o1, st1) := print_step st s in
    let '(o2, st2) := print_steps st1 r in
    (o1 ++ o2, st2)
  end.

Definition gap_step (g : gap) : step :=
  match g with GSpace => SSpace | GLine e => SLine e end.
Definition held_steps (held : list (gap * text)) : list step :=
  flat_map (fun '(g, c) => [gap_step g; SWord (WComment c)]) held.

(** The steps in the order they are printed: held-back comments come before
    the next line break, or at the end. *)
Fixpoint unsuffix (held : list (gap * text)) (os : list op) : list step :=
  match os with
  | [] => held_steps held
  | OSuffix g c :: r => unsuffix (held ++ [(g, c)]) r
  | OStep (SLine e) :: r => held_steps held ++ SLine e :: unsuffix [] r
  | OStep s :: r => s :: unsuffix held r
  end.

Definition run (os : list op) : list piece := fst (print_steps pstart (unsuffix [] os)).

(** [Formatted::print]: the document is printed from an expanded root. *)
Definition prints (d : doc) (out : list piece) : Prop :=
  exists os, lay Expanded d os /\ out = run os.

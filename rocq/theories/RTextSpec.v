(** Vocabulary for C39 on texts: what R makes of the printed text.  RReadSpec.v
    says how R reads a text; here is what it is to find. *)
From Coq Require Import List NArith Bool Arith String.
From Verif Require Import Text LineEndingSpec SettingsModel SyntaxKind DirectiveModel FmtTree IrModel FmtSpec LexSpec
  RReadSpec FmtLineSpec.
Import ListNotations.
Local Open Scope N_scope.

(** * Marked tokens as marked lexemes *)

Fixpoint join_last (m : list (text * bool)) (x : text) : list (text * bool) :=
  match m with
  | [] => []
  | [(y, b)] => [(y ++ x, b)]
  | a :: r => a :: join_last r x
  end.
(** As [lexemes]: a string is one lexeme, [ ]] ] is two. *)
Definition add_token (m : list (text * bool)) (x : token * bool) : list (text * bool) :=
  let '(t, b) := x in
  match t_kind t with
  | STRING_CONTENT | STRING_CLOSE => join_last m (t_text t)
  | R_BRACK2 =>
    m ++ match t_text t with [] => [] | c :: r => ([c], b) :: map (fun c => ([c], false)) r end
  | UNICODE_BOM => m
  | _ => m ++ [(t_text t, b)]
  end.
Definition marked_lexemes (l : list (token * bool)) : list (text * bool) := fold_left add_token l [].

(** The same token, but for line endings inside a string, with the same mark. *)
Definition same_marked (x y : token * bool) : Prop :=
  snd y = snd x /\ (fst y = fst x \/ same_token (fst x) (fst y)).

(** * Tokens of the kind that R takes them for *)

Definition classed_leaf (ts : list token) : Prop :=
  match ts with
  | [t] => kind_of (t_text t) = t_kind t
  | [a; z] =>
    is_string (t_text a) = true /\
    string_ends (t_text a) = (List.length (t_text a), List.length (t_text z))
  | [a; b; z] =>
    t_text b <> [] /\ is_string (t_text a) = true /\
    string_ends (t_text a) = (List.length (t_text a), List.length (t_text z))
  | _ => False
  end.
Definition classed_node (e : expr) : Prop :=
  match e with ELeaf _ _ ts => classed_leaf ts | _ => True end.
Definition classed (r : root) : Prop := all_of (everywhere classed_node) (r_exprs r).

(** * Copied ranges *)

(** Before a text that stands in [c] and is read by itself. *)
Definition r_inside (c : context) : rstate :=
  {| rs_open := [OSeen c]; rs_eats := is_round c; rs_fresh := false; rs_pause := NoBreak;
     rs_header := false |}.
(** The source of the node, read where it stands in the output, is the node.
    Nodes without a token have no source. *)
Definition fitting (c : context) (e : expr) : Prop :=
  (lines e = [] -> c = InRound /\ n_src (notes_of e) = []) /\
  exists is lv st,
    items (without_cr_of_crlf (n_src (notes_of e))) = Some is /\
    match is with [] => True | ILex x :: _ => LexSpec.is_comment x = false | _ => False end /\
    r_items (r_inside c) is = Some (marked_lexemes lv, st) /\
    Forall2 same_marked (lines e) lv /\
    rs_open st = [OSeen c] /\ rs_eats st = is_round c /\ rs_pause st = NoBreak /\
    rs_header st = false.

(** Code that may be asked to be skipped: the first comments before it may belong
    to a list around it. *)
Definition may_skip (o : format_options) (e : expr) : Prop :=
  (exists c, In c (n_lead (notes_of e)) /\ parse_comment_directive (c_text c) = Some DSkip) \/
  (exists n f args, e = ECall n f args /\ round_call e /\ listed (o_skip o) f).
(** Code that has its own parentheses, brackets or braces around it. *)
Definition bracketed (e : expr) : Prop :=
  match e with EBraced _ _ | EParen _ _ | EParams _ _ | EArgs _ _ _ _ => True | _ => False end.
(** Skipped code does not move from parentheses, where line breaks are thrown
    away, into braces that are added, where they are not; see
    [c39_skipped_refuted]. *)
Definition stays (o : format_options) (c0 c : context) (e : expr) : Prop :=
  may_skip o e -> wider c0 c \/ bracketed e.

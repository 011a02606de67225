(** Sources that R's lexer and tree-sitter split alike (assumption on the
    source and on tree-sitter's tree of it). *)
From Coq Require Import List NArith Bool Arith String.
From Verif Require Import Text SyntaxKind ParseModel ParseSpec FmtTree CommentsSpec LexSpec.
Import ListNotations.

(** How tokens are spelled: names, numbers and constants start with a letter, a
    digit, a dot, an underscore, a quote or a backtick and are on one line; a
    string starts with a quote or with [r] or [R]; an operator is what it is
    called. *)
Definition worded (x : token) : Prop :=
  match t_kind x with
  | IDENT | R_INTEGER_LITERAL | R_DOUBLE_LITERAL | R_COMPLEX_LITERAL | NEXT_KW | BREAK_KW | TRUE_KW
  | FALSE_KW | NULL_KW | INF_KW | NAN_KW | NA_LOGICAL_KW | NA_INTEGER_KW | NA_DOUBLE_KW
  | NA_COMPLEX_KW | NA_CHARACTER_KW | DOTS | DOTDOTI =>
    starts_with atom_char (t_text x) /\ ~ In LF (t_text x)
  | STRING_OPEN => starts_with atom_char (t_text x) /\ ~ In CR (t_text x)
  | STRING_CLOSE => ~ In LF (t_text x)
  | SPECIAL => starts_with (N.eqb PERCENT) (t_text x)
  | k => match operator_text k with Some s => t_text x = s | None => True end
  end.

(** Nothing stands between the quotes of a string and its content. *)
Definition string_goes_on (k : kind) : bool :=
  match k with STRING_OPEN | STRING_CONTENT => true | _ => false end.
Fixpoint strings_tight (l : list (kind * nat * nat)) : Prop :=
  match l with
  | (k, _, e) :: (((_, s, _) :: _) as r) =>
    (string_goes_on k = true -> s = e) /\ strings_tight r
  | _ => True
  end.

(** R reads the source as the tokens of the tree. *)
Definition read_by_r (src : text) (t : ts) : Prop :=
  (exists L, lex src = Some L /\ code L = lexemes (source_tokens src t)) /\
  Forall worded (source_tokens src t) /\ strings_tight (token_leaves (leaves t)).

(** How tree-sitter names the nodes of a tree (assumption), and which text each
    token of R has. *)
From Coq Require Import List NArith Bool Arith String.
From Verif Require Import Text SyntaxKind ParseModel ParseSpec FactorySpec PreorderModel.
Import ListNotations.

(** The rules of tree-sitter-r's grammar (dependency) whose nodes carry the name
    of the rule; some have always the same text. *)
Definition rules : list (text * option text) :=
  [ ($"program", None); ($"unary_operator", None); ($"binary_operator", None);
    ($"extract_operator", None); ($"namespace_operator", None); ($"function_definition", None);
    ($"parameters", None); ($"parameter", None); ($"if_statement", None); ($"for_statement", None);
    ($"while_statement", None); ($"repeat_statement", None); ($"braced_expression", None);
    ($"parenthesized_expression", None); ($"call", None); ($"subset", None); ($"subset2", None);
    ($"arguments", None); ($"argument", None); ($"identifier", None); ($"integer", None);
    ($"float", None); ($"complex", None); ($"string", None); ($"string_open", None);
    ($"string_content", None); ($"string_close", None); ($"escape_sequence", None); ($"na", None);
    ($"special", None); ($"dot_dot_i", None); ($"comment", None);
    ($"next", Some $"next"); ($"break", Some $"break"); ($"true", Some $"TRUE");
    ($"false", Some $"FALSE"); ($"null", Some $"NULL"); ($"inf", Some $"Inf"); ($"nan", Some $"NaN");
    ($"dots", Some $"..."); ($"comma", Some $",") ].

(** A node that no rule names is called by its text. *)
Definition named_text (name : text) : option text :=
  match find (fun x => text_eqb (fst x) name) rules with
  | Some (_, o) => o
  | None => Some name
  end.

Fixpoint nodes_of (t : nts) : list nts :=
  match t with NTS _ _ _ _ cs => t :: flat_map nodes_of cs end.

(** The nodes of the tree have the text that their names give them. *)
Definition called (src : text) (t : nts) : Prop :=
  Forall (fun d => forall x, named_text (n_name d) = Some x -> slice (n_start d) (n_end d) src = Some x)
    (nodes_of t).

(** The text of a token that has but one. *)
Definition fixed_text (k : kind) : option text :=
  match k with
  | L_CURLY => Some $"{" | R_CURLY => Some $"}" | L_BRACK => Some $"[" | R_BRACK => Some $"]"
  | L_BRACK2 => Some $"[[" | R_BRACK2 => Some $"]]" | L_PAREN => Some $"(" | R_PAREN => Some $")"
  | IF_KW => Some $"if" | ELSE_KW => Some $"else" | FOR_KW => Some $"for" | IN_KW => Some $"in"
  | WHILE_KW => Some $"while" | REPEAT_KW => Some $"repeat" | FUNCTION_KW => Some $"function"
  | BACKSLASH => Some $"\" | COMMA => Some $","
  | WAT => Some $"?" | TILDE => Some $"~" | ASSIGN => Some $"<-" | SUPER_ASSIGN => Some $"<<-"
  | WALRUS => Some $":=" | ASSIGN_RIGHT => Some $"->" | SUPER_ASSIGN_RIGHT => Some $"->>"
  | EQUAL => Some $"=" | OR_OP => Some $"|" | AND_OP => Some $"&" | OR2 => Some $"||"
  | AND2 => Some $"&&" | LESS_THAN => Some $"<" | LESS_THAN_OR_EQUAL_TO => Some $"<="
  | GREATER_THAN => Some $">" | GREATER_THAN_OR_EQUAL_TO => Some $">=" | EQUAL2 => Some $"=="
  | NOT_EQUAL => Some $"!=" | PLUS => Some $"+" | MINUS => Some $"-" | MULTIPLY => Some $"*"
  | DIVIDE => Some $"/" | EXPONENTIATE => Some $"^" | EXPONENTIATE2 => Some $"**"
  | PIPE => Some $"|>" | SyntaxKind.COLON => Some $":" | COLON2 => Some $"::"
  | COLON3 => Some $":::" | DOLLAR => Some $"$" | AT_OP => Some $"@" | BANG => Some $"!"
  | NEXT_KW => Some $"next" | BREAK_KW => Some $"break" | TRUE_KW => Some $"TRUE"
  | FALSE_KW => Some $"FALSE" | NULL_KW => Some $"NULL" | INF_KW => Some $"Inf"
  | NAN_KW => Some $"NaN" | DOTS => Some $"..." | NA_LOGICAL_KW => Some $"NA"
  | NA_INTEGER_KW => Some $"NA_integer_" | NA_DOUBLE_KW => Some $"NA_real_"
  | NA_COMPLEX_KW => Some $"NA_complex_" | NA_CHARACTER_KW => Some $"NA_character_"
  | _ => None
  end.

(** The other kinds of tokens, whose text varies, and the end of the file. *)
Definition varying : list kind :=
  [ IDENT; R_INTEGER_LITERAL; R_DOUBLE_LITERAL; R_COMPLEX_LITERAL; STRING_OPEN; STRING_CONTENT;
    STRING_CLOSE; SPECIAL; DOTDOTI; EOF ].

(** The name of the node for a token of this text: that of the rule for it, if
    there is one. *)
Definition node_name (x : text) : text :=
  match find (fun r => match snd r with Some y => text_eqb y x | None => false end) rules with
  | Some (n, _) => n
  | None => x
  end.

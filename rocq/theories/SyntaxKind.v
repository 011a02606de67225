(** Kinds of syntax nodes and tokens (crates/air_r_syntax, [RSyntaxKind]), as
    far as the parser and the formatter mention them. *)
From Coq Require Import List NArith Bool.

(** [RSyntaxKind], as far as the parser mentions it (parse.rs:255-409).
    [R_UNMAPPED] stands for a tree-sitter kind that [node_syntax_kind] does not
    know (treesitter.rs:182): ["arguments"], ["escape_sequence"], the [L] and
    [i] suffixes. *)
Inductive kind :=
  | R_ROOT | R_UNARY_EXPRESSION | R_BINARY_EXPRESSION | R_FUNCTION_DEFINITION
  | R_FOR_STATEMENT | R_WHILE_STATEMENT | R_REPEAT_STATEMENT
  | R_PARENTHESIZED_EXPRESSION | R_EXTRACT_EXPRESSION | R_NAMESPACE_EXPRESSION
  | R_NA_EXPRESSION
  | R_CALL | R_SUBSET | R_SUBSET2
  | R_PARAMETERS | R_PARAMETER | R_IF_STATEMENT | R_ARGUMENT | R_BRACED_EXPRESSIONS
  | R_DOUBLE_VALUE | R_IDENTIFIER | R_DOT_DOT_I | R_DOTS | R_NEXT_EXPRESSION
  | R_BREAK_EXPRESSION | R_TRUE_EXPRESSION | R_FALSE_EXPRESSION | R_NULL_EXPRESSION
  | R_INF_EXPRESSION | R_NAN_EXPRESSION
  | R_INTEGER_VALUE | R_COMPLEX_VALUE | R_STRING_VALUE
  | COMMA | TILDE | ASSIGN | SUPER_ASSIGN | WALRUS | ASSIGN_RIGHT | SUPER_ASSIGN_RIGHT
  | EQUAL | OR_OP | AND_OP | OR2 | AND2 | LESS_THAN | LESS_THAN_OR_EQUAL_TO
  | GREATER_THAN | GREATER_THAN_OR_EQUAL_TO | EQUAL2 | NOT_EQUAL | PLUS | MINUS
  | MULTIPLY | DIVIDE | EXPONENTIATE | EXPONENTIATE2 | PIPE | SPECIAL | COLON
  | COLON2 | COLON3 | DOLLAR | AT_OP | BANG | WAT | BACKSLASH
  | STRING_OPEN | STRING_CONTENT | STRING_CLOSE
  | FUNCTION_KW | FOR_KW | IN_KW | WHILE_KW | REPEAT_KW | IF_KW | ELSE_KW
  | NA_LOGICAL_KW | NA_INTEGER_KW | NA_DOUBLE_KW | NA_COMPLEX_KW | NA_CHARACTER_KW
  | L_PAREN | R_PAREN | L_BRACK | R_BRACK | L_BRACK2 | R_BRACK2 | L_CURLY | R_CURLY
  | COMMENT
  (* kinds that only occur in the syntax tree *)
  | R_ELSE_CLAUSE | R_CALL_ARGUMENTS | R_SUBSET_ARGUMENTS | R_SUBSET2_ARGUMENTS
  | R_ARGUMENT_NAME_CLAUSE | R_PARAMETER_LIST | R_ARGUMENT_LIST | R_EXPRESSION_LIST
  | R_PARAMETER_DEFAULT | EOF | R_INTEGER_LITERAL | R_DOUBLE_LITERAL | R_COMPLEX_LITERAL
  | IDENT | DOTS | DOTDOTI | NEXT_KW | BREAK_KW | TRUE_KW | FALSE_KW | NULL_KW | INF_KW
  | NAN_KW | R_BOGUS | R_BOGUS_EXPRESSION | R_BOGUS_VALUE
  | R_UNMAPPED
  (* the byte order mark (generated/kind.rs:15) *)
  | UNICODE_BOM.

(** Derived [PartialEq] of [RSyntaxKind]: by discriminant. *)
Definition kind_code (k : kind) : N :=
  match k with
  | R_ROOT => 0 | R_UNARY_EXPRESSION => 1 | R_BINARY_EXPRESSION => 2 | R_FUNCTION_DEFINITION => 3 | R_FOR_STATEMENT => 4
  | R_WHILE_STATEMENT => 5 | R_REPEAT_STATEMENT => 6 | R_PARENTHESIZED_EXPRESSION => 7 | R_EXTRACT_EXPRESSION => 8 | R_NAMESPACE_EXPRESSION => 9
  | R_NA_EXPRESSION => 10 | R_CALL => 11 | R_SUBSET => 12 | R_SUBSET2 => 13 | R_PARAMETERS => 14
  | R_PARAMETER => 15 | R_IF_STATEMENT => 16 | R_ARGUMENT => 17 | R_BRACED_EXPRESSIONS => 18 | R_DOUBLE_VALUE => 19
  | R_IDENTIFIER => 20 | R_DOT_DOT_I => 21 | R_DOTS => 22 | R_NEXT_EXPRESSION => 23 | R_BREAK_EXPRESSION => 24
  | R_TRUE_EXPRESSION => 25 | R_FALSE_EXPRESSION => 26 | R_NULL_EXPRESSION => 27 | R_INF_EXPRESSION => 28 | R_NAN_EXPRESSION => 29
  | R_INTEGER_VALUE => 30 | R_COMPLEX_VALUE => 31 | R_STRING_VALUE => 32 | COMMA => 33 | TILDE => 34
  | ASSIGN => 35 | SUPER_ASSIGN => 36 | WALRUS => 37 | ASSIGN_RIGHT => 38 | SUPER_ASSIGN_RIGHT => 39
  | EQUAL => 40 | OR_OP => 41 | AND_OP => 42 | OR2 => 43 | AND2 => 44
  | LESS_THAN => 45 | LESS_THAN_OR_EQUAL_TO => 46 | GREATER_THAN => 47 | GREATER_THAN_OR_EQUAL_TO => 48 | EQUAL2 => 49
  | NOT_EQUAL => 50 | PLUS => 51 | MINUS => 52 | MULTIPLY => 53 | DIVIDE => 54
  | EXPONENTIATE => 55 | EXPONENTIATE2 => 56 | PIPE => 57 | SPECIAL => 58 | COLON => 59
  | COLON2 => 60 | COLON3 => 61 | DOLLAR => 62 | AT_OP => 63 | BANG => 64
  | WAT => 65 | BACKSLASH => 66 | STRING_OPEN => 67 | STRING_CONTENT => 68 | STRING_CLOSE => 69
  | FUNCTION_KW => 70 | FOR_KW => 71 | IN_KW => 72 | WHILE_KW => 73 | REPEAT_KW => 74
  | IF_KW => 75 | ELSE_KW => 76 | NA_LOGICAL_KW => 77 | NA_INTEGER_KW => 78 | NA_DOUBLE_KW => 79
  | NA_COMPLEX_KW => 80 | NA_CHARACTER_KW => 81 | L_PAREN => 82 | R_PAREN => 83 | L_BRACK => 84
  | R_BRACK => 85 | L_BRACK2 => 86 | R_BRACK2 => 87 | L_CURLY => 88 | R_CURLY => 89
  | COMMENT => 90 | R_ELSE_CLAUSE => 91 | R_CALL_ARGUMENTS => 92 | R_SUBSET_ARGUMENTS => 93 | R_SUBSET2_ARGUMENTS => 94
  | R_ARGUMENT_NAME_CLAUSE => 95 | R_PARAMETER_LIST => 96 | R_ARGUMENT_LIST => 97 | R_EXPRESSION_LIST => 98 | R_PARAMETER_DEFAULT => 99
  | EOF => 100 | R_INTEGER_LITERAL => 101 | R_DOUBLE_LITERAL => 102 | R_COMPLEX_LITERAL => 103 | IDENT => 104
  | DOTS => 105 | DOTDOTI => 106 | NEXT_KW => 107 | BREAK_KW => 108 | TRUE_KW => 109
  | FALSE_KW => 110 | NULL_KW => 111 | INF_KW => 112 | NAN_KW => 113 | R_BOGUS => 114
  | R_BOGUS_EXPRESSION => 115 | R_UNMAPPED => 116 | UNICODE_BOM => 117 | R_BOGUS_VALUE => 118
  end%N.
Definition kind_eqb (a b : kind) : bool := (kind_code a =? kind_code b)%N.

Definition kind_of_code (n : N) : kind :=
  match n with
  | 0 => R_ROOT | 1 => R_UNARY_EXPRESSION | 2 => R_BINARY_EXPRESSION | 3 => R_FUNCTION_DEFINITION | 4 => R_FOR_STATEMENT
  | 5 => R_WHILE_STATEMENT | 6 => R_REPEAT_STATEMENT | 7 => R_PARENTHESIZED_EXPRESSION | 8 => R_EXTRACT_EXPRESSION | 9 => R_NAMESPACE_EXPRESSION
  | 10 => R_NA_EXPRESSION | 11 => R_CALL | 12 => R_SUBSET | 13 => R_SUBSET2 | 14 => R_PARAMETERS
  | 15 => R_PARAMETER | 16 => R_IF_STATEMENT | 17 => R_ARGUMENT | 18 => R_BRACED_EXPRESSIONS | 19 => R_DOUBLE_VALUE
  | 20 => R_IDENTIFIER | 21 => R_DOT_DOT_I | 22 => R_DOTS | 23 => R_NEXT_EXPRESSION | 24 => R_BREAK_EXPRESSION
  | 25 => R_TRUE_EXPRESSION | 26 => R_FALSE_EXPRESSION | 27 => R_NULL_EXPRESSION | 28 => R_INF_EXPRESSION | 29 => R_NAN_EXPRESSION
  | 30 => R_INTEGER_VALUE | 31 => R_COMPLEX_VALUE | 32 => R_STRING_VALUE | 33 => COMMA | 34 => TILDE
  | 35 => ASSIGN | 36 => SUPER_ASSIGN | 37 => WALRUS | 38 => ASSIGN_RIGHT | 39 => SUPER_ASSIGN_RIGHT
  | 40 => EQUAL | 41 => OR_OP | 42 => AND_OP | 43 => OR2 | 44 => AND2
  | 45 => LESS_THAN | 46 => LESS_THAN_OR_EQUAL_TO | 47 => GREATER_THAN | 48 => GREATER_THAN_OR_EQUAL_TO | 49 => EQUAL2
  | 50 => NOT_EQUAL | 51 => PLUS | 52 => MINUS | 53 => MULTIPLY | 54 => DIVIDE
  | 55 => EXPONENTIATE | 56 => EXPONENTIATE2 | 57 => PIPE | 58 => SPECIAL | 59 => COLON
  | 60 => COLON2 | 61 => COLON3 | 62 => DOLLAR | 63 => AT_OP | 64 => BANG
  | 65 => WAT | 66 => BACKSLASH | 67 => STRING_OPEN | 68 => STRING_CONTENT | 69 => STRING_CLOSE
  | 70 => FUNCTION_KW | 71 => FOR_KW | 72 => IN_KW | 73 => WHILE_KW | 74 => REPEAT_KW
  | 75 => IF_KW | 76 => ELSE_KW | 77 => NA_LOGICAL_KW | 78 => NA_INTEGER_KW | 79 => NA_DOUBLE_KW
  | 80 => NA_COMPLEX_KW | 81 => NA_CHARACTER_KW | 82 => L_PAREN | 83 => R_PAREN | 84 => L_BRACK
  | 85 => R_BRACK | 86 => L_BRACK2 | 87 => R_BRACK2 | 88 => L_CURLY | 89 => R_CURLY
  | 90 => COMMENT | 91 => R_ELSE_CLAUSE | 92 => R_CALL_ARGUMENTS | 93 => R_SUBSET_ARGUMENTS | 94 => R_SUBSET2_ARGUMENTS
  | 95 => R_ARGUMENT_NAME_CLAUSE | 96 => R_PARAMETER_LIST | 97 => R_ARGUMENT_LIST | 98 => R_EXPRESSION_LIST | 99 => R_PARAMETER_DEFAULT
  | 100 => EOF | 101 => R_INTEGER_LITERAL | 102 => R_DOUBLE_LITERAL | 103 => R_COMPLEX_LITERAL | 104 => IDENT
  | 105 => DOTS | 106 => DOTDOTI | 107 => NEXT_KW | 108 => BREAK_KW | 109 => TRUE_KW
  | 110 => FALSE_KW | 111 => NULL_KW | 112 => INF_KW | 113 => NAN_KW | 114 => R_BOGUS
  | 115 => R_BOGUS_EXPRESSION | 117 => UNICODE_BOM | 118 => R_BOGUS_VALUE
  | _ => R_UNMAPPED
  end%N.

Lemma kind_of_code_code : forall k, kind_of_code (kind_code k) = k.
Proof. destruct k; reflexivity. Qed.

Lemma kind_eqb_eq : forall a b, kind_eqb a b = true <-> a = b.
Proof.
  intros a b. unfold kind_eqb. rewrite N.eqb_eq. split; [|congruence].
  intro H. rewrite <- (kind_of_code_code a), <- (kind_of_code_code b). congruence.
Qed.

Lemma kind_eqb_refl : forall a, kind_eqb a a = true.
Proof. intro a. apply kind_eqb_eq. reflexivity. Qed.

Lemma kind_eqb_neq : forall a b, kind_eqb a b = false <-> a <> b.
Proof.
  intros a b. rewrite <- Bool.not_true_iff_false, kind_eqb_eq. reflexivity.
Qed.

(** The syntax factory: crates/air_r_factory/src/generated/syntax_factory.rs.

    When a node is finished, the factory compares its children with the slots
    of its kind.  Children that do not fit make it a bogus node. *)
From Coq Require Import List NArith Bool Arith.
From Verif Require Import SyntaxKind ParseModel.
Import ListNotations.

(** generated/nodes.rs:4252-4257, [AnyRValue::can_cast]. *)
Definition any_value (k : kind) : bool :=
  match k with
  | R_BOGUS_VALUE | R_COMPLEX_VALUE | R_DOUBLE_VALUE | R_INTEGER_VALUE | R_STRING_VALUE => true
  | _ => false
  end.
(** generated/nodes.rs:3853-3886, [AnyRExpression::can_cast]. *)
Definition any_expression (k : kind) : bool :=
  match k with
  | R_BINARY_EXPRESSION | R_BOGUS_EXPRESSION | R_BRACED_EXPRESSIONS | R_BREAK_EXPRESSION | R_CALL
  | R_DOT_DOT_I | R_DOTS | R_EXTRACT_EXPRESSION | R_FALSE_EXPRESSION | R_FOR_STATEMENT
  | R_FUNCTION_DEFINITION | R_IDENTIFIER | R_IF_STATEMENT | R_INF_EXPRESSION | R_NA_EXPRESSION
  | R_NAMESPACE_EXPRESSION | R_NAN_EXPRESSION | R_NEXT_EXPRESSION | R_NULL_EXPRESSION
  | R_PARENTHESIZED_EXPRESSION | R_REPEAT_STATEMENT | R_SUBSET | R_SUBSET2 | R_TRUE_EXPRESSION
  | R_UNARY_EXPRESSION | R_WHILE_STATEMENT => true
  | k => any_value k
  end.
(** generated/nodes.rs:3630-3635, 4087-4089, 4164-4166. *)
Definition any_argument_name (k : kind) : bool :=
  match k with
  | R_DOT_DOT_I | R_DOTS | R_IDENTIFIER | R_NULL_EXPRESSION | R_STRING_VALUE => true
  | _ => false
  end.
Definition any_parameter_name (k : kind) : bool :=
  match k with R_DOT_DOT_I | R_DOTS | R_IDENTIFIER => true | _ => false end.
Definition any_selector (k : kind) : bool :=
  match k with R_DOT_DOT_I | R_DOTS | R_IDENTIFIER | R_STRING_VALUE => true | _ => false end.

(** syntax_factory.rs:1055-1083 and 72-133: the operators. *)
Definition unary_slot (k : kind) : bool :=
  match k with PLUS | MINUS | TILDE | BANG | WAT => true | _ => false end.
Definition binary_slot (k : kind) : bool :=
  match k with
  | WAT | COLON | TILDE | ASSIGN | SUPER_ASSIGN | WALRUS | ASSIGN_RIGHT | SUPER_ASSIGN_RIGHT
  | EQUAL | OR_OP | AND_OP | OR2 | AND2 | LESS_THAN | LESS_THAN_OR_EQUAL_TO | GREATER_THAN
  | GREATER_THAN_OR_EQUAL_TO | EQUAL2 | NOT_EQUAL | PLUS | MINUS | MULTIPLY | DIVIDE
  | EXPONENTIATE | EXPONENTIATE2 | PIPE | SPECIAL => true
  | _ => false
  end.
Definition na_slot (k : kind) : bool :=
  match k with
  | NA_LOGICAL_KW | NA_INTEGER_KW | NA_DOUBLE_KW | NA_COMPLEX_KW | NA_CHARACTER_KW => true
  | _ => false
  end.

Inductive layout :=
| LSlots (l : list (kind -> bool))
| LNodes (p : kind -> bool)                    (** [make_node_list_syntax] *)
| LSeparated (p : kind -> bool) (sep : kind)   (** [make_separated_list_syntax] *)
| LAny.

(** syntax_factory.rs:12-1150, the arms of [make_syntax]; [None] is the
    [unreachable!] at the end. *)
Definition layout_of (k : kind) : option layout :=
  let is := kind_eqb in
  let slots l := Some (LSlots l) in
  match k with
  | R_BOGUS | R_BOGUS_EXPRESSION | R_BOGUS_VALUE => Some LAny
  | R_ARGUMENT => slots [is R_ARGUMENT_NAME_CLAUSE; any_expression]
  | R_ARGUMENT_NAME_CLAUSE => slots [any_argument_name; is EQUAL]
  | R_BINARY_EXPRESSION => slots [any_expression; binary_slot; any_expression]
  | R_BRACED_EXPRESSIONS => slots [is L_CURLY; is R_EXPRESSION_LIST; is R_CURLY]
  | R_BREAK_EXPRESSION => slots [is BREAK_KW]
  | R_CALL => slots [any_expression; is R_CALL_ARGUMENTS]
  | R_CALL_ARGUMENTS => slots [is L_PAREN; is R_ARGUMENT_LIST; is R_PAREN]
  | R_COMPLEX_VALUE => slots [is R_COMPLEX_LITERAL]
  | R_DOT_DOT_I => slots [is DOTDOTI]
  | R_DOTS => slots [is DOTS]
  | R_DOUBLE_VALUE => slots [is R_DOUBLE_LITERAL]
  | R_ELSE_CLAUSE => slots [is ELSE_KW; any_expression]
  | R_EXTRACT_EXPRESSION =>
    slots [any_expression; fun k => is DOLLAR k || is AT_OP k; any_selector]
  | R_FALSE_EXPRESSION => slots [is FALSE_KW]
  | R_FOR_STATEMENT =>
    slots [is FOR_KW; is L_PAREN; is R_IDENTIFIER; is IN_KW; any_expression; is R_PAREN;
           any_expression]
  | R_FUNCTION_DEFINITION =>
    slots [fun k => is FUNCTION_KW k || is BACKSLASH k; is R_PARAMETERS; any_expression]
  | R_IDENTIFIER => slots [is IDENT]
  | R_IF_STATEMENT =>
    slots [is IF_KW; is L_PAREN; any_expression; is R_PAREN; any_expression; is R_ELSE_CLAUSE]
  | R_INF_EXPRESSION => slots [is INF_KW]
  | R_INTEGER_VALUE => slots [is R_INTEGER_LITERAL]
  | R_NA_EXPRESSION => slots [na_slot]
  | R_NAMESPACE_EXPRESSION =>
    slots [any_selector; fun k => is COLON2 k || is COLON3 k; any_selector]
  | R_NAN_EXPRESSION => slots [is NAN_KW]
  | R_NEXT_EXPRESSION => slots [is NEXT_KW]
  | R_NULL_EXPRESSION => slots [is NULL_KW]
  | R_PARAMETER => slots [any_parameter_name; is R_PARAMETER_DEFAULT]
  | R_PARAMETER_DEFAULT => slots [is EQUAL; any_expression]
  | R_PARAMETERS => slots [is L_PAREN; is R_PARAMETER_LIST; is R_PAREN]
  | R_PARENTHESIZED_EXPRESSION => slots [is L_PAREN; any_expression; is R_PAREN]
  | R_REPEAT_STATEMENT => slots [is REPEAT_KW; any_expression]
  | R_ROOT => slots [is UNICODE_BOM; is R_EXPRESSION_LIST; is EOF]
  | R_STRING_VALUE => slots [is STRING_OPEN; is STRING_CONTENT; is STRING_CLOSE]
  | R_SUBSET => slots [any_expression; is R_SUBSET_ARGUMENTS]
  | R_SUBSET2 => slots [any_expression; is R_SUBSET2_ARGUMENTS]
  | R_SUBSET2_ARGUMENTS => slots [is L_BRACK2; is R_ARGUMENT_LIST; is R_BRACK2]
  | R_SUBSET_ARGUMENTS => slots [is L_BRACK; is R_ARGUMENT_LIST; is R_BRACK]
  | R_TRUE_EXPRESSION => slots [is TRUE_KW]
  | R_UNARY_EXPRESSION => slots [unary_slot; any_expression]
  | R_WHILE_STATEMENT =>
    slots [is WHILE_KW; is L_PAREN; any_expression; is R_PAREN; any_expression]
  | R_ARGUMENT_LIST => Some (LSeparated (is R_ARGUMENT) COMMA)
  | R_EXPRESSION_LIST => Some (LNodes any_expression)
  | R_PARAMETER_LIST => Some (LSeparated (is R_PARAMETER) COMMA)
  | _ => None
  end.

(** The arms with slots: each slot takes the next child if it fits and stays
    empty otherwise; the children left over. *)
Fixpoint left_over (l : list (kind -> bool)) (ks : list kind) : list kind :=
  match l, ks with
  | s :: l', k :: ks' => if s k then left_over l' ks' else left_over l' ks
  | _, _ => ks
  end.

(** biome_rowan [make_separated_list_syntax] without a trailing separator
    (trusted).  A list with missing elements or separators, which it may keep,
    is not told apart from a bogus one. *)
Fixpoint separated (p : kind -> bool) (sep : kind) (ks : list kind) : bool :=
  match ks with
  | [] => true
  | [k] => p k
  | k :: s :: ks' => p k && kind_eqb s sep && match ks' with [] => false | _ => separated p sep ks' end
  end.

Definition keeps (l : layout) (ks : list kind) : bool :=
  match l with
  | LSlots l => match left_over l ks with [] => true | _ => false end
  | LNodes p => forallb p ks
  | LSeparated p sep => separated p sep ks
  | LAny => true
  end.

(** crates/air_r_syntax/src/lib.rs:159-270, [to_bogus], of a kind of nodes. *)
Definition to_bogus (k : kind) : kind :=
  match k with
  | R_INTEGER_VALUE | R_DOUBLE_VALUE | R_COMPLEX_VALUE | R_STRING_VALUE | R_BOGUS_VALUE =>
    R_BOGUS_VALUE
  | R_UNARY_EXPRESSION | R_BINARY_EXPRESSION | R_EXTRACT_EXPRESSION | R_NAMESPACE_EXPRESSION
  | R_BOGUS_EXPRESSION => R_BOGUS_EXPRESSION
  | _ => R_BOGUS
  end.

Definition green_kind (g : green) : kind :=
  match g with GNode k _ => k | GTok t => tk_kind t end.

(** The tree of the sink (ParseModel.v) with every node passed through the
    factory when it is finished. *)
Fixpoint rebuilt (g : green) : option green :=
  match g with
  | GTok t => Some (GTok t)
  | GNode k cs =>
    match (fix all (l : list green) : option (list green) :=
             match l with
             | [] => Some []
             | x :: r =>
               match rebuilt x, all r with
               | Some y, Some z => Some (y :: z)
               | _, _ => None
               end
             end) cs, layout_of k with
    | Some cs', Some l =>
      Some (GNode (if keeps l (map green_kind cs') then k else to_bogus k) cs')
    | _, _ => None
    end
  end.

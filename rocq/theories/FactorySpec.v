(** Which syntax trees are complete, which trees tree-sitter-r's grammar
    produces, and how the tokens of R are spelled. *)
From Coq Require Import List NArith Bool Arith String.
From Verif Require Import Text SyntaxKind ParseModel ParseSpec FmtTree CommentsSpec.
Import ListNotations.

(** The kinds of a tree, its texts left out. *)
Inductive skel := KNode (k : kind) (cs : list skel) | KTok (k : kind).
Definition skel_kind (x : skel) : kind := match x with KNode k _ | KTok k => k end.
Fixpoint skel_of (g : green) : skel :=
  match g with GNode k cs => KNode k (map skel_of cs) | GTok t => KTok (tk_kind t) end.

Definition one_of (l : list kind) (k : kind) : bool := existsb (kind_eqb k) l.

(** * xtask/codegen/r.ungram *)

(** [AnyRExpression] (r.ungram:271-313), bogus nodes aside. *)
Definition expressions : list kind :=
  [ R_INTEGER_VALUE; R_DOUBLE_VALUE; R_COMPLEX_VALUE; R_STRING_VALUE; R_IDENTIFIER;
    R_UNARY_EXPRESSION; R_BINARY_EXPRESSION; R_EXTRACT_EXPRESSION; R_NAMESPACE_EXPRESSION;
    R_FUNCTION_DEFINITION; R_IF_STATEMENT; R_FOR_STATEMENT; R_WHILE_STATEMENT;
    R_REPEAT_STATEMENT; R_BRACED_EXPRESSIONS; R_PARENTHESIZED_EXPRESSION; R_CALL; R_SUBSET;
    R_SUBSET2; R_NEXT_EXPRESSION; R_BREAK_EXPRESSION; R_TRUE_EXPRESSION; R_FALSE_EXPRESSION;
    R_NULL_EXPRESSION; R_INF_EXPRESSION; R_NAN_EXPRESSION; R_NA_EXPRESSION; R_DOTS; R_DOT_DOT_I ].
(** [AnyRSelector], [AnyRParameterName], [AnyRArgumentName]
    (r.ungram:105-109, 134-137, 262-267). *)
Definition selectors := [R_IDENTIFIER; R_STRING_VALUE; R_DOTS; R_DOT_DOT_I].
Definition parameter_names := [R_IDENTIFIER; R_DOTS; R_DOT_DOT_I].
Definition argument_names := R_NULL_EXPRESSION :: selectors.
(** r.ungram:51, 57-91. *)
Definition unary_operators := [PLUS; MINUS; TILDE; BANG; WAT].
Definition binary_operators :=
  [ WAT; COLON; TILDE; ASSIGN; SUPER_ASSIGN; WALRUS; ASSIGN_RIGHT; SUPER_ASSIGN_RIGHT; EQUAL;
    OR_OP; AND_OP; OR2; AND2; LESS_THAN; LESS_THAN_OR_EQUAL_TO; GREATER_THAN;
    GREATER_THAN_OR_EQUAL_TO; EQUAL2; NOT_EQUAL; PLUS; MINUS; MULTIPLY; DIVIDE; EXPONENTIATE;
    EXPONENTIATE2; PIPE; SPECIAL ].
Definition missing_values :=
  [NA_LOGICAL_KW; NA_INTEGER_KW; NA_DOUBLE_KW; NA_COMPLEX_KW; NA_CHARACTER_KW].

(** The fields of a node, [May]: with [?]; a list; a list with separators. *)
Inductive part := Must (l : list kind) | May (l : list kind).
Inductive rule := Fields (l : list part) | Many (l : list kind) | Parted (l : list kind) (by_ : kind).

Fixpoint fill (ps : list part) (ks : list kind) : bool :=
  match ps, ks with
  | [], [] => true
  | [], _ :: _ => false
  | Must _ :: _, [] => false
  | Must l :: ps', k :: ks' => one_of l k && fill ps' ks'
  | May _ :: ps', [] => fill ps' []
  | May l :: ps', k :: ks' => if one_of l k then fill ps' ks' else fill ps' ks
  end.
(** [x, s, x, s, ..., x]. *)
Fixpoint parted (l : list kind) (by_ : kind) (ks : list kind) : bool :=
  match ks with
  | [] => false
  | k :: r =>
    one_of l k &&
    match r with [] => true | s :: r' => kind_eqb s by_ && parted l by_ r' end
  end.
Definition obeys (r : rule) (ks : list kind) : bool :=
  match r with
  | Fields ps => fill ps ks
  | Many l => forallb (one_of l) ks
  | Parted l by_ => match ks with [] => true | _ => parted l by_ ks end
  end.

(** r.ungram, from top to bottom; bogus nodes have no rule. *)
Definition ungram (k : kind) : option rule :=
  let e := Must expressions in
  let t k := Must [k] in
  match k with
  | R_ROOT => Some (Fields [May [UNICODE_BOM]; t R_EXPRESSION_LIST; t EOF])
  | R_UNARY_EXPRESSION => Some (Fields [Must unary_operators; e])
  | R_BINARY_EXPRESSION => Some (Fields [e; Must binary_operators; e])
  | R_EXTRACT_EXPRESSION => Some (Fields [e; Must [DOLLAR; AT_OP]; Must selectors])
  | R_NAMESPACE_EXPRESSION =>
    Some (Fields [Must selectors; Must [COLON2; COLON3]; Must selectors])
  | R_FUNCTION_DEFINITION => Some (Fields [Must [FUNCTION_KW; BACKSLASH]; t R_PARAMETERS; e])
  | R_PARAMETERS => Some (Fields [t L_PAREN; t R_PARAMETER_LIST; t R_PAREN])
  | R_PARAMETER_LIST => Some (Parted [R_PARAMETER] COMMA)
  | R_PARAMETER => Some (Fields [Must parameter_names; May [R_PARAMETER_DEFAULT]])
  | R_PARAMETER_DEFAULT => Some (Fields [t EQUAL; e])
  | R_IF_STATEMENT =>
    Some (Fields [t IF_KW; t L_PAREN; e; t R_PAREN; e; May [R_ELSE_CLAUSE]])
  | R_ELSE_CLAUSE => Some (Fields [t ELSE_KW; e])
  | R_FOR_STATEMENT =>
    Some (Fields [t FOR_KW; t L_PAREN; t R_IDENTIFIER; t IN_KW; e; t R_PAREN; e])
  | R_WHILE_STATEMENT => Some (Fields [t WHILE_KW; t L_PAREN; e; t R_PAREN; e])
  | R_REPEAT_STATEMENT => Some (Fields [t REPEAT_KW; e])
  | R_BRACED_EXPRESSIONS => Some (Fields [t L_CURLY; t R_EXPRESSION_LIST; t R_CURLY])
  | R_PARENTHESIZED_EXPRESSION => Some (Fields [t L_PAREN; e; t R_PAREN])
  | R_CALL => Some (Fields [e; t R_CALL_ARGUMENTS])
  | R_CALL_ARGUMENTS => Some (Fields [t L_PAREN; t R_ARGUMENT_LIST; t R_PAREN])
  | R_SUBSET => Some (Fields [e; t R_SUBSET_ARGUMENTS])
  | R_SUBSET_ARGUMENTS => Some (Fields [t L_BRACK; t R_ARGUMENT_LIST; t R_BRACK])
  | R_SUBSET2 => Some (Fields [e; t R_SUBSET2_ARGUMENTS])
  | R_SUBSET2_ARGUMENTS => Some (Fields [t L_BRACK2; t R_ARGUMENT_LIST; t R_BRACK2])
  | R_ARGUMENT_LIST => Some (Parted [R_ARGUMENT] COMMA)
  | R_ARGUMENT => Some (Fields [May [R_ARGUMENT_NAME_CLAUSE]; May expressions])
  | R_ARGUMENT_NAME_CLAUSE => Some (Fields [Must argument_names; t EQUAL])
  | R_EXPRESSION_LIST => Some (Many expressions)
  | R_INTEGER_VALUE => Some (Fields [t R_INTEGER_LITERAL])
  | R_DOUBLE_VALUE => Some (Fields [t R_DOUBLE_LITERAL])
  | R_COMPLEX_VALUE => Some (Fields [t R_COMPLEX_LITERAL])
  | R_STRING_VALUE => Some (Fields [t STRING_OPEN; May [STRING_CONTENT]; t STRING_CLOSE])
  | R_NEXT_EXPRESSION => Some (Fields [t NEXT_KW])
  | R_BREAK_EXPRESSION => Some (Fields [t BREAK_KW])
  | R_TRUE_EXPRESSION => Some (Fields [t TRUE_KW])
  | R_FALSE_EXPRESSION => Some (Fields [t FALSE_KW])
  | R_NULL_EXPRESSION => Some (Fields [t NULL_KW])
  | R_INF_EXPRESSION => Some (Fields [t INF_KW])
  | R_NAN_EXPRESSION => Some (Fields [t NAN_KW])
  | R_NA_EXPRESSION => Some (Fields [Must missing_values])
  | R_DOTS => Some (Fields [t DOTS])
  | R_DOT_DOT_I => Some (Fields [t DOTDOTI])
  | R_IDENTIFIER => Some (Fields [t IDENT])
  | _ => None
  end.
Definition is_bogus (k : kind) : bool := one_of [R_BOGUS; R_BOGUS_EXPRESSION; R_BOGUS_VALUE] k.

(** Some node of the tree is of such a kind. *)
Fixpoint any_node (p : kind -> bool) (g : green) : bool :=
  match g with GNode k cs => p k || existsb (any_node p) cs | GTok _ => false end.

(** Every node has the children r.ungram gives it, none missing, none more; no
    node is bogus. *)
Fixpoint complete (x : skel) : bool :=
  match x with
  | KTok k => match ungram k with Some _ => false | None => negb (is_bogus k) end
  | KNode k cs =>
    match ungram k with
    | Some r => obeys r (map skel_kind cs) && forallb complete cs
    | None => false
    end
  end.

(** * tree-sitter-r's grammar (assumption)

    For each node, the sequences of children it may have, comments aside.
    [ParseSpec.gram] says where the delimiters of lists stand and which of an
    argument's children is its name. *)
Definition core (cs : list ts) : list ts :=
  filter (fun c => negb (kind_eqb (ts_kind c) COMMENT)) cs.

Fixpoint each (ps : list (list kind)) (ks : list kind) : bool :=
  match ps, ks with
  | [], [] => true
  | p :: ps', k :: ks' => one_of p k && each ps' ks'
  | _, _ => false
  end.
Definition between (f : list kind -> bool) (ks : list kind) : bool := f (removelast (tl ks)).

Definition children_ok (k : kind) (ks : list kind) : bool :=
  let e := expressions in
  let alternatives l := existsb (fun ps => each ps ks) l in
  match k with
  | R_ROOT => forallb (one_of e) ks
  | R_UNARY_EXPRESSION => each [unary_operators; e] ks
  | R_BINARY_EXPRESSION => each [e; binary_operators; e] ks
  | R_EXTRACT_EXPRESSION => each [e; [DOLLAR; AT_OP]; selectors] ks
  | R_NAMESPACE_EXPRESSION => each [selectors; [COLON2; COLON3]; selectors] ks
  | R_FUNCTION_DEFINITION => each [[FUNCTION_KW; BACKSLASH]; [R_PARAMETERS]; e] ks
  | R_PARAMETERS =>
    between (fun m => match m with [] => true | _ => parted [R_PARAMETER] COMMA m end) ks
  | R_PARAMETER => alternatives [[parameter_names]; [parameter_names; [EQUAL]; e]]
  | R_IF_STATEMENT =>
    alternatives [[[IF_KW]; [L_PAREN]; e; [R_PAREN]; e];
                  [[IF_KW]; [L_PAREN]; e; [R_PAREN]; e; [ELSE_KW]; e]]
  | R_FOR_STATEMENT => each [[FOR_KW]; [L_PAREN]; [R_IDENTIFIER]; [IN_KW]; e; [R_PAREN]; e] ks
  | R_WHILE_STATEMENT => each [[WHILE_KW]; [L_PAREN]; e; [R_PAREN]; e] ks
  | R_REPEAT_STATEMENT => each [[REPEAT_KW]; e] ks
  | R_BRACED_EXPRESSIONS => between (forallb (one_of e)) ks
  | R_PARENTHESIZED_EXPRESSION => each [[L_PAREN]; e; [R_PAREN]] ks
  | R_CALL | R_SUBSET | R_SUBSET2 => each [e; [R_UNMAPPED]] ks
  | R_ARGUMENT =>
    alternatives [[e]; [argument_names; [EQUAL]]; [argument_names; [EQUAL]; e]]
  | R_STRING_VALUE => alternatives [[[STRING_OPEN]; [STRING_CLOSE]];
                                    [[STRING_OPEN]; [STRING_CONTENT]; [STRING_CLOSE]]]
  | R_NA_EXPRESSION => each [missing_values] ks
  | _ => true
  end.

(** A number's children and the content of a string are not looked at. *)
Definition opaque (k : kind) : bool := one_of [R_INTEGER_VALUE; R_COMPLEX_VALUE; STRING_CONTENT] k.

Fixpoint conforms (t : ts) : bool :=
  match t with
  | TS k _ _ _ cs =>
    opaque k ||
    children_ok k (map ts_kind (core cs)) && forallb conforms cs &&
    (** the arguments of a call, and nothing else in it, are so called *)
    (negb (one_of [R_CALL; R_SUBSET; R_SUBSET2] k) ||
     forallb (fun c => Bool.eqb (is_arguments c) (kind_eqb (ts_kind c) R_UNMAPPED)) cs)
  end.

(** * The spelling of tokens (assumption)

    A node of tree-sitter that the grammar does not name is called by its text;
    crates/air_r_parser/src/treesitter.rs:88-184 lists them.  A comma, which
    has a name, is a comma. *)
Definition spelling (k : kind) : option text :=
  match k with
  | L_CURLY => Some $"{" | R_CURLY => Some $"}" | L_BRACK => Some $"[" | R_BRACK => Some $"]"
  | L_BRACK2 => Some $"[[" | R_BRACK2 => Some $"]]" | L_PAREN => Some $"(" | R_PAREN => Some $")"
  | EQUAL => Some $"=" | IF_KW => Some $"if" | ELSE_KW => Some $"else" | FOR_KW => Some $"for"
  | IN_KW => Some $"in" | WHILE_KW => Some $"while" | REPEAT_KW => Some $"repeat"
  | COMMA => Some $","
  | _ => None
  end.
Definition spelled (src : text) (t : ts) : Prop :=
  Forall (fun x => match spelling (t_kind x) with Some s => t_text x = s | None => True end)
    (source_tokens src t).

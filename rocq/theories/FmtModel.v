(** Model of the formatting rules: crates/air_r_formatter/src/lib.rs,
    comments_ext.rs, joiner_ext.rs, loop_body.rs, r/auxiliary and r/lists.

    Every rule is a function from the documents of the children to a document.
    Errors of the syntax tree (missing required children, bogus nodes) are not
    modelled: the tree is complete (C51). *)
From Coq Require Import List Arith Bool NArith String.
From Verif Require Import Text LineEndingModel SettingsModel SyntaxKind DirectiveModel
  FmtTree IrModel TableModel.
Import ListNotations.

(** * Tokens *)

(** [token.format()]; string_content.rs:26-67 for the content of a string. *)
Definition norm_token (t : token) : token :=
  if kind_eqb (t_kind t) STRING_CONTENT
  then tk STRING_CONTENT (normalize_ref (t_text t)) else t.
Definition token_doc (t : token) : doc := DWord (WTok (norm_token t)).

(** * Comments *)

(** [FormatLeadingComments] of biome_formatter for line comments. *)
Definition leading_comments (cs : list comment) : doc :=
  cat (map (fun c => cat [ DWord (WComment (c_text c));
                           DLine (if 1 <? c_after c then LEmpty else LHard) ]) cs).

(** [FormatTrailingComments] of biome_formatter for line comments. *)
Fixpoint trailing_from (lines : nat) (cs : list comment) : doc :=
  match cs with
  | [] => DNil
  | c :: r =>
    let lines := lines + c_before c in
    cat [ DSuffix (if 0 <? lines then GLine (1 <? c_before c) else GSpace) (c_text c);
          DExpandParent;
          trailing_from lines r ]
  end.
Definition trailing_comments (cs : list comment) : doc := trailing_from 0 cs.

(** [FormatDanglingComments] of biome_formatter for line comments. *)
Fixpoint dangling_content (cs : list comment) : doc :=
  match cs with
  | [] => DNil
  | [c] => cat [ DWord (WComment (c_text c)); DLine LHard ]
  | c :: r => cat [ DWord (WComment (c_text c)); DLine LHard; dangling_content r ]
  end.
Definition dangling_block (cs : list comment) : doc :=
  match cs with [] => DNil | _ => block_indent (dangling_content cs) end.
Definition dangling_soft (cs : list comment) : doc :=
  match cs with [] => DNil | _ => group false (soft_block_indent (dangling_content cs)) end.

Definition has_comments (n : notes) : bool :=
  match n_lead n ++ n_dang n ++ n_trail n with [] => false | _ => true end.

(** [format_verbatim_node] of biome_formatter (also [format_suppressed_node]):
    the comments outside the node's own text, and its text. *)
Definition outside (cs : list comment) : list comment :=
  filter (fun c => negb (c_within c)) cs.
Definition verbatim (e : expr) : doc :=
  cat [ leading_comments (outside (n_lead (notes_of e)));
        DWord (WVerb e);
        trailing_comments (outside (n_trail (notes_of e))) ].

(** * Directives and settings *)

Definition directive_eqb (a b : directive) : bool :=
  match a, b with
  | DSkip, DSkip | DSkipFile, DSkipFile | DTable, DTable => true
  | _, _ => false
  end.

(** comments_ext.rs:58-73, [can_have_directive]. *)
Definition can_have_directive (anc : list frame) : bool :=
  match anc with
  | FRootList :: _ | FBracedList _ :: _ | FArgList :: _ | FBinary _ :: _ => true
  | _ => false
  end.

(** comments_ext.rs:32-56. *)
Definition has_directive (d : directive) (anc : list frame) (n : notes) : bool :=
  can_have_directive anc &&
  existsb (fun c => match parse_comment_directive (c_text c) with
                    | Some d' => directive_eqb d d'
                    | None => false
                    end) (n_lead n).

(** comments_ext.rs:95-111, [in_setting]: the name of the called function. *)
Definition called_name (f : expr) : option text :=
  match f with
  | ELeaf _ k [t] => if kind_eqb k R_IDENTIFIER then Some (t_text t) else None
  | ENamespace _ _ _ (ELeaf _ k [t]) =>
    if kind_eqb k R_IDENTIFIER then Some (t_text t) else None
  | _ => None
  end.
Definition in_setting (names : option (list text)) (f : expr) : bool :=
  match names, called_name f with
  | Some l, Some name => sorted_strings_contains l name
  | _, _ => false
  end.

(** An [RCall] as opposed to [RSubset] and [RSubset2]. *)
Definition is_call_args (args : expr) : bool :=
  match args with EArgs _ KCall _ _ => true | _ => false end.

(** Options of single rules: [FormatRIfStatementOptions],
    [FormatRElseClauseOptions] (if_statement.rs:20-32, else_clause.rs:9-23),
    [FormatRCallArgumentsOptions] (call_arguments.rs:30-37),
    [FormatRBinaryExpressionOptions] (binary_expression.rs:60-72) and
    [FormatFunctionOptions] (function_definition.rs:37-41). *)
Inductive braced := Force | IfGroupBreaks.
Record fopt := {
  fo_braced : option braced;
  fo_table : option bool;
  fo_left : bool;
  fo_grouped : bool
}.
Definition fo0 : fopt :=
  {| fo_braced := None; fo_table := None; fo_left := false; fo_grouped := false |}.
Definition fo_with_braced (b : braced) : fopt :=
  {| fo_braced := Some b; fo_table := None; fo_left := false; fo_grouped := false |}.
Definition fo_with_table (t : bool) : fopt :=
  {| fo_braced := None; fo_table := Some t; fo_left := false; fo_grouped := false |}.
Definition fo_with_left : fopt :=
  {| fo_braced := None; fo_table := None; fo_left := true; fo_grouped := false |}.
Definition fo_with_grouped : fopt :=
  {| fo_braced := None; fo_table := None; fo_left := false; fo_grouped := true |}.

Section Fmt.
Variable o : format_options.

(** [parse_other] of call_arguments_table.rs:451-483 prints one argument's
    document by itself; [None] when the text has a line break.  Which layout
    the printer takes is its own affair: see [cell_printer] in FmtSpec.v. *)
Variable print_cell : doc -> option (list piece).

(** lib.rs:216-221 and call.rs:33-37, [is_suppressed]. *)
Definition suppressed (anc : list frame) (e : expr) : bool :=
  has_directive DSkip anc (notes_of e)
  || match e with
     | ECall _ f args => is_call_args args && in_setting (o_skip o) f
     | _ => false
     end.

(** lib.rs:202-211, [FormatNodeRule::fmt]; [dang] is what
    [fmt_dangling_comments] writes. *)
Definition node_rule (anc : list frame) (e : expr) (fields dang : doc) : doc :=
  if suppressed anc e then verbatim e
  else cat [ leading_comments (n_lead (notes_of e)); fields; dang;
             trailing_comments (n_trail (notes_of e)) ].
(** The default of lib.rs:246-250. *)
Definition node_rule_soft (anc : list frame) (e : expr) (fields : doc) : doc :=
  node_rule anc e fields (dangling_soft (n_dang (notes_of e))).

Definition in_braces (d : doc) : doc :=
  cat [ token_doc tLCURLY; block_indent d; token_doc tRCURLY ].
Definition in_braces_if_broken (d : doc) : doc :=
  cat [ DIfBreaks (token_doc tLCURLY); soft_block_indent d; DIfBreaks (token_doc tRCURLY) ].

(** * Lists *)

(** joiner_ext.rs:46-82 with a hard line break as separator; [double] is
    [EmptyLines::Double]. *)
Definition entry_break (double : bool) (lines : nat) : doc :=
  if double then
    if 2 <? lines then cat [ DLine LEmpty; DWord WBreak ]
    else if lines =? 2 then DLine LEmpty
    else DLine LHard
  else if 1 <? lines then DLine LEmpty else DLine LHard.

Fixpoint join_entries (double first : bool) (l : list (expr * doc)) : doc :=
  match l with
  | [] => DNil
  | (e, d) :: r =>
    cat [ (if first then DNil else entry_break double (n_lines (notes_of e))); d;
          join_entries double false r ]
  end.

(** r/lists/expression_list.rs:18-27. *)
Definition rule_expression_list (double : bool) (l : list (expr * doc)) : doc :=
  join_entries double true l.

(** r/lists/parameter_list.rs:5-33 and biome_formatter's
    [join_nodes_with_soft_line]. *)
Fixpoint join_params (first : bool) (l : list (expr * doc)) : doc :=
  match l with
  | [] => DNil
  | (e, d) :: r =>
    cat [ (if first then DNil
           else DLine (if 1 <? n_lines (notes_of e) then LEmpty else LSoftOrSpace));
          d;
          match r with [] => DNil | _ => token_doc tCOMMA end;
          join_params false r ]
  end.

(** * Unary, extraction, namespace, parentheses *)

(** unary_expression.rs:44-82. *)
Definition is_terminal (e : expr) : bool := match e with ELeaf _ _ _ => true | _ => false end.
Definition rule_unary (anc : list frame) (op : token) (a : expr) (da : doc) : doc :=
  cat [ token_doc op;
        maybe_space (kind_eqb (t_kind op) TILDE && negb (is_terminal a));
        if has_comments (notes_of a) && negb (has_directive DSkip (FUnary op :: anc) (notes_of a))
        then soft_block_indent da else da ].

(** extract_expression.rs:7-26, namespace_expression.rs:8-25 and
    binary_expression.rs:123-137, [fmt_binary_sticky]. *)
Definition rule_sticky (dl : doc) (op : token) (dr : doc) : doc :=
  group false (cat [ dl; token_doc op; dr ]).

(** parenthesized_expression.rs:8-31. *)
Definition rule_paren (b : expr) (db : doc) : doc :=
  cat [ token_doc tLPAREN;
        if n_direct (notes_of b) then block_indent db else db;
        token_doc tRPAREN ].

(** * Binary expressions *)

Inductive op_class := Sticky | Assignment | Chain | Comparison | NoOperator.
(** binary_expression.rs:86-118 and 849-869. *)
Definition classify (k : kind) : op_class :=
  match k with
  | WAT | EXPONENTIATE | EXPONENTIATE2 | SyntaxKind.COLON => Sticky
  | TILDE | EQUAL | WALRUS | ASSIGN | ASSIGN_RIGHT | SUPER_ASSIGN | SUPER_ASSIGN_RIGHT =>
    Assignment
  | PIPE | SPECIAL | OR_OP | OR2 | AND_OP | AND2 | PLUS | MINUS | MULTIPLY | DIVIDE => Chain
  | GREATER_THAN | GREATER_THAN_OR_EQUAL_TO | LESS_THAN | LESS_THAN_OR_EQUAL_TO | EQUAL2
  | NOT_EQUAL => Comparison
  | _ => NoOperator
  end.
Definition is_chain_op (op : token) : bool :=
  match classify (t_kind op) with Chain => true | _ => false end.

(** binary_expression.rs:336-441, [can_normalize_to_equal], of a binary
    expression below [anc]. *)
Fixpoint can_normalize_to_equal (anc : list frame) : bool :=
  match anc with
  | FRootList :: _ | FBracedList _ :: _ => true
  | FParen :: _ => true
  | FUnary op :: _ => kind_eqb (t_kind op) WAT
  | FBinary op :: up =>
    (kind_eqb (t_kind op) ASSIGN || kind_eqb (t_kind op) EQUAL || kind_eqb (t_kind op) WAT)
    && can_normalize_to_equal up
  | FFunction is_body :: _ => is_body
  | FIf SThen :: _ => true
  | FElse :: _ => true
  | FFor is_body :: _ => is_body
  | FWhile is_body :: _ => is_body
  | FRepeat :: _ => true
  | _ => false
  end.

(** binary_expression.rs:229-237 and 254-293, [fmt_left_assignment_operator]:
    the operator printed for an assignment. *)
Definition restyle (anc : list frame) (op : token) : token :=
  if kind_eqb (t_kind op) EQUAL then
    match o_assignment_style o with AArrow => tARROW | _ => op end
  else if kind_eqb (t_kind op) ASSIGN then
    match o_assignment_style o with
    | AEqual => if can_normalize_to_equal anc then tEQUAL else op
    | _ => op
    end
  else op.

Definition persist : bool :=
  match o_persistent_line_breaks o with PRespect => true | PIgnore => false end.

(** binary_expression.rs:453-471. *)
Definition persistent_assignment (op : token) (r : expr) : bool :=
  persist
  && (kind_eqb (t_kind op) EQUAL || kind_eqb (t_kind op) ASSIGN
      || kind_eqb (t_kind op) SUPER_ASSIGN || kind_eqb (t_kind op) TILDE)
  && n_newline (notes_of r).

(** binary_expression.rs:208-227 and 443-451: the options the right hand side
    of an assignment is formatted with. *)
Definition rhs_options (anc : list frame) (n : notes) (op : token) (r : expr) : fopt :=
  let table := has_directive DTable anc n in
  if persistent_assignment op r && is_binary r then fo_with_left
  else match r with
       | ECall _ _ args => if table && is_call_args args then fo_with_table true else fo0
       | _ => fo0
       end.

(** binary_expression.rs:201-247. *)
Definition rule_assignment (anc : list frame) (dl : doc) (op : token) (r : expr) (dr : doc) : doc :=
  group false
    (cat [ dl; DSpace; token_doc (restyle anc op);
           if persistent_assignment op r
           then indent (DCat (DLine LHard) dr)
           else DCat DSpace dr ]).

(** binary_expression.rs:478-493, [fmt_binary]. *)
Definition rule_comparison (dl : doc) (op : token) (dr : doc) : doc :=
  group false
    (cat [ dl; DSpace; token_doc op; indent (DCat (DLine LSoftOrSpace) dr) ]).

(** binary_expression.rs:495-500, [TailPiece], with the formatted right hand
    side. *)
Record tail_piece := {
  tp_op : token;
  tp_right : expr;
  tp_doc : doc;
  tp_enclosing : option notes
}.

(** binary_expression.rs:750-815: one piece of a chain. *)
Definition chain_piece (p : tail_piece) : doc :=
  cat [ match tp_enclosing p with
        | Some n => match n_lead n ++ n_dang n with [] => DNil | _ => DPanic end
        | None => DNil
        end;
        DSpace; token_doc (tp_op p);
        DLine (if 1 <? n_lines (notes_of (tp_right p)) then LEmpty else LSoftOrSpace);
        tp_doc p;
        match tp_enclosing p with Some n => trailing_comments (n_trail n) | None => DNil end ].

(** binary_expression.rs:921-928. *)
Definition persistent_chain (tail : list tail_piece) : bool :=
  persist && match tail with p :: _ => n_newline (notes_of (tp_right p)) | [] => false end.

(** binary_expression.rs:817-830. *)
Definition rule_chain (left_aligned : bool) (dl : doc) (tail : list tail_piece) : doc :=
  let chain := cat (map chain_piece tail) in
  group (persistent_chain tail)
    (DCat dl (if left_aligned then chain else indent chain)).

(** * Statements *)

(** loop_body.rs:17-33. *)
Definition loop_body (b : expr) (db : doc) : doc := if is_braced b then db else in_braces db.

(** for_statement.rs:9-39, while_statement.rs:8-33, repeat_statement.rs:8-23. *)
Definition rule_for (dv ds : doc) (b : expr) (db : doc) : doc :=
  group false
    (cat [ token_doc tFOR; DSpace; token_doc tLPAREN; dv; DSpace; token_doc tIN; DSpace; ds;
           token_doc tRPAREN; DSpace; loop_body b db ]).
Definition rule_while (dc : doc) (b : expr) (db : doc) : doc :=
  group false
    (cat [ token_doc tWHILE; DSpace; token_doc tLPAREN; group false (soft_block_indent dc);
           token_doc tRPAREN; DSpace; loop_body b db ]).
Definition rule_repeat (b : expr) (db : doc) : doc :=
  group false (cat [ token_doc tREPEAT; DSpace; loop_body b db ]).

(** if_statement.rs:389-416, [position]: is the node a value? *)
Definition value_position (anc : list frame) : bool :=
  match anc with
  | FRootList :: _ => false
  | FBracedList last :: _ => last
  | _ => true
  end.

(** if_statement.rs:193-237, [compute_braced_expressions]. *)
Definition compute_braced (anc : list frame) (t : expr) (e : option expr) : braced :=
  if negb (value_position anc) then Force
  else if n_newline (notes_of t) || is_braced t || is_if t then Force
  else match e with
       | Some (EElse _ nl a) =>
         if nl || n_newline (notes_of a) || is_braced a || is_if a then Force
         else IfGroupBreaks
       | _ => IfGroupBreaks
       end.

(** if_statement.rs:283-340, [FormatIfBody::fmt]. *)
Definition if_body (alternative : bool) (b : braced) (body : expr) (dbody : doc) : doc :=
  if is_braced body then dbody
  else if is_if body && alternative then dbody
  else match b with
       | Force => in_braces dbody
       | IfGroupBreaks => in_braces_if_broken dbody
       end.

(** if_statement.rs:34-83. *)
Definition rule_if (b : braced) (dc : doc) (t : expr) (dt : doc) (de : option doc) : doc :=
  group false
    (cat [ token_doc tIF; DSpace; token_doc tLPAREN; group false (soft_block_indent dc);
           token_doc tRPAREN; DSpace; if_body false b t dt;
           match de with Some d => DCat DSpace d | None => DNil end ]).

(** else_clause.rs:25-47. *)
Definition rule_else (b : braced) (a : expr) (da : doc) : doc :=
  cat [ token_doc tELSE; DSpace; if_body true b a da ].

(** * Braces *)

Inductive braced_variant := BEmpty | BDangling | BCurlyCurly (inner : notes) | BNotEmpty.

Definition has_argument_parent (anc : list frame) : bool :=
  existsb (fun f => match f with FArg => true | _ => false end) anc.

(** braced_expressions.rs:102-233, [braced_expressions_variant] and
    [as_curly_curly]. *)
Definition variant_of (anc : list frame) (n : notes) (es : list expr) : braced_variant :=
  match es with
  | [] => match n_dang n with [] => BEmpty | _ => BDangling end
  | [EBraced inner [ELeaf _ k _]] =>
    if kind_eqb k R_IDENTIFIER && has_argument_parent anc then BCurlyCurly inner else BNotEmpty
  | _ => BNotEmpty
  end.

(** braced_expressions.rs:16-78 and 235-281; [inner_list]: the expressions
    inside the inner braces of a curly-curly. *)
Definition rule_braced (v : braced_variant) (n : notes) (expressions inner_list : doc) : doc :=
  match v with
  | BEmpty => cat [ token_doc tLCURLY; token_doc tRCURLY ]
  | BDangling => cat [ token_doc tLCURLY; dangling_block (n_dang n); token_doc tRCURLY ]
  | BCurlyCurly inner =>
    match n_dang inner with
    | [] =>
      group false
        (cat [ leading_comments (n_lead inner); token_doc tLCURLY; token_doc tLCURLY;
               soft_space_or_block_indent inner_list; token_doc tRCURLY; token_doc tRCURLY;
               trailing_comments (n_trail inner) ])
    | _ => DPanic
    end
  | BNotEmpty => in_braces expressions
  end.

(** * Functions *)

(** parameters.rs:12-49 and 107-122. *)
Definition rule_params (n : notes) (items : list (expr * doc)) : doc :=
  match items with
  | [] => cat [ token_doc tLPAREN; dangling_soft (n_dang n); token_doc tRPAREN ]
  | (first, _) :: _ =>
    group (persist && n_newline (notes_of first))
      (cat [ token_doc tLPAREN; soft_block_indent (join_params true items);
             token_doc tRPAREN ])
  end.

(** parameter.rs:8-20, parameter_default.rs:8-13. *)
Definition rule_param (dname : doc) (dd : option doc) : doc :=
  match dd with None => dname | Some d => cat [ dname; DSpace; d ] end.
Definition rule_default (dv : doc) : doc := cat [ token_doc tEQUAL; DSpace; dv ].

(** function_definition.rs:112-159, [FormatFunctionBody]. *)
Definition function_body (b : expr) (db : doc) : doc :=
  if is_braced b then db
  else if n_newline (notes_of b) then in_braces db else in_braces_if_broken db.

(** function_definition.rs:55-98.  With [grouped] the parameters lose their
    soft line breaks; that they still break is noticed by the caller
    ([poor_layout]). *)
Definition rule_function (grouped : bool) (name : token) (dps : doc) (b : expr) (db : doc) : doc :=
  group false
    (cat [ token_doc name; (if grouped then remove_soft dps else dps); DSpace;
           function_body b db ]).

(** * Arguments *)

(** argument.rs:14-42, [fmt_argument_fields]; argument_name_clause.rs:8-13. *)
Definition argument_fields (dn dv : option doc) : doc :=
  match dn, dv with
  | None, None => DNil
  | None, Some v => v
  | Some n, None => cat [ n; DSpace ]
  | Some n, Some v => cat [ n; DSpace; v ]
  end.
Definition rule_name_clause (dn : doc) : doc := cat [ dn; DSpace; token_doc tEQUAL ].

(** What the rule for arguments uses of one argument: the node, its document,
    the document without its own comments, and for a function the document of
    call_arguments.rs:932-951 with whether its parameters break
    (function_definition.rs:72-77, [PoorLayout]). *)
Record ainfo := {
  ai_node : expr;
  ai_doc : doc;
  ai_fields : doc;
  ai_function : option doc;
  ai_poor : bool
}.

(** crates/air_r_syntax/src/argument_ext.rs:17-19. *)
Definition is_hole (a : expr) : bool :=
  match a with EArg _ None None _ => true | _ => false end.

(** Arguments with whether a separator follows: all but the last. *)
Fixpoint with_seps {A : Type} (l : list A) : list (A * bool) :=
  match l with
  | [] => []
  | [a] => [(a, false)]
  | a :: r => (a, true) :: with_seps r
  end.

(** call_arguments.rs:865-882: an argument and its separator. *)
Definition arg_doc (a : ainfo * bool) : doc :=
  DCat (ai_doc (fst a)) (if snd a then token_doc tCOMMA else DNil).

(** call_arguments.rs:588-601: leading holes. *)
Definition leading_hole (a : ainfo * bool) : bool :=
  is_hole (ai_node (fst a)) && negb (has_comments (notes_of (ai_node (fst a)))).
Fixpoint take_holes (l : list (ainfo * bool)) : list (ainfo * bool) :=
  match l with
  | a :: r => if leading_hole a then a :: take_holes r else []
  | [] => []
  end.
Fixpoint drop_holes (l : list (ainfo * bool)) : list (ainfo * bool) :=
  match l with
  | a :: r => if leading_hole a then drop_holes r else l
  | [] => []
  end.

(** call_arguments.rs:725-745 and 804-813, 878-883: lines before. *)
Definition hole_lines (a : ainfo * bool) : nat :=
  match ai_node (fst a) with EArg _ _ _ sl => if snd a then sl else 0 | _ => 0 end.
Definition arg_lines (a : ainfo * bool) : nat := n_lines (notes_of (ai_node (fst a))).

(** crates/air_r_syntax/src/call_ext.rs:39-71, [is_titled_block_call]. *)
Definition is_string (e : expr) : bool :=
  match e with ELeaf _ k _ => kind_eqb k R_STRING_VALUE | _ => false end.
Definition is_test_call (items : list expr) : bool :=
  match items with
  | [a; b] =>
    match arg_value a, arg_value b with
    | Some x, Some y => is_string x && is_braced y
    | _, _ => false
    end
  | _ => false
  end.

(** call_arguments.rs:1056-1091, [is_hugging_call]. *)
Definition is_hugging (args : list (ainfo * bool)) (rc : bool) : bool :=
  match args with
  | [a] =>
    match ai_node (fst a) with
    | EArg _ None (Some v) _ =>
      negb (n_direct (notes_of v)) && negb rc
      && match v with ECall _ _ _ => true | _ => false end
    | _ => false
    end
  | _ => false
  end.

(** call_arguments.rs:1122-1286, [should_group_last_argument],
    [argument_is_groupable] and [braced_expressions_is_groupable].  The braces
    lie inside an argument. *)
Definition braces_groupable (n : notes) (es : list expr) : bool :=
  match variant_of [FArg] n es with
  | BEmpty | BCurlyCurly _ => false
  | BDangling | BNotEmpty => true
  end.
Definition value_groupable (v : expr) : bool :=
  match v with
  | EBraced n es => braces_groupable n es
  | EFunction _ _ _ (EBraced n es) => braces_groupable n es
  | EFunction _ _ _ _ => true
  | _ => false
  end.
Fixpoint last_opt {A : Type} (l : list A) : option A :=
  match l with [] => None | [a] => Some a | _ :: r => last_opt r end.
Definition group_last (items : list expr) : bool :=
  match last_opt items with
  | Some (EArg n nm v _) =>
    negb (has_comments n)
    && match nm with Some c => negb (has_comments (notes_of c)) | None => true end
    && match v with Some v => value_groupable v | None => false end
  | _ => false
  end.

(** call_arguments.rs:1017-1053, [FormatAllArgsBrokenOut]. *)
Fixpoint broken_args (first : bool) (args : list (ainfo * bool)) : doc :=
  match args with
  | [] => DNil
  | a :: r =>
    cat [ (if first then DNil
           else DLine (if arg_lines a <=? 1 then LSoftOrSpace else LEmpty));
          arg_doc a; broken_args false r ]
  end.
Definition holes_doc (holes : list (ainfo * bool)) : doc := cat (map arg_doc holes).
Definition nonempty {A : Type} (l : list A) : bool := match l with [] => false | _ => true end.

Definition all_broken_out (l r : doc) (rc : bool) (holes args : list (ainfo * bool))
    (expand : bool) : doc :=
  let d := broken_args true args in
  group expand
    (cat [ l; holes_doc holes; maybe_space (nonempty holes && nonempty args);
           (if negb expand && is_hugging args rc then d else soft_block_indent d);
           r ]).

(** call_arguments.rs:923-960, [FormatGroupedLastArgument]. *)
Definition grouped_last (only : bool) (a : ainfo * bool) : doc :=
  match ai_function (fst a) with
  | Some d =>
    if only then arg_doc a else DCat d (if snd a then token_doc tCOMMA else DNil)
  | None => arg_doc a
  end.

(** The arguments joined by soft line breaks, the last one in its grouped form
    wrapped by [last] (call_arguments.rs:358-372 and 405-430). *)
Fixpoint join_grouped (only first : bool) (last : doc -> doc) (args : list (ainfo * bool)) : doc :=
  match args with
  | [] => DNil
  | a :: r =>
    cat [ (if first then DNil else DLine LSoftOrSpace);
          match r with [] => last (grouped_last only a) | _ => arg_doc a end;
          join_grouped only false last r ]
  end.

(** call_arguments.rs:269-474, [write_grouped_arguments]. *)
Definition write_grouped (l r : doc) (rc : bool) (holes args : list (ainfo * bool)) : doc :=
  match last_opt args with
  | None => all_broken_out l r rc holes args true
  | Some last =>
    let only := List.length args =? 1 in
    let most_expanded := all_broken_out l r rc holes args true in
    if existsb (fun a => will_break (arg_doc a)) (removelast args) then most_expanded
    else if negb only && ai_poor (fst last) then most_expanded
    else
      let variant wrap :=
        cat [ l; holes_doc holes; maybe_space (nonempty holes && nonempty args);
              join_grouped only true wrap args; r ] in
      let most_flat := variant (fun d => d) in
      let middle := variant (group true) in
      if will_break (arg_doc last)
      then DCat DExpandParent (DBest middle most_expanded)
      else DBest most_flat (DBest middle most_expanded)
  end.

(** call_arguments.rs:478-619. *)
Definition rule_call_like (n : notes) (k : call_kind) (rc : bool) (infos : list ainfo) : doc :=
  let l := token_doc (l_token k) in
  let r := token_doc (r_token k) in
  let items := map ai_node infos in
  let all := with_seps infos in
  match infos with
  | [] => cat [ l; dangling_soft (n_dang n); r ]
  | _ =>
    if match k with KCall => is_test_call items | _ => false end
    then
      cat [ l;
            (fix join first (l : list (ainfo * bool)) :=
               match l with
               | [] => DNil
               | a :: r => cat [ (if first : bool then DNil else DSpace); arg_doc a; join false r ]
               end) true all;
            r ]
    else
      let holes := take_holes all in
      let args := drop_holes all in
      if existsb (fun a => 1 <? hole_lines a) holes || existsb (fun a => 1 <? arg_lines a) args
      then all_broken_out l r rc holes args true
      else if persist && (existsb (fun a => 0 <? hole_lines a) holes
                          || match args with a :: _ => 0 <? arg_lines a | [] => false end)
      then all_broken_out l r rc holes args true
      else if group_last items then write_grouped l r rc holes args
      else all_broken_out l r rc holes args false
  end.

(** call_arguments.rs:49-67 and call_arguments_table.rs:51-190. *)
Definition own_lead (a : ainfo) : doc := leading_comments (n_lead (notes_of (ai_node a))).
Definition own_trail (a : ainfo) : doc := trailing_comments (n_trail (notes_of (ai_node a))).
Definition cell_text (a : ainfo) : option (list piece) :=
  match print_cell (remove_soft (ai_fields a)) with
  | Some ps => if existsb (fun p => match p with
                                    | PNewline => true
                                    | PWord w => word_breaks w
                                    | PSpace => false
                                    end) ps then None else Some ps
  | None => None
  end.
Definition rule_args (self : expr) (n : notes) (k : call_kind) (rc : bool) (table : bool)
    (infos : list ainfo) : doc :=
  match k, table, infos with
  | KCall, true, _ :: _ =>
    match build_table ainfo ai_node cell_text (with_seps infos) with
    | Some t =>
      write_table ainfo ai_node own_lead own_trail ai_doc (token_doc tCOMMA)
        (token_doc (l_token k)) (token_doc (r_token k)) t
    | None => verbatim self
    end
  | _, _, _ => rule_call_like n k rc infos
  end.

(** call.rs:18-31 and 40-44. *)
Definition call_options (anc : list frame) (n : notes) (fo : fopt) (f args : expr) : fopt :=
  fo_with_table
    (is_call_args args
     && match fo_table fo with
        | Some t => t
        | None => has_directive DTable anc n || in_setting (o_table o) f
        end).

(** * The formatter *)

Definition opt_map {A B : Type} (f : A -> B) (x : option A) : option B :=
  match x with Some a => Some (f a) | None => None end.

Definition is_last {A : Type} (r : list A) : bool := match r with [] => true | _ => false end.

(** The document of a node below the ancestors [anc], with the options [fo]. *)
Fixpoint fmt (anc : list frame) (fo : fopt) (e : expr) {struct e} : doc :=
  match e with
  | ELeaf n k ts => node_rule_soft anc e (cat (map token_doc ts))
  | EUnary n op a =>
    node_rule_soft anc e (rule_unary anc op a (fmt (FUnary op :: anc) fo0 a))
  | EBinary n l op r =>
    node_rule_soft anc e
      match classify (t_kind op) with
      | Sticky =>
        rule_sticky (fmt (FBinary op :: anc) fo0 l) op (fmt (FBinary op :: anc) fo0 r)
      | Assignment =>
        rule_assignment anc (fmt (FBinary op :: anc) fo0 l) op r
          (fmt (FBinary op :: anc) (rhs_options anc n op r) r)
      | Chain =>
        (* binary_expression.rs:706-747: down the left hand sides *)
        let '(dl, tail) :=
          (fix spine (anc : list frame) (l : expr) {struct l} : doc * list tail_piece :=
             match l with
             | EBinary n' l' op' r' =>
               if is_chain_op op' then
                 let '(dl, tail) := spine (FBinary op' :: anc) l' in
                 (dl, tail ++ [ {| tp_op := op'; tp_right := r';
                                   tp_doc := fmt (FBinary op' :: anc) fo0 r';
                                   tp_enclosing := Some n' |} ])
               else (fmt anc fo0 l, [])
             | _ => (fmt anc fo0 l, [])
             end) (FBinary op :: anc) l in
        rule_chain (fo_left fo) dl
          (tail ++ [ {| tp_op := op; tp_right := r;
                        tp_doc := fmt (FBinary op :: anc) fo0 r; tp_enclosing := None |} ])
      | Comparison =>
        rule_comparison (fmt (FBinary op :: anc) fo0 l) op (fmt (FBinary op :: anc) fo0 r)
      | NoOperator => DPanic
      end
  | EExtract n l op r =>
    node_rule_soft anc e
      (rule_sticky (fmt (FExtract :: anc) fo0 l) op (fmt (FExtract :: anc) fo0 r))
  | ENamespace n l op r =>
    node_rule_soft anc e
      (rule_sticky (fmt (FNamespace :: anc) fo0 l) op (fmt (FNamespace :: anc) fo0 r))
  | EFunction n name ps b =>
    node_rule_soft anc e
      (rule_function (fo_grouped fo) name (fmt (FFunction false :: anc) fo0 ps) b
         (fmt (FFunction true :: anc) fo0 b))
  | EParams n items =>
    node_rule anc e
      (rule_params n (map (fun x => (x, fmt (FParamList :: anc) fo0 x)) items)) DNil
  | EParam n name d =>
    node_rule_soft anc e
      (rule_param (fmt (FParam :: anc) fo0 name)
         match d with Some d => Some (fmt (FParam :: anc) fo0 d) | None => None end)
  | EDefault n v => node_rule_soft anc e (rule_default (fmt (FDefault :: anc) fo0 v))
  | EIf n c t el =>
    let b := match fo_braced fo with Some b => b | None => compute_braced anc t el end in
    node_rule_soft anc e
      (rule_if b (fmt (FIf SCond :: anc) fo0 c) t (fmt (FIf SThen :: anc) fo0 t)
         match el with
         | Some x => Some (fmt (FIf SElse :: anc) (fo_with_braced b) x)
         | None => None
         end)
  | EElse n nl a =>
    let b := match fo_braced fo with Some b => b | None => IfGroupBreaks end in
    node_rule_soft anc e
      (rule_else b a
         (fmt (FElse :: anc) (if is_if a then fo_with_braced b else fo0) a))
  | EFor n v s b =>
    node_rule_soft anc e
      (rule_for (fmt (FFor false :: anc) fo0 v) (fmt (FFor false :: anc) fo0 s) b
         (fmt (FFor true :: anc) fo0 b))
  | EWhile n c b =>
    node_rule_soft anc e
      (rule_while (fmt (FWhile false :: anc) fo0 c) b (fmt (FWhile true :: anc) fo0 b))
  | ERepeat n b => node_rule_soft anc e (rule_repeat b (fmt (FRepeat :: anc) fo0 b))
  | EBraced n es =>
    let list :=
      (fix go (l : list expr) : list (expr * doc) :=
         match l with
         | [] => []
         | x :: r => (x, fmt (FBracedList (is_last r) :: anc) fo0 x) :: go r
         end) es in
    let inner :=
      match es with
      | [EBraced _ [x]] => fmt (FBracedList true :: FBracedList true :: anc) fo0 x
      | _ => DNil
      end in
    node_rule anc e
      (rule_braced (variant_of anc n es) n (rule_expression_list false list) inner) DNil
  | EParen n b => node_rule_soft anc e (rule_paren b (fmt (FParen :: anc) fo0 b))
  | ECall n f args =>
    node_rule_soft anc e
      (DCat (fmt (FCall :: anc) fo0 f)
         (fmt (FCall :: anc) (call_options anc n fo f args) args))
  | EArgs n k rc items =>
    let info x :=
      {| ai_node := x;
         ai_doc := fmt (FArgList :: anc) fo0 x;
         ai_fields :=
           match x with
           | EArg _ nm v _ =>
             argument_fields
               match nm with
               | Some c => Some (fmt (FArg :: FArgList :: anc) fo0 c) | None => None end
               match v with
               | Some v => Some (fmt (FArg :: FArgList :: anc) fo0 v) | None => None end
           | _ => DNil
           end;
         ai_function :=
           match x with
           | EArg _ nm (Some v) _ =>
             match v with
             | EFunction _ _ _ _ =>
               Some (cat [ match nm with
                           | Some c => DCat (fmt (FArg :: FArgList :: anc) fo0 c) DSpace
                           | None => DNil
                           end;
                           fmt (FArg :: FArgList :: anc) fo_with_grouped v ])
             | _ => None
             end
           | _ => None
           end;
         ai_poor :=
           match x with
           | EArg _ _ (Some (EFunction _ _ ps _)) _ =>
             will_break (remove_soft
               (fmt (FFunction false :: FArg :: FArgList :: anc) fo0 ps))
           | _ => false
           end |} in
    node_rule anc e
      (rule_args e n k rc (match fo_table fo with Some t => t | None => false end)
         (map info items)) DNil
  | EArg n nm v sl =>
    node_rule_soft anc e
      (argument_fields
         match nm with Some c => Some (fmt (FArg :: anc) fo0 c) | None => None end
         match v with Some v => Some (fmt (FArg :: anc) fo0 v) | None => None end)
  | ENameClause n nm =>
    node_rule_soft anc e (rule_name_clause (fmt (FNameClause :: anc) fo0 nm))
  end.

(** * The file *)

(** What is printed: the source copied, or a document. *)
Inductive root_out := RCopied (t : text) | RFormatted (d : doc).

(** root.rs:17-23. *)
Definition is_skip_file (d : option directive) : bool :=
  match d with Some DSkipFile => true | _ => false end.

(** root.rs:49-84, [is_suppressed]: the comments before the first
    expression. *)
Definition root_suppressed (r : root) : bool :=
  match r_exprs r with
  | [] => false
  | e :: _ =>
    match n_lead (notes_of e) with
    | [] => false
    | c :: cs =>
      is_skip_file (match parse_special_skip_file (c_text c) with
                    | Some d => Some d
                    | None => parse_comment_directive (c_text c)
                    end)
      || existsb (fun c => is_skip_file (parse_comment_directive (c_text c))) cs
    end
  end.

(** root.rs:27-47 under lib.rs:202-211. *)
Definition root_doc (r : root) : doc :=
  let n := r_notes r in
  cat [ leading_comments (n_lead n);
        match r_bom r with Some t => token_doc t | None => DNil end;
        rule_expression_list true (map (fun e => (e, fmt [FRootList] fo0 e)) (r_exprs r));
        DLine LHard;
        dangling_soft (n_dang n);
        trailing_comments (n_trail n) ].

(** root.rs:86-119, [fmt_suppressed]. *)
Definition fmt_root (r : root) : root_out :=
  if root_suppressed r then RCopied (normalize_ref (n_src (r_notes r)))
  else RFormatted (root_doc r).
End Fmt.

(** Model of the loops with which the R parser goes over tree-sitter's tree, as
    they are written: a cursor, an iterator of [Enter] and [Leave] events, a main
    loop and loops inside its handlers that take events from the same iterator.
    [ParseModel.walk] is the same walk by recursion over the tree; PreorderProps.v
    has the proof that they agree.

    crates/air_r_parser/src/treesitter.rs, crates/air_r_parser/src/parse.rs.

    tree-sitter's cursor (an oracle) is a path; a node, which Rust compares by
    identity, is the path to it.  Loops have fuel: [Fuel] is neither a result nor
    a panic. *)
From Coq Require Import List NArith Bool Arith String.
From Verif Require Import Text SyntaxKind ParseModel.
Import ListNotations.

(** ** tree-sitter's nodes *)

(** [Node::kind] and [TreeCursor::field_name] are strings. *)
Inductive nts := NTS (name : text) (field : option text) (s e : nat) (children : list nts).
Definition n_name (t : nts) : text := match t with NTS n _ _ _ _ => n end.
Definition n_field (t : nts) : option text := match t with NTS _ f _ _ _ => f end.
Definition n_start (t : nts) : nat := match t with NTS _ _ s _ _ => s end.
Definition n_end (t : nts) : nat := match t with NTS _ _ _ e _ => e end.
Definition n_children (t : nts) : list nts := match t with NTS _ _ _ _ c => c end.

(** treesitter.rs:88-184, [node_syntax_kind]. *)
Definition node_kinds : list (text * kind) :=
  [ ($"program", R_ROOT); ($"unary_operator", R_UNARY_EXPRESSION);
    ($"binary_operator", R_BINARY_EXPRESSION); ($"extract_operator", R_EXTRACT_EXPRESSION);
    ($"namespace_operator", R_NAMESPACE_EXPRESSION); ($"function_definition", R_FUNCTION_DEFINITION);
    ($"parameters", R_PARAMETERS); ($"parameter", R_PARAMETER); ($"if_statement", R_IF_STATEMENT);
    ($"for_statement", R_FOR_STATEMENT); ($"while_statement", R_WHILE_STATEMENT);
    ($"repeat_statement", R_REPEAT_STATEMENT); ($"braced_expression", R_BRACED_EXPRESSIONS);
    ($"parenthesized_expression", R_PARENTHESIZED_EXPRESSION); ($"call", R_CALL);
    ($"subset", R_SUBSET); ($"subset2", R_SUBSET2); ($"argument", R_ARGUMENT);
    ($"identifier", R_IDENTIFIER); ($"integer", R_INTEGER_VALUE); ($"float", R_DOUBLE_VALUE);
    ($"complex", R_COMPLEX_VALUE); ($"string", R_STRING_VALUE); ($"string_open", STRING_OPEN);
    ($"string_content", STRING_CONTENT); ($"string_close", STRING_CLOSE);
    ($"next", R_NEXT_EXPRESSION); ($"break", R_BREAK_EXPRESSION); ($"true", R_TRUE_EXPRESSION);
    ($"false", R_FALSE_EXPRESSION); ($"null", R_NULL_EXPRESSION); ($"inf", R_INF_EXPRESSION);
    ($"nan", R_NAN_EXPRESSION); ($"na", R_NA_EXPRESSION); ($"NA", NA_LOGICAL_KW);
    ($"NA_integer_", NA_INTEGER_KW); ($"NA_real_", NA_DOUBLE_KW); ($"NA_complex_", NA_COMPLEX_KW);
    ($"NA_character_", NA_CHARACTER_KW); ($"{", L_CURLY); ($"}", R_CURLY); ($"[", L_BRACK);
    ($"]", R_BRACK); ($"[[", L_BRACK2); ($"]]", R_BRACK2); ($"(", L_PAREN); ($")", R_PAREN);
    ($"?", WAT); ($"~", TILDE); ($"<-", ASSIGN); ($"<<-", SUPER_ASSIGN); ($":=", WALRUS);
    ($"->", ASSIGN_RIGHT); ($"->>", SUPER_ASSIGN_RIGHT); ($"=", EQUAL); ($"|", OR_OP);
    ($"&", AND_OP); ($"||", OR2); ($"&&", AND2); ($"<", LESS_THAN); ($"<=", LESS_THAN_OR_EQUAL_TO);
    ($">", GREATER_THAN); ($">=", GREATER_THAN_OR_EQUAL_TO); ($"==", EQUAL2); ($"!=", NOT_EQUAL);
    ($"+", PLUS); ($"-", MINUS); ($"*", MULTIPLY); ($"/", DIVIDE); ($"^", EXPONENTIATE);
    ($"**", EXPONENTIATE2); ($"|>", PIPE); ($"special", SPECIAL); ($":", SyntaxKind.COLON);
    ($"::", COLON2); ($":::", COLON3); ($"$", DOLLAR); ($"@", AT_OP); ($"!", BANG);
    ($"function", FUNCTION_KW); ($"\", BACKSLASH); ($"if", IF_KW); ($"else", ELSE_KW);
    ($"for", FOR_KW); ($"in", IN_KW); ($"while", WHILE_KW); ($"repeat", REPEAT_KW);
    ($"comma", COMMA); ($"dots", R_DOTS); ($"dot_dot_i", R_DOT_DOT_I); ($"comment", COMMENT) ].
Definition node_syntax_kind (name : text) : option kind :=
  match find (fun x => text_eqb (fst x) name) node_kinds with
  | Some (_, k) => Some k
  | None => None
  end.

(** ** The cursor and the iterator *)

(** The way to a node, the last step first. *)
Definition path := list nat.
Fixpoint path_eqb (a b : path) : bool :=
  match a, b with
  | [], [] => true
  | i :: a', j :: b' => (i =? j) && path_eqb a' b'
  | _, _ => false
  end.

(** treesitter.rs:4-11. *)
Inductive walk_event := Enter (n : path) | Leave (n : path).

(** treesitter.rs:23-26. *)
Record preorder := { it_cursor : path; it_next : option walk_event }.

Inductive res (A : Type) := Fuel | Panic | Ok (a : A).
Arguments Fuel {A}. Arguments Panic {A}. Arguments Ok {A} a.
Definition then_ {A B} (r : res A) (f : A -> res B) : res B :=
  match r with Fuel => Fuel | Panic => Panic | Ok a => f a end.
Definition or_panic {A} (o : option A) : res A := match o with Some a => Ok a | None => Panic end.

Section Tree.
Variable root : nts.

Fixpoint node_at (p : path) : option nts :=
  match p with
  | [] => Some root
  | i :: q => match node_at q with Some t => nth_error (n_children t) i | None => None end
  end.

(** [TreeCursor]: the new place, if there is one. *)
Definition goto_first_child (c : path) : option path :=
  match node_at (0 :: c) with Some _ => Some (0 :: c) | None => None end.
Definition goto_next_sibling (c : path) : option path :=
  match c with
  | [] => None
  | i :: q => match node_at (S i :: q) with Some _ => Some (S i :: q) | None => None end
  end.
Definition goto_parent (c : path) : option path := match c with [] => None | _ :: q => Some q end.

(** treesitter.rs:29-33. *)
Definition new_preorder : preorder := {| it_cursor := []; it_next := Some (Enter []) |}.

(** treesitter.rs:65-85, [next]: the event and the iterator after it. *)
Definition next (it : preorder) : option walk_event * preorder :=
  let c := it_cursor it in
  (it_next it,
   match it_next it with
   | None => it
   | Some (Enter n) =>
     match goto_first_child c with
     | Some c' => {| it_cursor := c'; it_next := Some (Enter c') |}
     | None => {| it_cursor := c; it_next := Some (Leave n) |}
     end
   | Some (Leave _) =>
     match goto_next_sibling c with
     | Some c' => {| it_cursor := c'; it_next := Some (Enter c') |}
     | None =>
       match goto_parent c with
       | Some c' => {| it_cursor := c'; it_next := Some (Leave c') |}
       | None => {| it_cursor := c; it_next := None |}
       end
     end
   end).

(** treesitter.rs:51-62. *)
Definition skip_subtree (it : preorder) : preorder :=
  match it_next it with
  | None => it
  | Some (Enter _) =>
    match goto_parent (it_cursor it) with
    | Some c' => {| it_cursor := c'; it_next := Some (Leave c') |}
    | None => {| it_cursor := it_cursor it; it_next := None |}
    end
  | Some (Leave _) => it
  end.

(** treesitter.rs:186-199, and treesitter.rs:47-49 for the upcoming node. *)
Definition syntax_kind (n : path) : res kind :=
  match node_at n with
  | Some t => or_panic (node_syntax_kind (n_name t))
  | None => Panic
  end.
Definition peek_field_name (it : preorder) : option text :=
  match node_at (it_cursor it) with Some t => n_field t | None => None end.

Variable src : text.
Definition state := (preorder * walker)%type.

(** [node.start_byte()] and [node.end_byte()]. *)
Definition with_range (n : path) (f : nat -> nat -> option walker) : res walker :=
  match node_at n with Some t => or_panic (f (n_start t) (n_end t)) | None => Panic end.

(** parse.rs:411-565, [handle_leave]; the arms are those of [class_of]. *)
Definition handle_leave (n : path) (k : kind) (w : walker) : res walker :=
  match class_of k with
  | C_root => with_range n (fun _ e => handle_root_leave src e w)
  | C_node | C_string | C_call _ | C_parameters | C_parameter | C_if | C_argument | C_braced => Ok (leave w)
  | C_value l | C_skip l =>
    then_ (with_range n (fun s e => handle_token src s e l w)) (fun w => Ok (leave w))
  | C_token => with_range n (fun s e => handle_token src s e k w)
  | C_content => with_range n (fun s e => handle_token src s e STRING_CONTENT w)
  | C_comment => with_range n (fun s e => handle_comment_leave src s e w)
  | C_unreachable => Panic
  end.

(** [while let Some(event) = iter.peek()] of the handlers: the body gets the
    upcoming node; the loop ends before [Leave(node)] (parse.rs:692-709 and so
    on). *)
Section While.
Context {F : Type}.
Variable body : path -> F -> state -> res (F * state).
Fixpoint while_peek (fuel : nat) (node : path) (f : F) (st : state) : res (F * state) :=
  match fuel with
  | 0 => Fuel
  | S fuel' =>
    match it_next (fst st) with
    | None => Ok (f, st)
    | Some (Enter c) => then_ (body c f st) (fun r => while_peek fuel' node (fst r) (snd r))
    | Some (Leave c) => if path_eqb node c then Ok (f, st) else Panic
    end
  end.
End While.

Section Handlers.
(** [walk_next] (parse.rs:233-253), and the fuel of the loops. *)
Variable walk_next : state -> res state.
Variable fuel : nat.

Definition on_walker (f : walker -> walker) (st : state) : state := (fst st, f (snd st)).

(** parse.rs:682-714. *)
Definition parameters_body (c : path) (f : unit) (st : state) : res (unit * state) :=
  then_ (syntax_kind c) (fun k =>
  match k with
  | L_PAREN => then_ (walk_next st) (fun st => Ok (f, on_walker (enter R_PARAMETER_LIST) st))
  | R_PAREN => then_ (walk_next (on_walker leave st)) (fun st => Ok (f, st))
  | R_PARAMETER | COMMA | COMMENT => then_ (walk_next st) (fun st => Ok (f, st))
  | _ => Panic
  end).

(** parse.rs:716-749; [used_equal]. *)
Definition parameter_body (c : path) (f : bool) (st : state) : res (bool * state) :=
  then_ (syntax_kind c) (fun k =>
  match k with
  | EQUAL => then_ (walk_next (on_walker (enter R_PARAMETER_DEFAULT) st)) (fun st => Ok (true, st))
  | _ => then_ (walk_next st) (fun st => Ok (f, st))
  end).

(** parse.rs:806-842; [used_else]. *)
Definition if_body (c : path) (f : bool) (st : state) : res (bool * state) :=
  then_ (syntax_kind c) (fun k =>
  match k with
  | ELSE_KW => then_ (walk_next (on_walker (enter R_ELSE_CLAUSE) st)) (fun st => Ok (true, st))
  | _ => then_ (walk_next st) (fun st => Ok (f, st))
  end).

(** parse.rs:848-873. *)
Definition braced_body (c : path) (f : unit) (st : state) : res (unit * state) :=
  then_ (syntax_kind c) (fun k =>
  match k with
  | L_CURLY => then_ (walk_next st) (fun st => Ok (f, on_walker (enter R_EXPRESSION_LIST) st))
  | R_CURLY => then_ (walk_next (on_walker leave st)) (fun st => Ok (f, st))
  | _ => then_ (walk_next st) (fun st => Ok (f, st))
  end).

(** parse.rs:928-983; [last_kind]. *)
Definition arguments_body (open close : kind) (c : path) (last : kind) (st : state) : res (kind * state) :=
  then_ (syntax_kind c) (fun k =>
  if kind_eqb k open then
    then_ (walk_next st) (fun st => Ok (open, on_walker (enter R_ARGUMENT_LIST) st))
  else if kind_eqb k close then
    then_ (walk_next (on_walker (fun w => leave (handle_hole_before_close last w)) st)) (fun st => Ok (close, st))
  else match k with
  | COMMA => then_ (walk_next (on_walker (handle_hole_before_comma last open) st)) (fun st => Ok (COMMA, st))
  | R_ARGUMENT => then_ (walk_next st) (fun st => Ok (R_ARGUMENT, st))
  | COMMENT => then_ (walk_next st) (fun st => Ok (last, st))
  | _ => Panic
  end).

(** parse.rs:909-926. *)
Definition handle_arguments_loop (ak : kind) (st : state) : res state :=
  match next (fst st) with
  | (Some (Enter n), it) =>
    then_ (match ak with
           | R_CALL_ARGUMENTS => Ok (L_PAREN, R_PAREN)
           | R_SUBSET_ARGUMENTS => Ok (L_BRACK, R_BRACK)
           | R_SUBSET2_ARGUMENTS => Ok (L_BRACK2, R_BRACK2)
           | _ => Panic
           end) (fun oc =>
    then_ (while_peek (arguments_body (fst oc) (snd oc)) fuel n R_BOGUS (it, enter ak (snd st))) (fun r =>
    match next (fst (snd r)) with
    | (Some (Leave n'), it') => if path_eqb n n' then Ok (it', leave (snd (snd r))) else Panic
    | _ => Panic
    end))
  | _ => Panic
  end.

(** parse.rs:879-903. *)
Definition call_body (ak : kind) (c : path) (f : unit) (st : state) : res (unit * state) :=
  match peek_field_name (fst st) with
  | Some x =>
    if text_eqb x $"arguments" then then_ (handle_arguments_loop ak st) (fun st => Ok (f, st))
    else then_ (walk_next st) (fun st => Ok (f, st))
  | None => then_ (walk_next st) (fun st => Ok (f, st))
  end.

(** parse.rs:989-1034; [seen_equal]. *)
Definition argument_body (c : path) (f : bool) (st : state) : res (bool * state) :=
  then_ (syntax_kind c) (fun k =>
  match k with
  | R_IDENTIFIER | R_STRING_VALUE | R_DOTS | R_DOT_DOT_I | R_NULL_EXPRESSION =>
    let named := negb f && match peek_field_name (fst st) with
                           | Some x => text_eqb x $"name"
                           | None => false
                           end in
    then_ (walk_next (if named then on_walker (enter R_ARGUMENT_NAME_CLAUSE) st else st)) (fun st => Ok (f, st))
  | EQUAL => then_ (walk_next st) (fun st => Ok (true, on_walker leave st))
  | _ => then_ (walk_next st) (fun st => Ok (f, st))
  end).

(** parse.rs:255-409, [handle_enter]. *)
Definition handle_enter (n : path) (k : kind) (st : state) : res state :=
  let '(it, w) := st in
  match class_of k with
  | C_root => Ok (it, enter R_EXPRESSION_LIST (enter R_ROOT w))
  | C_node | C_string | C_value _ => Ok (it, enter k w)
  | C_call ak => then_ (while_peek (call_body ak) fuel n tt (it, enter k w)) (fun r => Ok (snd r))
  | C_parameters => then_ (while_peek parameters_body fuel n tt (it, enter k w)) (fun r => Ok (snd r))
  | C_parameter =>
    then_ (while_peek parameter_body fuel n false (it, enter k w)) (fun r =>
    Ok (if fst r then on_walker leave (snd r) else snd r))
  | C_if =>
    then_ (while_peek if_body fuel n false (it, enter k w)) (fun r =>
    Ok (if fst r then on_walker leave (snd r) else snd r))
  | C_argument => then_ (while_peek argument_body fuel n false (it, enter k w)) (fun r => Ok (snd r))
  | C_braced => then_ (while_peek braced_body fuel n tt (it, enter k w)) (fun r => Ok (snd r))
  | C_skip _ => Ok (skip_subtree it, enter k w)
  | C_token | C_comment => Ok (it, w)
  | C_content => Ok (skip_subtree it, w)
  | C_unreachable => Panic
  end.
End Handlers.

(** The main loop (parse.rs:219-226) and the loop of [walk_next]
    (parse.rs:242-252), which ends after the node it began with. *)
Fixpoint walk_loop (fuel : nat) (stop : option path) (st : state) : res state :=
  match fuel with
  | 0 => Fuel
  | S fuel' =>
    let walk_next st :=
      match it_next (fst st) with
      | Some (Enter n) => walk_loop fuel' (Some n) st
      | _ => Ok st
      end in
    match next (fst st) with
    | (None, _) => Ok st
    | (Some (Enter n), it) =>
      then_ (syntax_kind n) (fun k =>
      then_ (handle_enter walk_next fuel' n k (it, snd st)) (fun st => walk_loop fuel' stop st))
    | (Some (Leave n), it) =>
      then_ (syntax_kind n) (fun k =>
      then_ (handle_leave n k (snd st)) (fun w =>
      match stop with
      | Some n' => if path_eqb n n' then Ok (it, w) else walk_loop fuel' stop (it, w)
      | None => walk_loop fuel' stop (it, w)
      end))
    end
  end.

(** parse.rs:219-226, from the beginning. *)
Definition walk_tree (fuel : nat) : res walker :=
  then_ (walk_loop fuel None (new_preorder, new_walker)) (fun st => Ok (snd st)).
End Tree.

(** parse.rs:96-157, on tree-sitter's tree. *)
Definition parse_tree (fuel : nat) (src : text) (has_error : bool) (t : nts) : res (green * bool) :=
  if has_error then or_panic (bind (build_tree src (parse_failure src) []) (fun g => Some (g, true)))
  else then_ (walk_tree t src fuel) (fun w =>
       or_panic (bind (build_tree src (w_events w) (w_trivia w)) (fun g => Some (g, false)))).

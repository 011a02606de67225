(** Model of the R parser's second half: the walk over the tree-sitter tree
    that produces parser events and trivia, and the sink that turns them into
    the syntax tree.

    crates/air_r_parser/src/parse.rs, crates/air_r_parser/src/treesitter.rs.

    tree-sitter itself is an oracle: its tree is an input ([ts]).  The walk is
    written by recursion over that tree: [walk_next] on an upcoming
    [Enter(node)] handles exactly the subtree of [node] (parse.rs:228-253).
    PreorderModel.v has the loops over the [Preorder] iterator as they are
    written (treesitter.rs:22-87); C56 proves that they do the same.
    Panics ([unreachable!], slices off character boundaries) are [None].

    Byte offsets are [nat]; the [u32] limit is not modelled. *)
From Coq Require Import List NArith Bool Arith.
From Verif Require Import Text SyntaxKind.
Import ListNotations.

(** The arms of [handle_enter] and [handle_leave] (parse.rs:255-409, 411-565). *)
Inductive class :=
  | C_root | C_node
  | C_call (arguments_kind : kind)
  | C_parameters | C_parameter | C_if | C_argument | C_braced
  | C_value (literal : kind)
  | C_skip (literal : kind)      (** integer and complex values: subtree skipped *)
  | C_string | C_token | C_content | C_comment | C_unreachable.

Definition class_of (k : kind) : class :=
  match k with
  | R_ROOT => C_root
  | R_UNARY_EXPRESSION | R_BINARY_EXPRESSION | R_FUNCTION_DEFINITION | R_FOR_STATEMENT
  | R_WHILE_STATEMENT | R_REPEAT_STATEMENT | R_PARENTHESIZED_EXPRESSION
  | R_EXTRACT_EXPRESSION | R_NAMESPACE_EXPRESSION | R_NA_EXPRESSION => C_node
  | R_CALL => C_call R_CALL_ARGUMENTS
  | R_SUBSET => C_call R_SUBSET_ARGUMENTS
  | R_SUBSET2 => C_call R_SUBSET2_ARGUMENTS
  | R_PARAMETERS => C_parameters
  | R_PARAMETER => C_parameter
  | R_IF_STATEMENT => C_if
  | R_ARGUMENT => C_argument
  | R_BRACED_EXPRESSIONS => C_braced
  | R_DOUBLE_VALUE => C_value R_DOUBLE_LITERAL
  | R_IDENTIFIER => C_value IDENT
  | R_DOTS => C_value DOTS
  | R_DOT_DOT_I => C_value DOTDOTI
  | R_NEXT_EXPRESSION => C_value NEXT_KW
  | R_BREAK_EXPRESSION => C_value BREAK_KW
  | R_TRUE_EXPRESSION => C_value TRUE_KW
  | R_FALSE_EXPRESSION => C_value FALSE_KW
  | R_NULL_EXPRESSION => C_value NULL_KW
  | R_INF_EXPRESSION => C_value INF_KW
  | R_NAN_EXPRESSION => C_value NAN_KW
  | R_INTEGER_VALUE => C_skip R_INTEGER_LITERAL
  | R_COMPLEX_VALUE => C_skip R_COMPLEX_LITERAL
  | R_STRING_VALUE => C_string
  | COMMA | TILDE | ASSIGN | SUPER_ASSIGN | WALRUS | ASSIGN_RIGHT | SUPER_ASSIGN_RIGHT
  | EQUAL | OR_OP | AND_OP | OR2 | AND2 | LESS_THAN | LESS_THAN_OR_EQUAL_TO
  | GREATER_THAN | GREATER_THAN_OR_EQUAL_TO | EQUAL2 | NOT_EQUAL | PLUS | MINUS
  | MULTIPLY | DIVIDE | EXPONENTIATE | EXPONENTIATE2 | PIPE | SPECIAL | COLON
  | COLON2 | COLON3 | DOLLAR | AT_OP | BANG | WAT | BACKSLASH
  | STRING_OPEN | STRING_CLOSE
  | FUNCTION_KW | FOR_KW | IN_KW | WHILE_KW | REPEAT_KW | IF_KW | ELSE_KW
  | NA_LOGICAL_KW | NA_INTEGER_KW | NA_DOUBLE_KW | NA_COMPLEX_KW | NA_CHARACTER_KW
  | L_PAREN | R_PAREN | L_BRACK | R_BRACK | L_BRACK2 | R_BRACK2 | L_CURLY | R_CURLY => C_token
  | STRING_CONTENT => C_content
  | COMMENT => C_comment
  | _ => C_unreachable
  end.

(** ** The tree-sitter tree (oracle input) *)

(** Field names the parser asks for ([peek_field_name], treesitter.rs:47-49). *)
Inductive field := F_name | F_arguments | F_other.

Inductive ts := TS (k : kind) (f : field) (s e : nat) (children : list ts).

Definition ts_kind (t : ts) : kind := match t with TS k _ _ _ _ => k end.
Definition ts_field (t : ts) : field := match t with TS _ f _ _ _ => f end.
Definition ts_start (t : ts) : nat := match t with TS _ _ s _ _ => s end.
Definition ts_end (t : ts) : nat := match t with TS _ _ _ e _ => e end.
Definition ts_children (t : ts) : list ts := match t with TS _ _ _ _ c => c end.

(** ** Events and trivia *)

(** [biome_parser::event::Event] without forward parents, which this parser
    never sets (parse.rs:1089-1106). *)
Inductive event := Start (k : kind) | Token (k : kind) (e : nat) | Finish.

(** [TriviaPieceKind], the three that are used. *)
Inductive tkind := Whitespace | Newline | Comment.

(** [biome_parser::token_source::Trivia]. *)
Record trivia := { tv_kind : tkind; tv_start : nat; tv_end : nat; tv_trailing : bool }.

(** [&text[a..b]]; [None] where Rust panics. *)
Definition slice (a b : nat) (t : text) : option text :=
  if b <? a then None
  else match split_at a t with
       | None => None
       | Some (_, r) => match split_at (b - a) r with
                        | None => None
                        | Some (g, _) => Some g
                        end
       end.

(** parse.rs:1225-1233.  [Dispatch::WHS] is tab, LF, VT, FF, CR and space
    (biome_unicode_table, trusted); [Dispatch::SEM] is [;]. *)
Definition is_whitespace (c : char) : bool :=
  ((c =? 9) || (c =? 11) || (c =? 12) || (c =? 32) || (c =? 59))%N.

Definition is_newline (c : char) : bool := ((c =? CR) || (c =? LF))%N.

(** The loop at parse.rs:1151-1163: the part of the gap before the first CR or
    LF, the rest, and whether one was found.  Bytes of multi-byte characters
    are never CR or LF, so going by characters is the same. *)
Fixpoint take_line (t : text) : text * text * bool :=
  match t with
  | [] => ([], [], false)
  | c :: r =>
    if is_newline c then ([], t, true)
    else let '(a, b, f) := take_line r in (c :: a, b, f)
  end.

Definition mk_trivia (k : tkind) (s e : nat) (tr : bool) : trivia :=
  {| tv_kind := k; tv_start := s; tv_end := e; tv_trailing := tr |}.

(** The loop at parse.rs:1180-1222.  [ws] is set while the inner loop
    (parse.rs:1185-1187) runs; the open piece is [start..stop]. *)
Fixpoint leading_trivia (t : text) (start stop : nat) (ws : bool) : option (list trivia) :=
  let pending := if ws then [mk_trivia Whitespace start stop false] else [] in
  match t with
  | [] => Some pending
  | c :: r =>
    if is_whitespace c then leading_trivia r (if ws then start else stop) (S stop) true
    else if (c =? CR)%N then
      match r with
      | d :: r' =>
        if (d =? LF)%N then
          match leading_trivia r' (2 + stop) (2 + stop) false with
          | Some ps => Some (pending ++ mk_trivia Newline stop (2 + stop) false :: ps)
          | None => None
          end
        else
          match leading_trivia r (S stop) (S stop) false with
          | Some ps => Some (pending ++ mk_trivia Newline stop (S stop) false :: ps)
          | None => None
          end
      | [] => Some (pending ++ [mk_trivia Newline stop (S stop) false])
      end
    else if (c =? LF)%N then
      match leading_trivia r (S stop) (S stop) false with
      | Some ps => Some (pending ++ mk_trivia Newline stop (S stop) false :: ps)
      | None => None
      end
    else None
  end.

(** parse.rs:1131-1223. *)
Definition derive_trivia (gap : text) (start : nat) (between : bool) : option (list trivia) :=
  if between then
    let '(line, rest, trailing) := take_line gap in
    let stop := start + blen line in
    let first := if start =? stop then []
                 else [mk_trivia Whitespace start stop trailing] in
    match leading_trivia rest stop stop false with
    | Some ps => Some (first ++ ps)
    | None => None
    end
  else leading_trivia gap start start false.

(** ** The walker *)

(** parse.rs:201-217. *)
Record walker := {
  w_events : list event;
  w_trivia : list trivia;
  w_last_end : nat;
  w_between : bool;
}.

Definition new_walker : walker :=
  {| w_events := []; w_trivia := []; w_last_end := 0; w_between := false |}.

(** parse.rs:1089-1106. *)
Definition push_event (ev : event) (w : walker) : walker :=
  {| w_events := w_events w ++ [ev]; w_trivia := w_trivia w;
     w_last_end := w_last_end w; w_between := w_between w |}.
Definition enter (k : kind) : walker -> walker := push_event (Start k).
Definition leave : walker -> walker := push_event Finish.

Definition bind {A B} (o : option A) (f : A -> option B) : option B :=
  match o with Some a => f a | None => None end.

Section Walk.
Variable src : text.

(** parse.rs:625-639. *)
Definition handle_token (s e : nat) (k : kind) (w : walker) : option walker :=
  bind (slice (w_last_end w) s src) (fun gap =>
  bind (derive_trivia gap (w_last_end w) (w_between w)) (fun ps =>
  Some {| w_events := w_events w ++ [Token k e];
          w_trivia := w_trivia w ++ ps;
          w_last_end := e;
          w_between := true |})).

(** parse.rs:645-680. *)
Definition handle_comment_leave (s e : nat) (w : walker) : option walker :=
  bind (slice (w_last_end w) s src) (fun gap =>
  let has_lf := existsb (fun c => (c =? LF)%N) gap in
  let trailing := if has_lf then false else w_between w in
  bind (if has_lf then derive_trivia gap (w_last_end w) (w_between w)
        else Some (if negb (s =? w_last_end w)
                   then [mk_trivia Whitespace (w_last_end w) s trailing] else []))
    (fun ps =>
  Some {| w_events := w_events w;
          w_trivia := w_trivia w ++ ps ++ [mk_trivia Comment s e trailing];
          w_last_end := e;
          w_between := w_between w |})).

(** parse.rs:603-623, from the point where the expression list was left. *)
Definition handle_root_leave (e : nat) (w : walker) : option walker :=
  let w := leave w in
  bind (slice (w_last_end w) e src) (fun gap =>
  bind (derive_trivia gap (w_last_end w) false) (fun ps =>
  Some (leave {| w_events := w_events w; w_trivia := w_trivia w ++ ps;
                 w_last_end := w_last_end w; w_between := false |}))).

(** Loops over the children of a node; [walk] is [walk_next] (parse.rs:233-253). *)
Section Loops.
Variable walk : ts -> walker -> option walker.

(** The main loop (parse.rs:219-226), restricted to the children of a node. *)
Fixpoint walk_all (l : list ts) (w : walker) : option walker :=
  match l with
  | [] => Some w
  | c :: r => bind (walk c w) (walk_all r)
  end.

(** parse.rs:687-710. *)
Fixpoint parameters_loop (l : list ts) (w : walker) : option walker :=
  match l with
  | [] => Some w
  | c :: r =>
    match ts_kind c with
    | L_PAREN => bind (walk c w) (fun w => parameters_loop r (enter R_PARAMETER_LIST w))
    | R_PAREN => bind (walk c (leave w)) (parameters_loop r)
    | R_PARAMETER | COMMA | COMMENT => bind (walk c w) (parameters_loop r)
    | _ => None
    end
  end.

(** parse.rs:724-748. *)
Fixpoint parameter_loop (l : list ts) (used_equal : bool) (w : walker) : option walker :=
  match l with
  | [] => Some (if used_equal then leave w else w)
  | c :: r =>
    match ts_kind c with
    | EQUAL => bind (walk c (enter R_PARAMETER_DEFAULT w)) (parameter_loop r true)
    | _ => bind (walk c w) (parameter_loop r used_equal)
    end
  end.

(** parse.rs:813-841. *)
Fixpoint if_loop (l : list ts) (used_else : bool) (w : walker) : option walker :=
  match l with
  | [] => Some (if used_else then leave w else w)
  | c :: r =>
    match ts_kind c with
    | ELSE_KW => bind (walk c (enter R_ELSE_CLAUSE w)) (if_loop r true)
    | _ => bind (walk c w) (if_loop r used_else)
    end
  end.

(** parse.rs:851-872. *)
Fixpoint braced_loop (l : list ts) (w : walker) : option walker :=
  match l with
  | [] => Some w
  | c :: r =>
    match ts_kind c with
    | L_CURLY => bind (walk c w) (fun w => braced_loop r (enter R_EXPRESSION_LIST w))
    | R_CURLY => bind (walk c (leave w)) (braced_loop r)
    | _ => bind (walk c w) (braced_loop r)
    end
  end.

(** parse.rs:935-940. *)
Definition delimiters (arguments_kind : kind) : kind * kind :=
  match arguments_kind with
  | R_SUBSET_ARGUMENTS => (L_BRACK, R_BRACK)
  | R_SUBSET2_ARGUMENTS => (L_BRACK2, R_BRACK2)
  | _ => (L_PAREN, R_PAREN)
  end.

(** A hole: an empty [R_ARGUMENT] (parse.rs:1050-1051, 1070-1071). *)
Definition hole (w : walker) : walker := leave (enter R_ARGUMENT w).

(** parse.rs:1048-1053 and 1068-1073. *)
Definition handle_hole_before_close (last_kind : kind) (w : walker) : walker :=
  if kind_eqb last_kind COMMA then hole w else w.
Definition handle_hole_before_comma (last_kind open : kind) (w : walker) : walker :=
  if kind_eqb last_kind COMMA || kind_eqb last_kind open then hole w else w.

(** parse.rs:944-982. *)
Fixpoint arguments_loop (open close : kind) (l : list ts) (last_kind : kind) (w : walker)
  : option walker :=
  match l with
  | [] => Some w
  | c :: r =>
    let k := ts_kind c in
    if kind_eqb k open then
      bind (walk c w) (fun w => arguments_loop open close r open (enter R_ARGUMENT_LIST w))
    else if kind_eqb k close then
      bind (walk c (leave (handle_hole_before_close last_kind w)))
        (arguments_loop open close r close)
    else match k with
    | COMMA =>
      bind (walk c (handle_hole_before_comma last_kind open w))
        (arguments_loop open close r COMMA)
    | R_ARGUMENT => bind (walk c w) (arguments_loop open close r R_ARGUMENT)
    | COMMENT => bind (walk c w) (arguments_loop open close r last_kind)
    | _ => None
    end
  end.

(** parse.rs:909-987. *)
Definition handle_arguments (ak : kind) (children : list ts) (w : walker) : option walker :=
  let '(open, close) := delimiters ak in
  bind (arguments_loop open close children R_BOGUS (enter ak w)) (fun w => Some (leave w)).

(** parse.rs:997-1030. *)
Definition is_name_kind (k : kind) : bool :=
  match k with
  | R_IDENTIFIER | R_STRING_VALUE | R_DOTS | R_DOT_DOT_I | R_NULL_EXPRESSION => true
  | _ => false
  end.
Definition is_name (c : ts) : bool :=
  is_name_kind (ts_kind c) && match ts_field c with F_name => true | _ => false end.

Fixpoint argument_loop (l : list ts) (seen_equal : bool) (w : walker) : option walker :=
  match l with
  | [] => Some w
  | c :: r =>
    if kind_eqb (ts_kind c) EQUAL then
      bind (walk c w) (fun w => argument_loop r true (leave w))
    else
      bind (walk c (if negb seen_equal && is_name c
                    then enter R_ARGUMENT_NAME_CLAUSE w else w))
        (argument_loop r seen_equal)
  end.
End Loops.

(** [handle_enter], the children, [handle_leave] (parse.rs:255-565). *)
Fixpoint walk (t : ts) (w : walker) {struct t} : option walker :=
  match t with
  | TS k _ s e children =>
    match class_of k with
    | C_root =>
      (* parse.rs:593-601 *)
      bind (walk_all walk children (enter R_EXPRESSION_LIST (enter R_ROOT w)))
        (handle_root_leave e)
    | C_node | C_string =>
      bind (walk_all walk children (enter k w)) (fun w => Some (leave w))
    | C_call ak =>
      (* parse.rs:879-907 *)
      bind ((fix call_loop (l : list ts) (w : walker) : option walker :=
               match l with
               | [] => Some w
               | c :: r =>
                 match c with
                 | TS _ F_arguments _ _ cs => bind (handle_arguments walk ak cs w) (call_loop r)
                 | _ => bind (walk c w) (call_loop r)
                 end
               end) children (enter k w))
        (fun w => Some (leave w))
    | C_parameters =>
      bind (parameters_loop walk children (enter k w)) (fun w => Some (leave w))
    | C_parameter =>
      bind (parameter_loop walk children false (enter k w)) (fun w => Some (leave w))
    | C_if =>
      bind (if_loop walk children false (enter k w)) (fun w => Some (leave w))
    | C_argument =>
      bind (argument_loop walk children false (enter k w)) (fun w => Some (leave w))
    | C_braced =>
      bind (braced_loop walk children (enter k w)) (fun w => Some (leave w))
    | C_value literal =>
      (* parse.rs:576-591 *)
      bind (walk_all walk children (enter k w)) (fun w =>
      bind (handle_token s e literal w) (fun w => Some (leave w)))
    | C_skip literal =>
      (* parse.rs:755-783 *)
      bind (handle_token s e literal (enter k w)) (fun w => Some (leave w))
    | C_token => bind (walk_all walk children w) (handle_token s e k)
    | C_content => handle_token s e STRING_CONTENT w   (* parse.rs:795-804 *)
    | C_comment => bind (walk_all walk children w) (handle_comment_leave s e)
    | C_unreachable => None
    end
  end.

(** ** The sink *)

(** A token of the syntax tree: its kind, its text with trivia, and the kinds
    and lengths of its leading and trailing trivia pieces (biome_rowan
    [GreenToken]). *)
Record tok := {
  tk_kind : kind;
  tk_text : text;
  tk_leading : list (tkind * nat);
  tk_trailing : list (tkind * nat);
}.

Inductive green := GNode (k : kind) (children : list green) | GTok (t : tok).

(** biome_parser [LosslessTreeSink], transcribed (trusted): the position in the
    text, the trivia not yet consumed, the open nodes with the children
    gathered so far (innermost first), and the finished tree.  The syntax
    factory, which checks the children of each node and may turn it into a
    bogus one, is in FactoryModel.v. *)
Record sink := {
  k_pos : nat;
  k_trivia : list trivia;
  k_open : list (kind * list green);
  k_needs_eof : bool;
  k_root : option green;
}.

Definition piece_of (tv : trivia) : tkind * nat := (tv_kind tv, tv_end tv - tv_start tv).

(** [LosslessTreeSink::eat_trivia]: the pieces taken, the new position, the rest. *)
Fixpoint eat_trivia (trailing : bool) (pos : nat) (tvs : list trivia)
  : list (tkind * nat) * nat * list trivia :=
  match tvs with
  | [] => ([], pos, [])
  | tv :: r =>
    if Bool.eqb (tv_trailing tv) trailing && (pos =? tv_start tv) then
      let '(ps, p, rest) := eat_trivia trailing (pos + (tv_end tv - tv_start tv)) r in
      (piece_of tv :: ps, p, rest)
    else ([], pos, tvs)
  end.

(** Add a finished child to the innermost open node. *)
Definition add_child (g : green) (st : list (kind * list green)) : option (list (kind * list green)) :=
  match st with
  | (k, cs) :: r => Some ((k, cs ++ [g]) :: r)
  | [] => None
  end.

(** [LosslessTreeSink::do_token]. *)
Definition do_token (k : kind) (token_end : nat) (s : sink) : option sink :=
  let token_start := k_pos s in
  let '(leading, _, tvs1) := eat_trivia false (k_pos s) (k_trivia s) in
  let '(trailing, pos, tvs2) := eat_trivia true token_end tvs1 in
  bind (slice token_start pos src) (fun txt =>
  bind (add_child (GTok {| tk_kind := k; tk_text := txt;
                           tk_leading := leading; tk_trailing := trailing |})
                  (k_open s)) (fun st =>
  Some {| k_pos := pos; k_trivia := tvs2; k_open := st;
          k_needs_eof := k_needs_eof s && negb (kind_eqb k EOF);
          k_root := k_root s |})).

(** [start_node] and [finish_node]; the EOF token is added when the root closes. *)
Definition sink_event (ev : event) (s : sink) : option sink :=
  match ev with
  | Start k =>
    Some {| k_pos := k_pos s; k_trivia := k_trivia s; k_open := (k, []) :: k_open s;
            k_needs_eof := k_needs_eof s; k_root := k_root s |}
  | Token k e => do_token k e s
  | Finish =>
    bind (if (List.length (k_open s) =? 1) && k_needs_eof s then do_token EOF (blen src) s
          else Some s) (fun s =>
    match k_open s with
    | [] => None
    | [(k, cs)] =>
      Some {| k_pos := k_pos s; k_trivia := k_trivia s; k_open := [];
              k_needs_eof := k_needs_eof s; k_root := Some (GNode k cs) |}
    | (k, cs) :: r =>
      bind (add_child (GNode k cs) r) (fun r =>
      Some {| k_pos := k_pos s; k_trivia := k_trivia s; k_open := r;
              k_needs_eof := k_needs_eof s; k_root := k_root s |})
    end)
  end.

Fixpoint sink_events (evs : list event) (s : sink) : option sink :=
  match evs with
  | [] => Some s
  | ev :: r => bind (sink_event ev s) (sink_events r)
  end.

(** [build_tree] (parse.rs:102-122). *)
Definition build_tree (evs : list event) (tvs : list trivia) : option green :=
  bind (sink_events evs {| k_pos := 0; k_trivia := tvs; k_open := []; k_needs_eof := true;
                           k_root := None |}) k_root.

(** parse.rs:159-197. *)
Definition parse_failure : list event :=
  [ Start R_ROOT; Start R_EXPRESSION_LIST; Start R_BOGUS_EXPRESSION;
    Token R_BOGUS (blen src); Finish; Finish; Finish ].

(** [parse] (parse.rs:96-157) on the tree-sitter tree [t], which has an error
    or missing node iff [has_error]: the syntax tree and whether parsing failed. *)
Definition parse (has_error : bool) (t : ts) : option (green * bool) :=
  if has_error then bind (build_tree parse_failure []) (fun g => Some (g, true))
  else bind (walk t new_walker) (fun w =>
       bind (build_tree (w_events w) (w_trivia w)) (fun g => Some (g, false))).
End Walk.

(** R's lexer, continued from LexSpec.v: lexemes and where R sees the end of an
    expression (gram.c, [token], [token_] and [contextp]; gram.y).  Nothing here
    mentions the formatter. *)
From Coq Require Import List NArith Bool Arith String.
From Verif Require Import Text SyntaxKind FmtTree IrModel FmtSpec LexSpec.
Import ListNotations.
Local Open Scope N_scope.

(** * Lexemes and line breaks *)

Inductive item := ILex (x : text) | IBreak | ISemi.

Definition SEMI : char := 59.
(** A line feed or a semicolon that is not part of a lexeme. *)
Definition break_of (c : char) (p : place) : list item :=
  match p with
  | Between => if c =? LF then [IBreak] else if c =? SEMI then [ISemi] else []
  | Inside _ _ => []
  end.
Fixpoint items_from (p : place) (s : text) : option (list item * place) :=
  match s with
  | [] => Some ([], p)
  | c :: r =>
    match LexSpec.see p c with
    | Some (a, p') =>
      match items_from p' r with
      | Some (b, p'') => Some (map ILex a ++ break_of c p' ++ b, p'')
      | None => None
      end
    | None => None
    end
  end.
Definition items (s : text) : option (list item) :=
  match items_from Between s with
  | Some (a, p) => match the_end p with Some b => Some (a ++ map ILex b) | None => None end
  | None => None
  end.

(** * What a lexeme is *)

Definition words : list (text * kind) :=
  [ ($"function", FUNCTION_KW); ($"\", BACKSLASH); ($"if", IF_KW); ($"else", ELSE_KW); ($"for", FOR_KW);
    ($"in", IN_KW); ($"while", WHILE_KW); ($"repeat", REPEAT_KW); ($"next", NEXT_KW);
    ($"break", BREAK_KW); ($"TRUE", TRUE_KW); ($"FALSE", FALSE_KW); ($"NULL", NULL_KW);
    ($"Inf", INF_KW); ($"NaN", NAN_KW); ($"NA", NA_LOGICAL_KW); ($"NA_integer_", NA_INTEGER_KW);
    ($"NA_real_", NA_DOUBLE_KW); ($"NA_complex_", NA_COMPLEX_KW);
    ($"NA_character_", NA_CHARACTER_KW); ($"...", DOTS);
    ($"(", L_PAREN); ($")", R_PAREN); ($"{", L_CURLY); ($"}", R_CURLY); ($"[", L_BRACK);
    ($"]", R_BRACK); ($"[[", L_BRACK2); ($",", COMMA);
    ($"?", WAT); ($"~", TILDE); ($"<-", ASSIGN); ($"<<-", SUPER_ASSIGN); ($":=", WALRUS);
    ($"->", ASSIGN_RIGHT); ($"->>", SUPER_ASSIGN_RIGHT); ($"=", EQUAL); ($"|", OR_OP);
    ($"&", AND_OP); ($"||", OR2); ($"&&", AND2); ($"<", LESS_THAN);
    ($"<=", LESS_THAN_OR_EQUAL_TO); ($">", GREATER_THAN); ($">=", GREATER_THAN_OR_EQUAL_TO);
    ($"==", EQUAL2); ($"!=", NOT_EQUAL); ($"+", PLUS); ($"-", MINUS); ($"*", MULTIPLY);
    ($"/", DIVIDE); ($"^", EXPONENTIATE); ($"**", EXPONENTIATE2); ($"|>", PIPE);
    ($":", SyntaxKind.COLON); ($"::", COLON2); ($":::", COLON3); ($"$", DOLLAR); ($"@", AT_OP);
    ($"!", BANG) ].
Definition number_kind (x : text) : kind :=
  let c := last x 0 in
  if c =? 76 then R_INTEGER_LITERAL else if c =? 105 then R_COMPLEX_LITERAL else R_DOUBLE_LITERAL.
(** [..1] *)
Definition dot_dot (x : text) : bool :=
  match x with
  | a :: b :: c :: r => (a =? DOT) && (b =? DOT) && forallb digit (c :: r)
  | _ => false
  end.
Definition numeric (x : text) : bool :=
  match x with
  | c :: d :: _ => digit c || (c =? DOT) && digit d
  | c :: _ => digit c
  | [] => false
  end.
Definition is_string (x : text) : bool :=
  match x with
  | c :: r => quote c || ((c =? 114) || (c =? 82)) && match r with d :: _ => quote d | [] => false end
  | [] => false
  end.
Definition kind_of (x : text) : kind :=
  match find (fun w => text_eqb (fst w) x) words with
  | Some w => snd w
  | None =>
    if is_string x then STRING_OPEN
    else if match x with c :: _ => c =? PERCENT | [] => false end then SPECIAL
    else if numeric x then number_kind x
    else if dot_dot x then DOTDOTI
    else IDENT
  end.

(** What a token means for the reader.  [RoContinues]: an expression cannot
    end after it.  [RoHeader]: a keyword whose parenthesis is followed by more
    of the expression. *)
Inductive role :=
| RoPlain | RoContinues | RoHeader
| RoOpenRound | RoOpenSquare | RoOpenCurly | RoCloseRound | RoCloseSquare | RoCloseCurly
| RoMark.

Definition role_of (k : kind) : role :=
  match k with
  | TILDE | ASSIGN | SUPER_ASSIGN | WALRUS | ASSIGN_RIGHT | SUPER_ASSIGN_RIGHT | EQUAL
  | OR_OP | AND_OP | OR2 | AND2 | LESS_THAN | LESS_THAN_OR_EQUAL_TO | GREATER_THAN
  | GREATER_THAN_OR_EQUAL_TO | EQUAL2 | NOT_EQUAL | PLUS | MINUS | MULTIPLY | DIVIDE
  | EXPONENTIATE | EXPONENTIATE2 | PIPE | SPECIAL | SyntaxKind.COLON | DOLLAR | AT_OP | BANG
  | WAT | IN_KW | REPEAT_KW | ELSE_KW => RoContinues
  | FUNCTION_KW | BACKSLASH | FOR_KW | WHILE_KW | IF_KW => RoHeader
  | L_PAREN => RoOpenRound
  | L_BRACK | L_BRACK2 => RoOpenSquare
  | L_CURLY => RoOpenCurly
  | R_PAREN => RoCloseRound
  | R_BRACK | R_BRACK2 => RoCloseSquare
  | R_CURLY => RoCloseCurly
  | UNICODE_BOM => RoMark
  | _ => RoPlain
  end.

(** * The ends of expressions *)

(** Where a piece of code stands: between no delimiters, directly in braces, in
    parentheses or brackets. *)
Inductive context := InFile | InBraces | InRound.

(** Open delimiters, innermost first.  [OHead]: the parenthesis after a
    [RoHeader].  [OSeen]: what stands around a text read by itself. *)
Inductive opened := OHead | ORound | OSquare | OCurly | OSeen (c : context).
Definition around (s : list opened) : context :=
  match s with [] => InFile | OCurly :: _ => InBraces | OSeen c :: _ => c | _ => InRound end.

(** Since the last lexeme. *)
Inductive pause := NoBreak | LineBreak | Semicolon.

(** [rs_eats]: a line break here is thrown away.  [rs_fresh]: at the start of
    the file or of braces.  [rs_header]: the last lexeme is a [RoHeader]. *)
Record rstate := {
  rs_open : list opened;
  rs_eats : bool;
  rs_fresh : bool;
  rs_pause : pause;
  rs_header : bool
}.
Definition r_start : rstate :=
  {| rs_open := []; rs_eats := true; rs_fresh := true; rs_pause := NoBreak; rs_header := false |}.

Definition paused (p : pause) (st : rstate) : rstate :=
  {| rs_open := rs_open st; rs_eats := rs_eats st; rs_fresh := rs_fresh st; rs_pause := p;
     rs_header := rs_header st |}.
Definition r_break (st : rstate) : rstate :=
  if rs_eats st then st
  else match rs_pause st with Semicolon => st | _ => paused LineBreak st end.
Definition r_semi (st : rstate) : option rstate :=
  if rs_fresh st then Some st else if rs_eats st then None else Some (paused Semicolon st).

(** The delimiters after a lexeme; [None]: they do not match. *)
Definition r_open (st : rstate) (x : text) : option (list opened) :=
  match role_of (kind_of x), rs_open st with
  | RoOpenRound, s => Some ((if rs_header st then OHead else ORound) :: s)
  | RoOpenSquare, s => Some (map (fun _ => OSquare) x ++ s)
  | RoOpenCurly, s => Some (OCurly :: s)
  | RoCloseRound, OHead :: s | RoCloseRound, ORound :: s | RoCloseSquare, OSquare :: s
  | RoCloseCurly, OCurly :: s => Some s
  | RoCloseRound, _ | RoCloseSquare, _ | RoCloseCurly, _ => None
  | _, s => Some s
  end.
(** An expression ended before the lexeme.  A closing brace ends the last
    expression itself; inside braces R looks for an [else] beyond line breaks. *)
Definition r_mark (st : rstate) (x : text) : bool :=
  match kind_of x, rs_pause st with
  | R_CURLY, _ | _, NoBreak => false
  | ELSE_KW, LineBreak => match around (rs_open st) with InFile => true | _ => false end
  | _, _ => true
  end.
Definition goes_on (r : role) (s : list opened) : bool :=
  match r with
  | RoContinues | RoHeader | RoOpenCurly => true
  | RoCloseRound => match s with OHead :: _ => true | _ => false end
  | _ => false
  end.
Definition is_round (c : context) : bool := match c with InRound => true | _ => false end.
Definition r_lexeme (st : rstate) (x : text) : option (bool * rstate) :=
  match r_open st x with
  | Some s =>
    let r := role_of (kind_of x) in
    Some (r_mark st x,
          {| rs_open := s; rs_eats := goes_on r (rs_open st) || is_round (around s);
             rs_fresh := match r with RoOpenCurly => true | _ => false end;
             rs_pause := NoBreak;
             rs_header := match r with RoHeader => true | _ => false end |})
  | None => None
  end.
Definition r_item (st : rstate) (i : item) : option (list (text * bool) * rstate) :=
  match i with
  | IBreak => Some ([], r_break st)
  | ISemi => match r_semi st with Some st' => Some ([], st') | None => None end
  | ILex x =>
    if is_comment x then Some ([], st)
    else match r_lexeme st x with Some (b, st') => Some ([(x, b)], st') | None => None end
  end.
Fixpoint r_items (st : rstate) (l : list item) : option (list (text * bool) * rstate) :=
  match l with
  | [] => Some ([], st)
  | i :: r =>
    match r_item st i with
    | Some (a, st') =>
      match r_items st' r with Some (b, st'') => Some (a ++ b, st'') | None => None end
    | None => None
    end
  end.
(** A whole file: its lexemes without the comments, marked where R saw the end
    of an expression before them. *)
Definition r_read (s : text) : option (list (text * bool)) :=
  match items s with
  | Some l => match r_items r_start l with Some (m, _) => Some m | None => None end
  | None => None
  end.

(** * Tokens *)

(** How many dashes a raw string has. *)
Fixpoint dashes (x : text) : nat :=
  match x with c :: r => if c =? DASH then S (dashes r) else O | [] => O end.
(** The length of what opens and of what closes a string. *)
Definition string_ends (x : text) : nat * nat :=
  match x with
  | c :: r => if quote c then (1, 1)%nat else let n := dashes (tl r) in (3 + n, 2 + n)%nat
  | [] => (0, 0)%nat
  end.
Definition string_tokens (x : text) : list token :=
  let '(a, z) := string_ends x in
  let m := (List.length x - z)%nat in
  let content := skipn a (firstn m x) in
  tk STRING_OPEN (firstn a x) ::
  match content with [] => [] | _ => [tk STRING_CONTENT content] end ++
  [tk STRING_CLOSE (skipn m x)].
Definition first_marked (b : bool) (ts : list token) : list (token * bool) :=
  match ts with [] => [] | t :: r => (t, b) :: map (fun t => (t, false)) r end.

(** The tokens of marked lexemes.  [s]: whether the open delimiters, innermost
    first, are [ [[ ]: their two closing brackets are one token. *)
Fixpoint r_tokens (s : list bool) (l : list (text * bool)) : list (token * bool) :=
  match l with
  | [] => []
  | (x, b) :: r =>
    let k := kind_of x in
    match k with
    | STRING_OPEN => first_marked b (string_tokens x) ++ r_tokens s r
    | L_PAREN | L_CURLY | L_BRACK => (tk k x, b) :: r_tokens (false :: s) r
    | L_BRACK2 => (tk k x, b) :: r_tokens (true :: s) r
    | R_BRACK =>
      match s, r with
      | true :: s', (y, _) :: r' =>
        match kind_of y with
        | R_BRACK => (tk R_BRACK2 (x ++ y), b) :: r_tokens s' r'
        | _ => (tk k x, b) :: r_tokens s' r
        end
      | _, _ => (tk k x, b) :: r_tokens (tl s) r
      end
    | R_PAREN | R_CURLY => (tk k x, b) :: r_tokens (tl s) r
    | _ => (tk k x, b) :: r_tokens s r
    end
  end.
(** R's tokens of a file, marked where R saw the end of an expression. *)
Definition tokens_of (s : text) : option (list (token * bool)) :=
  match r_read s with Some m => Some (r_tokens [] m) | None => None end.

Example read_example :
  r_read ($"x[[f(" ++ LF :: $"1)]] # c" ++ LF :: $"+ y; {" ++ LF :: $"if (a) b" ++ LF :: $"else c }" ++ LF
          :: $"'s'")
  = Some [($"x", false); ($"[[", false); ($"f", false); ($"(", false); ($"1", false); ($")", false);
          ($"]", false); ($"]", false); ($"+", true); ($"y", false); ($"{", true); ($"if", false);
          ($"(", false); ($"a", false); ($")", false); ($"b", false); ($"else", false); ($"c", false);
          ($"}", false); ($"'s'", true)].
Proof. reflexivity. Qed.
Example tokens_example :
  tokens_of ($"x[[r""-(a)-""]]" ++ LF :: $"''")
  = Some [(tk IDENT $"x", false); (tk L_BRACK2 $"[[", false); (tk STRING_OPEN $"r""-(", false);
          (tk STRING_CONTENT $"a", false); (tk STRING_CLOSE $")-""", false); (tk R_BRACK2 $"]]", false);
          (tk STRING_OPEN $"'", true); (tk STRING_CLOSE $"'", false)].
Proof. reflexivity. Qed.

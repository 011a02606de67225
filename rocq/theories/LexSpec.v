(** R's lexer (gram.c, [token] and what it calls): how a text falls into
    lexemes.  One pass, longest match, no backtracking.  Nothing here mentions
    the formatter. *)
From Coq Require Import List NArith Bool Arith String.
From Verif Require Import Text LineEndingSpec SyntaxKind FmtTree IrModel FmtSpec.
Import ListNotations.
Open Scope N_scope.

(** * Characters *)

(** What stands between lexemes and is no lexeme itself: white space, line
    breaks, semicolons, a byte order mark. *)
Definition blank (c : char) : bool :=
  (9 <=? c) && (c <=? 13) || (c =? 32) || (c =? 59) || (c =? 65279).
Definition digit (c : char) : bool := (48 <=? c) && (c <=? 57).
Definition hex_digit (c : char) : bool :=
  digit c || (65 <=? c) && (c <=? 70) || (97 <=? c) && (c <=? 102).
(** Letters, and everything beyond ASCII. *)
Definition letter (c : char) : bool :=
  (65 <=? c) && (c <=? 90) || (97 <=? c) && (c <=? 122) || (128 <=? c) && negb (blank c).
Definition DOT : char := 46.
Definition QUOTE : char := 34.
Definition TICK : char := 39.
Definition BACKTICK : char := 96.
Definition ESCAPE : char := 92.
Definition HASH : char := 35.
Definition PERCENT : char := 37.
Definition DASH : char := 45.
(** Characters inside a name. *)
Definition name_char (c : char) : bool := letter c || digit c || (c =? DOT) || (c =? 95).
Definition quote (c : char) : bool := (c =? QUOTE) || (c =? TICK).

(** * Operators and delimiters *)

Definition operators : list text :=
  [ $"("; $")"; $"{"; $"}"; $"["; $"[["; $"]"; $","; $"\"; $"?"; $"~"; $"+"; $"/"; $"^"; $"$"; $"@";
    $"-"; $"->"; $"->>"; $"<"; $"<="; $"<-"; $"<<-"; $">"; $">="; $"!"; $"!="; $"="; $"=="; $"=>";
    $":"; $"::"; $":::"; $":="; $"&"; $"&&"; $"|"; $"||"; $"|>"; $"*"; $"**" ].
Definition op_prefix (t : text) : bool := existsb (text_eqb t) ($"<<" :: operators).

(** * The automaton *)

Inductive lexing :=
| LName                       (* a name or a keyword *)
| LDot                        (* a dot: a name or a number *)
| LRaw                        (* [r] or [R]: a name or the start of a raw string *)
| LZero | LNumber             (* a number; [LZero]: after a first 0 *)
| LExp | LExpSign | LExpDigits
| LHexStart | LHex | LHexExp | LHexExpSign | LHexExpDigits
| LQuoted (q : char) | LEscaped (q : char)
| LOpening (q : char) (n : nat)              (* raw string: dashes before the bracket *)
| LRawText (q : char) (n : nat) (close : char)
| LClosing (q : char) (n : nat) (close : char) (m : nat)
| LSpecial                    (* inside %op% *)
| LComment
| LOperator (t : text)
| LClosed.                    (* nothing may be added *)

Definition start (c : char) : option lexing :=
  if c =? 48 then Some LZero
  else if digit c then Some LNumber
  else if c =? DOT then Some LDot
  else if (c =? 114) || (c =? 82) then Some LRaw
  else if letter c || (c =? 95) then Some LName
  else if quote c || (c =? BACKTICK) then Some (LQuoted c)
  else if c =? PERCENT then Some LSpecial
  else if c =? HASH then Some LComment
  else if op_prefix [c] then Some (LOperator [c])
  else None.

Definition in_name (c : char) : option lexing := if name_char c then Some LName else None.
(** What may follow the digits of a number; [L] and [i] end it. *)
Definition suffix (c : char) : option lexing :=
  if (c =? 76) || (c =? 105) then Some LClosed else None.
Definition sign (c : char) : bool := (c =? 43) || (c =? DASH).
Definition in_number (c : char) : option lexing :=
  if digit c || (c =? DOT) then Some LNumber
  else if (c =? 101) || (c =? 69) then Some LExp
  else suffix c.
Definition bracket (c : char) : option char :=
  if c =? 40 then Some 41 else if c =? 91 then Some 93 else if c =? 123 then Some 125 else None.

(** What a lexeme becomes when the character is added; [None]: it is not part
    of the lexeme. *)
Definition extend (l : lexing) (c : char) : option lexing :=
  match l with
  | LName => in_name c
  | LDot => if digit c then Some LNumber else in_name c
  | LRaw => if quote c then Some (LOpening c 0) else in_name c
  | LZero => if (c =? 120) || (c =? 88) then Some LHexStart else in_number c
  | LNumber => in_number c
  | LExp => if sign c then Some LExpSign else if digit c then Some LExpDigits else None
  | LExpSign => if digit c then Some LExpDigits else None
  | LExpDigits => if digit c then Some LExpDigits else suffix c
  | LHexStart => if hex_digit c then Some LHex else None
  | LHex =>
    if hex_digit c || (c =? DOT) then Some LHex
    else if (c =? 112) || (c =? 80) then Some LHexExp
    else suffix c
  | LHexExp => if sign c then Some LHexExpSign else if digit c then Some LHexExpDigits else None
  | LHexExpSign => if digit c then Some LHexExpDigits else None
  | LHexExpDigits => if digit c then Some LHexExpDigits else suffix c
  | LQuoted q =>
    if c =? q then Some LClosed else if c =? ESCAPE then Some (LEscaped q) else Some (LQuoted q)
  | LEscaped q => Some (LQuoted q)
  | LOpening q n =>
    if c =? DASH then Some (LOpening q (S n))
    else match bracket c with Some b => Some (LRawText q n b) | None => None end
  | LRawText q n b => Some (if c =? b then LClosing q n b 0 else LRawText q n b)
  | LClosing q n b m =>
    Some (if (c =? q) && (m =? n)%nat then LClosed
          else if (c =? DASH) && (m <? n)%nat then LClosing q n b (S m)
          else if c =? b then LClosing q n b 0
          else LRawText q n b)
  | LSpecial => if c =? PERCENT then Some LClosed else if c =? LF then None else Some LSpecial
  | LComment => if c =? LF then None else Some LComment
  | LOperator t => if op_prefix (t ++ [c]) then Some (LOperator (t ++ [c])) else None
  | LClosed => None
  end.

(** The lexeme may end here. *)
Definition complete_lexeme (l : lexing) : bool :=
  match l with
  | LName | LDot | LRaw | LZero | LNumber | LExpDigits | LHex | LHexExpDigits | LComment | LClosed =>
    true
  | LOperator t => existsb (text_eqb t) operators
  | _ => false
  end.

(** * Lexing a text *)

(** Between lexemes, or inside one of which the given characters were read. *)
Inductive place := Between | Inside (l : lexing) (t : text).

(** One more character: the lexeme it ends, if any, and the new place. *)
Definition begin (c : char) : option place :=
  if blank c then Some Between
  else match start c with Some l => Some (Inside l [c]) | None => None end.
Definition see (p : place) (c : char) : option (list text * place) :=
  match p with
  | Between => match begin c with Some p' => Some ([], p') | None => None end
  | Inside l t =>
    match extend l c with
    | Some l' => Some ([], Inside l' (t ++ [c]))
    | None =>
      if complete_lexeme l
      then match begin c with Some p' => Some ([t], p') | None => None end
      else None
    end
  end.
Fixpoint see_all (p : place) (s : text) : option (list text * place) :=
  match s with
  | [] => Some ([], p)
  | c :: r =>
    match see p c with
    | Some (a, p') =>
      match see_all p' r with Some (b, p'') => Some (a ++ b, p'') | None => None end
    | None => None
    end
  end.
Definition the_end (p : place) : option (list text) :=
  match p with
  | Between => Some []
  | Inside l t => if complete_lexeme l then Some [t] else None
  end.
(** The lexemes of a text, comments among them; [None]: R reports an error. *)
Definition lex (s : text) : option (list text) :=
  match see_all Between s with
  | Some (a, p) => match the_end p with Some b => Some (a ++ b) | None => None end
  | None => None
  end.

Definition is_comment (t : text) : bool := match t with c :: _ => c =? HASH | [] => false end.
(** Without the comments. *)
Definition code (l : list text) : list text := filter (fun t => negb (is_comment t)) l.

(** * Tokens as lexemes *)

(** The tokens of the syntax tree are R's lexemes, except that a string is made
    of three tokens and that R reads [ ]] ] as two brackets. *)
Fixpoint lexemes (ts : list token) : list text :=
  match ts with
  | [] => []
  | t :: r =>
    match t_kind t with
    | STRING_OPEN | STRING_CONTENT =>
      match lexemes r with x :: l => (t_text t ++ x) :: l | [] => [t_text t] end
    | R_BRACK2 => map (fun c => [c]) (t_text t) ++ lexemes r
    | UNICODE_BOM => lexemes r
    | _ => t_text t :: lexemes r
    end
  end.

Example lex_example :
  lex ($"x[[1e-5L]]<-f(y,'a\'b')  # c" ++ LF :: $"r""-(a)"")-"" %in% .5:-`b c`;..1<<-0x1Fp+2->>z")
  = Some [$"x"; $"[["; $"1e-5L"; $"]"; $"]"; $"<-"; $"f"; $"("; $"y"; $","; $"'a\'b'"; $")"; $"# c";
          $"r""-(a)"")-"""; $"%in%"; $".5"; $":"; $"-"; $"`b c`"; $"..1"; $"<<-"; $"0x1Fp+2";
          $"->>"; $"z"].
Proof. reflexivity. Qed.

(** * The printed text

    The words of the output, with any indentation after a line break.  Line
    feeds only: writing them as CR LF is [Formatted::print]'s affair. *)
Definition printed_word (w : word) : text :=
  match w with
  | WTok t => t_text t
  | WComment c => c
  | WPad n => repeat 32 n
  | WVerb e => without_cr_of_crlf (n_src (notes_of e))
  | WBreak => [LF]
  end.
Definition indentation (s : text) : Prop := Forall (fun c => c = 32 \/ c = 9) s.
Inductive rendered : list piece -> text -> Prop :=
| R_nil : rendered [] []
| R_word w ps s : rendered ps s -> rendered (PWord w :: ps) (printed_word w ++ s)
| R_space ps s : rendered ps s -> rendered (PSpace :: ps) (32 :: s)
| R_newline i ps s : indentation i -> rendered ps s -> rendered (PNewline :: ps) (LF :: i ++ s).

(** * Trees whose tokens are lexemes *)

(** A lexeme by itself. *)
Definition one_lexeme (s : text) : Prop := lex s = Some [s].
Definition starts_with (f : char -> bool) (s : text) : Prop :=
  match s with c :: _ => f c = true | [] => False end.
(** The first characters of names, numbers and strings. *)
Definition atom_char (c : char) : bool := name_char c || quote c || (c =? BACKTICK).

Definition plain_token (t : token) : Prop :=
  match t_kind t with
  | STRING_OPEN | STRING_CONTENT | STRING_CLOSE | R_BRACK2 | UNICODE_BOM => False
  | _ => True
  end.
Definition string_text (opn content close : text) : Prop :=
  one_lexeme (opn ++ content ++ close) /\ starts_with atom_char opn /\
  ~ In CR opn /\ ~ In LF close.
(** Names, numbers, keywords: one lexeme, on one line.  Strings: two or three
    tokens that are one lexeme. *)
Definition leaf_tokens (ts : list token) : Prop :=
  match ts with
  | [t] =>
    plain_token t /\ one_lexeme (t_text t) /\ starts_with atom_char (t_text t) /\
    ~ In LF (t_text t)
  | [a; z] =>
    t_kind a = STRING_OPEN /\ t_kind z = STRING_CLOSE /\ string_text (t_text a) [] (t_text z)
  | [a; b; z] =>
    t_kind a = STRING_OPEN /\ t_kind b = STRING_CONTENT /\ t_kind z = STRING_CLOSE /\
    string_text (t_text a) (t_text b) (t_text z)
  | _ => False
  end.

(** crates/air_r_parser/src/treesitter.rs:138-171: how operators are spelled. *)
Definition operator_text (k : kind) : option text :=
  match k with
  | WAT => Some $"?" | TILDE => Some $"~" | ASSIGN => Some $"<-" | SUPER_ASSIGN => Some $"<<-"
  | WALRUS => Some $":=" | ASSIGN_RIGHT => Some $"->" | SUPER_ASSIGN_RIGHT => Some $"->>"
  | EQUAL => Some $"=" | OR_OP => Some $"|" | AND_OP => Some $"&" | OR2 => Some $"||"
  | AND2 => Some $"&&" | LESS_THAN => Some $"<" | LESS_THAN_OR_EQUAL_TO => Some $"<="
  | GREATER_THAN => Some $">" | GREATER_THAN_OR_EQUAL_TO => Some $">=" | EQUAL2 => Some $"=="
  | NOT_EQUAL => Some $"!=" | PLUS => Some $"+" | MINUS => Some $"-" | MULTIPLY => Some $"*"
  | DIVIDE => Some $"/" | EXPONENTIATE => Some $"^" | EXPONENTIATE2 => Some $"**"
  | PIPE => Some $"|>" | SyntaxKind.COLON => Some $":" | COLON2 => Some $"::"
  | COLON3 => Some $":::" | DOLLAR => Some $"$" | AT_OP => Some $"@" | BANG => Some $"!"
  | FUNCTION_KW => Some $"function" | BACKSLASH => Some $"\"
  | _ => None
  end.
Definition operator (ks : list kind) (t : token) : Prop :=
  In (t_kind t) ks /\ operator_text (t_kind t) = Some (t_text t).
Definition unary_kinds : list kind := [PLUS; MINUS; TILDE; BANG; WAT].
Definition binary_kinds : list kind :=
  [WAT; TILDE; ASSIGN; SUPER_ASSIGN; WALRUS; ASSIGN_RIGHT; SUPER_ASSIGN_RIGHT; EQUAL; OR_OP;
   AND_OP; OR2; AND2; LESS_THAN; LESS_THAN_OR_EQUAL_TO; GREATER_THAN; GREATER_THAN_OR_EQUAL_TO;
   EQUAL2; NOT_EQUAL; PLUS; MINUS; MULTIPLY; DIVIDE; EXPONENTIATE; EXPONENTIATE2; PIPE;
   SyntaxKind.COLON].
Definition special_operator (t : token) : Prop :=
  t_kind t = SPECIAL /\ one_lexeme (t_text t) /\ starts_with (N.eqb PERCENT) (t_text t).

Definition tokens_lexical (e : expr) : Prop :=
  match e with
  | ELeaf _ _ ts => leaf_tokens ts
  | EUnary _ op _ => operator unary_kinds op
  | EBinary _ _ op _ => operator binary_kinds op \/ special_operator op
  | EExtract _ _ op _ => operator [DOLLAR; AT_OP] op
  | ENamespace _ _ op _ => operator [COLON2; COLON3] op
  | EFunction _ name _ _ => operator [FUNCTION_KW; BACKSLASH] name
  | _ => True
  end.

(** The source of a node is its tokens, with blanks and comments between them
    only. *)
Definition reads_as (src : text) (ts : list token) : Prop :=
  exists L, lex src = Some L /\ code L = lexemes ts /\
    is_comment (last L []) = false /\
    match L with
    | [] => src = []
    | x :: _ => is_comment x = false /\ exists s, src = x ++ s
    end.

Definition comment_text (c : comment) : Prop :=
  is_comment (c_text c) = true /\ ~ In LF (c_text c).
Definition comments_lexical (n : notes) : Prop :=
  Forall comment_text (n_lead n ++ n_dang n ++ n_trail n).

Definition lexical_node (e : expr) : Prop :=
  tokens_lexical e /\ comments_lexical (notes_of e) /\
  reads_as (n_src (notes_of e)) (etokens e).
Definition lexical (r : root) : Prop :=
  opt_all (fun t => t_kind t = UNICODE_BOM /\ t_text t = [65279]) (r_bom r) /\
  comments_lexical (r_notes r) /\
  all_of (everywhere lexical_node) (r_exprs r).

(** R's grammar (gram.y), for C39 and C41: a parser for tokens that are marked
    where R saw the end of an expression (FmtLineSpec.v), and the trees that
    such a grammar builds.  Independent of the formatter. *)
From Coq Require Import List Arith Bool NArith.
From Verif Require Import Text SettingsModel SyntaxKind DirectiveModel FmtTree FmtSpec FmtLineSpec.
Import ListNotations.

(** * Operators *)

(** How tightly operators bind; [LEVEL_BODY]: bodies of functions, loops and
    branches end before operators below it.  [=] is lower than [<-] because
    only [expr_or_assign_or_help] has it. *)
Definition LEVEL_HELP := 1.
Definition LEVEL_BODY := 3.
Definition LEVEL_EQUAL := 3.
Definition LEVEL_ARROW := 4.
Definition LEVEL_COMPARE := 10.
Definition LEVEL_CALL := 17.
Definition LEVEL_NAMESPACE := 18.
(** Above all operators. *)
Definition LEVEL_TOP := 19.

Definition infix_level (k : kind) : option nat :=
  match k with
  | WAT => Some LEVEL_HELP
  | EQUAL => Some LEVEL_EQUAL
  | ASSIGN | SUPER_ASSIGN | WALRUS => Some LEVEL_ARROW
  | ASSIGN_RIGHT | SUPER_ASSIGN_RIGHT => Some 5
  | TILDE => Some 6
  | OR_OP | OR2 => Some 7
  | AND_OP | AND2 => Some 8
  | LESS_THAN | LESS_THAN_OR_EQUAL_TO | GREATER_THAN | GREATER_THAN_OR_EQUAL_TO | EQUAL2
  | NOT_EQUAL => Some LEVEL_COMPARE
  | PLUS | MINUS => Some 11
  | MULTIPLY | DIVIDE => Some 12
  | SPECIAL | PIPE => Some 13
  | SyntaxKind.COLON => Some 14
  | EXPONENTIATE | EXPONENTIATE2 => Some 16
  | DOLLAR | AT_OP => Some LEVEL_CALL
  | COLON2 | COLON3 => Some LEVEL_NAMESPACE
  | _ => None
  end.
Definition right_assoc (k : kind) : bool :=
  match k with
  | EQUAL | ASSIGN | SUPER_ASSIGN | WALRUS | EXPONENTIATE | EXPONENTIATE2 => true
  | _ => false
  end.
Definition prefix_level (k : kind) : option nat :=
  match k with
  | WAT => Some LEVEL_HELP
  | TILDE => Some 6
  | BANG => Some 9
  | PLUS | MINUS => Some 15
  | _ => None
  end.
(** What an operator takes on its right binds at least so tightly. *)
Definition right_of (k : kind) (level : nat) : nat := if right_assoc k then level else S level.

Definition opening (k : kind) : option call_kind :=
  match k with
  | L_PAREN => Some KCall | L_BRACK => Some KSubset | L_BRACK2 => Some KSubset2 | _ => None
  end.
Definition closing (c : call_kind) : kind := t_kind (r_token c).

Definition atomic (k : kind) : bool :=
  match k with
  | IDENT | DOTS | DOTDOTI | NEXT_KW | BREAK_KW | TRUE_KW | FALSE_KW | NULL_KW | INF_KW | NAN_KW
  | NA_LOGICAL_KW | NA_INTEGER_KW | NA_DOUBLE_KW | NA_COMPLEX_KW | NA_CHARACTER_KW
  | R_INTEGER_LITERAL | R_DOUBLE_LITERAL | R_COMPLEX_LITERAL => true
  | _ => false
  end.

(** What begins with a token. *)
Inductive heading :=
| HRound | HCurly | HFun | HIf | HFor | HWhile | HRepeat | HPrefix (level : nat) | HOther.
Definition heading_of (k : kind) : heading :=
  match k with
  | L_PAREN => HRound
  | L_CURLY => HCurly
  | FUNCTION_KW | BACKSLASH => HFun
  | IF_KW => HIf
  | FOR_KW => HFor
  | WHILE_KW => HWhile
  | REPEAT_KW => HRepeat
  | k => match prefix_level k with Some level => HPrefix level | None => HOther end
  end.

(** * Trees *)

(** An argument: name and value, both optional.  A parameter: name and
    default. *)
Inductive term :=
| Atom (ts : list token)
| Prefix (op : token) (a : term)
| Infix (l : term) (op : token) (r : term)
| Apply (f : term) (k : call_kind) (args : list (option term * option term))
| Round (a : term)
| Curly (l : list term)
| Fun (kw : token) (ps : list (option term * option term)) (b : term)
| If (c t : term) (e : option term)
| For (v s b : term)
| While (c b : term)
| Repeat (b : term).

Definition is_comparison (t : term) : bool :=
  match t with
  | Infix _ op _ =>
    match infix_level (t_kind op) with Some l => l =? LEVEL_COMPARE | None => false end
  | _ => false
  end.

(** * The parser *)

Definition input := list (token * bool).

(** The next token, if the expression goes on there. *)
Definition next (ts : input) : option (token * input) :=
  match ts with (t, false) :: r => Some (t, r) | _ => None end.
Definition next_is (k : kind) (ts : input) : bool :=
  match next ts with Some (t, _) => kind_eqb (t_kind t) k | None => false end.
Definition eat (k : kind) (ts : input) : option input :=
  match next ts with
  | Some (t, r) => if kind_eqb (t_kind t) k then Some r else None
  | None => None
  end.

(** The tokens of a string up to its end. *)
Fixpoint string_rest (ts : input) : option (list token * input) :=
  match ts with
  | (t, false) :: r =>
    if kind_eqb (t_kind t) STRING_CLOSE then Some ([t], r)
    else match string_rest r with Some (s, r') => Some (t :: s, r') | None => None end
  | _ => None
  end.
Definition atom (ts : input) : option (term * input) :=
  match next ts with
  | Some (t, r) =>
    if atomic (t_kind t) then Some (Atom [t], r)
    else if kind_eqb (t_kind t) STRING_OPEN then
      match string_rest r with Some (s, r') => Some (Atom (t :: s), r') | None => None end
    else None
  | None => None
  end.

Declare Scope parse_scope.
Delimit Scope parse_scope with parse.
Notation "'do' x <- a ; b" := (match a with Some x => b | None => None end)
  (at level 200, x pattern, a at level 100, b at level 200) : parse_scope.
Local Open Scope parse_scope.

(** [fuel] bounds the depth of calls.  [eq]: [=] is an assignment here.
    [least]: operators binding less tightly end the expression. *)
Fixpoint expression (fuel : nat) (eq : bool) (least : nat) (ts : input) {struct fuel}
  : option (term * input) :=
  match fuel with
  | 0 => None
  | S f =>
    do (x, r) <- start f eq ts;
    operators f eq least x r
  end
(** An expression before any operators that follow it. *)
with start (fuel : nat) (eq : bool) (ts : input) {struct fuel} : option (term * input) :=
  match fuel with
  | 0 => None
  | S f =>
    do (t, r) <- next ts;
    match heading_of (t_kind t) with
    | HRound =>
      do (x, r) <- expression f true LEVEL_HELP r;
      do r <- eat R_PAREN r;
      Some (Round x, r)
    | HCurly =>
      do (l, r) <- block f r;
      do r <- eat R_CURLY r;
      Some (Curly l, r)
    | HFun =>
      do r <- eat L_PAREN r;
      do (ps, r) <- items f true R_PAREN r;
      do (b, r) <- expression f true LEVEL_BODY r;
      Some (Fun t ps b, r)
    | HIf =>
      do r <- eat L_PAREN r;
      do (c, r) <- expression f false LEVEL_HELP r;
      do r <- eat R_PAREN r;
      do (x, r) <- expression f true LEVEL_BODY r;
      if next_is ELSE_KW r then
        do r <- eat ELSE_KW r;
        do (y, r) <- expression f true LEVEL_BODY r;
        Some (If c x (Some y), r)
      else Some (If c x None, r)
    | HFor =>
      do r <- eat L_PAREN r;
      do (v, r) <- atom r;
      do r <- eat IN_KW r;
      do (s, r) <- expression f false LEVEL_HELP r;
      do r <- eat R_PAREN r;
      do (b, r) <- expression f true LEVEL_BODY r;
      Some (For v s b, r)
    | HWhile =>
      do r <- eat L_PAREN r;
      do (c, r) <- expression f false LEVEL_HELP r;
      do r <- eat R_PAREN r;
      do (b, r) <- expression f true LEVEL_BODY r;
      Some (While c b, r)
    | HRepeat =>
      do (b, r) <- expression f true LEVEL_BODY r;
      Some (Repeat b, r)
    | HPrefix level =>
      do (a, r) <- expression f (eq || kind_eqb (t_kind t) WAT) (S level) r;
      Some (Prefix t a, r)
    | HOther => atom ts
    end
  end
(** What follows the operand [x]. *)
with operators (fuel : nat) (eq : bool) (least : nat) (x : term) (ts : input) {struct fuel}
  : option (term * input) :=
  match fuel with
  | 0 => None
  | S f =>
    match next ts with
    | None => Some (x, ts)
    | Some (t, r) =>
      match opening (t_kind t) with
      | Some c =>
        if least <=? LEVEL_CALL then
          do (l, r) <- items f false (closing c) r;
          operators f eq least (Apply x c l) r
        else Some (x, ts)
      | None =>
        match infix_level (t_kind t) with
        | Some level =>
          if (least <=? level) && (eq || negb (kind_eqb (t_kind t) EQUAL)) then
            if (level =? LEVEL_COMPARE) && is_comparison x then None
            else
              do (y, r) <- expression f eq (right_of (t_kind t) level) r;
              operators f eq least (Infix x t y) r
          else Some (x, ts)
        | None => Some (x, ts)
        end
      end
    end
  end
(** The expressions of a file or in braces. *)
with block (fuel : nat) (ts : input) {struct fuel} : option (list term * input) :=
  match fuel with
  | 0 => None
  | S f =>
    match ts with
    | [] => Some ([], ts)
    | (t, _) :: r =>
      if kind_eqb (t_kind t) R_CURLY then Some ([], ts)
      else
        do (x, r) <- expression f true LEVEL_HELP ((t, false) :: r);
        match r with
        | [] => Some ([x], r)
        | (t', mark) :: _ =>
          if kind_eqb (t_kind t') R_CURLY then Some ([x], r)
          else if mark then do (l, r) <- block f r; Some (x :: l, r)
          else None
        end
    end
  end
(** Arguments or parameters, with the closing delimiter. *)
with items (fuel : nat) (params : bool) (close : kind) (ts : input) {struct fuel}
  : option (list (option term * option term) * input) :=
  match fuel with
  | 0 => None
  | S f =>
    if next_is close ts then do r <- eat close ts; Some ([], r)
    else more_items f params close ts
  end
with more_items (fuel : nat) (params : bool) (close : kind) (ts : input) {struct fuel}
  : option (list (option term * option term) * input) :=
  match fuel with
  | 0 => None
  | S f =>
    do (i, r) <- item f params close ts;
    if next_is COMMA r then
      do r <- eat COMMA r;
      do (l, r) <- more_items f params close r;
      Some (i :: l, r)
    else do r <- eat close r; Some ([i], r)
  end
with item (fuel : nat) (params : bool) (close : kind) (ts : input) {struct fuel}
  : option ((option term * option term) * input) :=
  match fuel with
  | 0 => None
  | S f =>
    if params then
      do (x, r) <- atom ts;
      if next_is EQUAL r then
        do r <- eat EQUAL r;
        do (v, r) <- expression f false LEVEL_HELP r;
        Some ((Some x, Some v), r)
      else Some ((Some x, None), r)
    else if next_is COMMA ts || next_is close ts then Some ((None, None), ts)
    else
      do (x, r) <- expression f false LEVEL_HELP ts;
      if next_is EQUAL r then
        match x with
        | Atom _ =>
          do r <- eat EQUAL r;
          if next_is COMMA r || next_is close r then Some ((Some x, None), r)
          else
            do (v, r) <- expression f false LEVEL_HELP r;
            Some ((Some x, Some v), r)
        | _ => None
        end
      else Some ((None, Some x), r)
  end.

(** A file: what the parser makes of it given enough fuel. *)
Definition parses (ts : input) (l : list term) : Prop :=
  exists enough, forall fuel, enough <= fuel -> block fuel ts = Some (l, []).
Close Scope parse_scope.

(** * The trees of the formatter as R's trees *)

Fixpoint term_of (e : expr) : term :=
  match e with
  | ELeaf _ _ ts => Atom ts
  | EUnary _ op a => Prefix op (term_of a)
  | EBinary _ l op r | EExtract _ l op r | ENamespace _ l op r =>
    Infix (term_of l) op (term_of r)
  | EFunction _ kw ps b =>
    Fun kw match ps with
           | EParams _ items =>
             map (fun x => match x with
                           | EParam _ a d =>
                             (Some (term_of a),
                              match d with Some (EDefault _ v) => Some (term_of v) | _ => None end)
                           | _ => (None, None)
                           end) items
           | _ => []
           end (term_of b)
  | EIf _ c t el =>
    If (term_of c) (term_of t)
      match el with Some (EElse _ _ a) => Some (term_of a) | _ => None end
  | EFor _ v s b => For (term_of v) (term_of s) (term_of b)
  | EWhile _ c b => While (term_of c) (term_of b)
  | ERepeat _ b => Repeat (term_of b)
  | EBraced _ l => Curly (map term_of l)
  | EParen _ a => Round (term_of a)
  | ECall _ f args =>
    match args with
    | EArgs _ k _ items =>
      Apply (term_of f) k
        (map (fun x => match x with
                       | EArg _ nm v _ =>
                         (match nm with Some (ENameClause _ a) => Some (term_of a) | _ => None end,
                          match v with Some a => Some (term_of a) | None => None end)
                       | _ => (None, None)
                       end) items)
    | _ => Atom []
    end
  (* not expressions *)
  | EParams _ _ | EParam _ _ _ | EDefault _ _ | EElse _ _ _ | EArgs _ _ _ _ | EArg _ _ _ _
  | ENameClause _ _ => Atom []
  end.

(** * Trees that the grammar builds *)

Definition level_of (op : token) : nat :=
  match infix_level (t_kind op) with Some l => l | None => 0 end.
Definition prefix_of (op : token) : nat :=
  match prefix_level (t_kind op) with Some l => l | None => 0 end.

(** The least level of the operators open to the left. *)
Fixpoint left_least (e : expr) : nat :=
  match e with
  | EBinary _ l op _ | EExtract _ l op _ | ENamespace _ l op _ =>
    Nat.min (level_of op) (left_least l)
  | ECall _ f _ => Nat.min LEVEL_CALL (left_least f)
  | _ => LEVEL_TOP
  end.
(** An operator after the expression that binds at least so tightly would
    become part of it. *)
Fixpoint right_least (e : expr) : nat :=
  match e with
  | EUnary _ op a => Nat.min (S (prefix_of op)) (right_least a)
  | EBinary _ _ op r | EExtract _ _ op r | ENamespace _ _ op r =>
    Nat.min (right_of (t_kind op) (level_of op)) (right_least r)
  | EFunction _ _ _ b | EFor _ _ _ b | EWhile _ _ b | ERepeat _ b =>
    Nat.min LEVEL_BODY (right_least b)
  | EIf _ _ t None => Nat.min LEVEL_BODY (right_least t)
  | EIf _ _ _ (Some el) => Nat.min LEVEL_BODY (right_least el)
  | EElse _ _ a => right_least a
  | _ => LEVEL_TOP
  end.
(** An [else] after the expression would become part of it. *)
Fixpoint wants_else (e : expr) : bool :=
  match e with
  | EUnary _ _ a => wants_else a
  | EBinary _ _ _ r | EExtract _ _ _ r | ENamespace _ _ _ r => wants_else r
  | EFunction _ _ _ b | EFor _ _ _ b | EWhile _ _ b | ERepeat _ b => wants_else b
  | EIf _ _ _ None => true
  | EIf _ _ _ (Some el) => wants_else el
  | EElse _ _ a => wants_else a
  | _ => false
  end.

Definition comparison (e : expr) : bool :=
  match e with
  | EBinary _ _ op _ | EExtract _ _ op _ | ENamespace _ _ op _ => level_of op =? LEVEL_COMPARE
  | _ => false
  end.
Definition atom_tokens (ts : list token) : Prop :=
  (exists t, ts = [t] /\ atomic (t_kind t) = true) \/
  (exists a m z, ts = a :: m ++ [z] /\ t_kind a = STRING_OPEN /\ t_kind z = STRING_CLOSE /\
     all_of (fun t => t_kind t <> STRING_CLOSE) m).
Definition is_leaf (e : expr) : Prop := match e with ELeaf _ _ _ => True | _ => False end.

(** The tree is the one that R's grammar builds from its tokens; [eq]: where
    [=] is an assignment. *)
Fixpoint grammatical (eq : bool) (e : expr) : Prop :=
  match e with
  | ELeaf _ _ ts => atom_tokens ts
  | EUnary _ op a =>
    (exists level, prefix_level (t_kind op) = Some level /\ level < left_least a) /\
    grammatical (eq || kind_eqb (t_kind op) WAT) a
  | EBinary _ l op r | EExtract _ l op r | ENamespace _ l op r =>
    (exists level, infix_level (t_kind op) = Some level /\
       level < right_least l /\ right_of (t_kind op) level <= left_least r /\
       (level = LEVEL_COMPARE -> comparison l = false)) /\
    (t_kind op = EQUAL -> eq = true) /\ grammatical eq l /\ grammatical eq r /\
    match e with
    | EExtract _ _ _ _ => infix_level (t_kind op) = Some LEVEL_CALL
    | ENamespace _ _ _ _ => infix_level (t_kind op) = Some LEVEL_NAMESPACE
    | _ => True
    end
  | EFunction _ kw ps b =>
    (t_kind kw = FUNCTION_KW \/ t_kind kw = BACKSLASH) /\ grammatical false ps /\
    grammatical true b /\ LEVEL_BODY <= left_least b
  | EParams _ l => all_of (grammatical false) l
  | EParam _ a d => is_leaf a /\ grammatical false a /\ opt_all (grammatical false) d
  | EDefault _ a => grammatical false a
  | EIf _ c t el =>
    grammatical false c /\ grammatical true t /\ LEVEL_BODY <= left_least t /\
    (el <> None -> wants_else t = false) /\ opt_all (grammatical true) el
  | EElse _ _ a => grammatical true a /\ LEVEL_BODY <= left_least a
  | EFor _ v s b =>
    is_leaf v /\ grammatical false v /\ grammatical false s /\ grammatical true b /\
    LEVEL_BODY <= left_least b
  | EWhile _ c b => grammatical false c /\ grammatical true b /\ LEVEL_BODY <= left_least b
  | ERepeat _ b => grammatical true b /\ LEVEL_BODY <= left_least b
  | EBraced _ l => all_of (grammatical true) l
  | EParen _ a => grammatical true a
  | ECall _ f args => grammatical eq f /\ LEVEL_CALL < right_least f /\ grammatical false args
  | EArgs _ _ _ l =>
    (forall n sl, l <> [EArg n None None sl]) /\ all_of (grammatical false) l
  | EArg _ nm v _ => opt_all (grammatical false) nm /\ opt_all (grammatical false) v
  | ENameClause _ a => is_leaf a /\ grammatical false a
  end.
Definition file_grammatical (r : root) : Prop := all_of (grammatical true) (r_exprs r).

(** What restyling needs in chains of assignments: no [<-] open to the right
    on the left of a [=] (R reads [a <- b = c] as [(a <- b) = c]), and no
    [# fmt: skip] before a [=] on the right of another.  See the refutations of
    C41 in FmtProps.v. *)
Definition chain_kept (e : expr) : Prop :=
  match e with
  | EBinary _ l op r =>
    t_kind op = EQUAL ->
    LEVEL_ARROW < right_least l /\
    match r with
    | EBinary n _ op' _ =>
      t_kind op' = EQUAL ->
      forall c, In c (n_lead n) -> parse_comment_directive (c_text c) <> Some DSkip
    | _ => True
    end
  | _ => True
  end.
Definition restylable (st : assignment_style) (e : expr) : Prop :=
  st = APreserve \/ everywhere chain_kept e.

(** * The same program *)

(** Carriage returns before a line feed dropped. *)
Definition settle (x : text) : text :=
  fold_right (fun c r => match r with
                         | d :: _ => if ((c =? CR) && (d =? LF))%N then r else c :: r
                         | [] => c :: r
                         end) [] x.
Definition settled (t : token) : token :=
  if kind_eqb (t_kind t) STRING_CONTENT then tk STRING_CONTENT (settle (t_text t)) else t.

(** Braces around a single expression dropped. *)
Definition bare (t : term) : term := match t with Curly [x] => x | _ => t end.

Section Canon.
Variable st : assignment_style.
(** With a style to follow, [=] and [<-] count as the same operator. *)
Definition plain_op (op : token) : token :=
  match st with
  | APreserve => settled op
  | _ => if kind_eqb (t_kind op) EQUAL || kind_eqb (t_kind op) ASSIGN then tARROW else settled op
  end.
Definition omap {A B : Type} (f : A -> B) (x : option A) : option B :=
  match x with Some a => Some (f a) | None => None end.

(** A program up to braces around bodies, assignment operators and carriage
    returns in strings. *)
Fixpoint canon (t : term) : term :=
  match t with
  | Atom ts => Atom (map settled ts)
  | Prefix op a => Prefix (settled op) (canon a)
  | Infix l op r => Infix (canon l) (plain_op op) (canon r)
  | Apply f k args => Apply (canon f) k (map (fun '(x, y) => (omap canon x, omap canon y)) args)
  | Round a => Round (canon a)
  | Curly l => Curly (map canon l)
  | Fun kw ps b =>
    Fun (settled kw) (map (fun '(x, y) => (omap canon x, omap canon y)) ps) (bare (canon b))
  | If c x e => If (canon c) (bare (canon x)) (omap (fun y => bare (canon y)) e)
  | For v s b => For (canon v) (canon s) (bare (canon b))
  | While c b => While (canon c) (bare (canon b))
  | Repeat b => Repeat (bare (canon b))
  end.
Definition same_program (l l' : list term) : Prop := map canon l = map canon l'.
End Canon.

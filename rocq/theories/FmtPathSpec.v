(** Vocabulary for properties of single nodes in the printed file (C42-C44,
    C46, C47): the nodes that the formatter lays out itself, and where lines
    begin in the output. *)
From Coq Require Import List Arith Bool NArith Permutation.
From Verif Require Import Text LineEndingModel LineEndingSpec SettingsModel SyntaxKind
  DirectiveModel FmtTree IrModel FmtSpec.
Import ListNotations.

(** * Nodes that are laid out *)

(** Operators of which several in a row are broken together: pipes, special
    operators, logical and arithmetic ones (binary_expression.rs:849-869). *)
Definition chain_op (k : kind) : bool :=
  existsb (kind_eqb k)
    [PIPE; SPECIAL; OR_OP; OR2; AND_OP; AND2; PLUS; MINUS; MULTIPLY; DIVIDE].
(** All binary operators. *)
Definition operator (k : kind) : bool :=
  chain_op k || assignment_op k ||
  existsb (kind_eqb k)
    [WAT; EXPONENTIATE; EXPONENTIATE2; SyntaxKind.COLON; GREATER_THAN; GREATER_THAN_OR_EQUAL_TO;
     LESS_THAN; LESS_THAN_OR_EQUAL_TO; EQUAL2; NOT_EQUAL].
Definition chain_node (e : expr) : Prop :=
  exists n l op r, e = EBinary n l op r /\ chain_op (t_kind op) = true.

(** The operands of the chain that begins on the left of an operator. *)
Inductive left_part : pos -> expr -> pos -> expr -> Prop :=
| LP_here p l : ~ chain_node l -> left_part p l p l
| LP_right p n l op r :
    chain_op (t_kind op) = true ->
    left_part p (EBinary n l op r) (p_operand (q_eq p) op false) r
| LP_left p n l op r p' x :
    chain_op (t_kind op) = true ->
    left_part (p_operand (q_eq p) op false) l p' x ->
    left_part p (EBinary n l op r) p' x.

(** [{{ x }}]. *)
Definition curly_curly (l : list expr) : Prop :=
  exists n n' k ts, l = [EBraced n [ELeaf n' k ts]].

Section Paths.
Variable o : format_options.

(** [part p e p' x]: laying out [e] at the place [p] lays out [x] at [p'].
    The arguments of a table are not among the parts, nor is what is inside
    [{{ }}]. *)
Inductive part : pos -> expr -> pos -> expr -> Prop :=
| P_unary p n op a : part p (EUnary n op a) (p_unary op) a
| P_left p n l op r :
    operator (t_kind op) = true -> chain_op (t_kind op) = false ->
    part p (EBinary n l op r) (p_operand (q_eq p) op false) l
| P_chain p n l op r p' x :
    chain_op (t_kind op) = true ->
    left_part (p_operand (q_eq p) op false) l p' x ->
    part p (EBinary n l op r) p' x
| P_right p n l op r table :
    operator (t_kind op) = true ->
    (table = true <-> assignment_op (t_kind op) = true /\ asked DTable p n) ->
    part p (EBinary n l op r) (p_operand (q_eq p) op table) r
| P_extract_left p n l op r : part p (EExtract n l op r) p_plain l
| P_extract_right p n l op r : part p (EExtract n l op r) p_plain r
| P_namespace_left p n l op r : part p (ENamespace n l op r) p_plain l
| P_namespace_right p n l op r : part p (ENamespace n l op r) p_plain r
| P_params p n name ps b : part p (EFunction n name ps b) p_plain ps
| P_function_body p n name ps b : part p (EFunction n name ps b) p_body b
| P_param p n l x : In x l -> part p (EParams n l) p_plain x
| P_param_name p n a d : part p (EParam n a d) p_plain a
| P_param_default p n a d : part p (EParam n a (Some d)) p_plain d
| P_default p n v : part p (EDefault n v) p_plain v
| P_cond p n c t el : part p (EIf n c t el) p_plain c
| P_then p n c t el : part p (EIf n c t el) p_body t
| P_else p n c t el : part p (EIf n c t (Some el)) p_plain el
| P_else_body p n nl a : part p (EElse n nl a) p_body a
| P_for_var p n v s b : part p (EFor n v s b) p_plain v
| P_for_seq p n v s b : part p (EFor n v s b) p_plain s
| P_for_body p n v s b : part p (EFor n v s b) p_body b
| P_while_cond p n c b : part p (EWhile n c b) p_plain c
| P_while_body p n c b : part p (EWhile n c b) p_body b
| P_repeat p n b : part p (ERepeat n b) p_body b
| P_stmt p n a x b :
    ~ curly_curly (a ++ x :: b) ->
    part p (EBraced n (a ++ x :: b)) (p_stmt (match b with [] => false | _ => true end)) x
| P_paren p n b : part p (EParen n b) p_body b
| P_callee p n f args : part p (ECall n f args) p_plain f
| P_args p n f args table :
    (table = true <-> table_asked o p n f) ->
    part p (ECall n f args) (mkpos false false false table) args
| P_skipped_arg p n k rc l x :
    (q_table p = true -> k <> KCall) -> In x l -> skip_asked o p_item x ->
    part p (EArgs n k rc l) p_item x
| P_arg_name p n k rc l n' c v sl :
    (q_table p = true -> k <> KCall) -> In (EArg n' (Some c) v sl) l -> ~ asked DSkip p_item n' ->
    part p (EArgs n k rc l) p_plain c
| P_arg_value p n k rc l n' nm v sl :
    (q_table p = true -> k <> KCall) -> In (EArg n' nm (Some v) sl) l -> ~ asked DSkip p_item n' ->
    part p (EArgs n k rc l) p_plain v
| P_name p n nm : part p (ENameClause n nm) p_plain nm.

(** [visited p e p' x]: so on, never below a node that is copied. *)
Inductive visited : pos -> expr -> pos -> expr -> Prop :=
| V_here p e : visited p e p e
| V_below p e p' x p'' y :
    ~ skip_asked o p e -> part p e p' x -> visited p' x p'' y -> visited p e p'' y.

(** A node of the file. *)
Definition in_file (r : root) (p : pos) (x : expr) : Prop :=
  exists e, In e (r_exprs r) /\ visited (p_stmt true) e p x.
End Paths.

(** [child_of p e p' x]: [x] stands directly in [e], at the place [p'] if [e]
    stands at [p].  Nothing is left out. *)
Inductive child_of (o : format_options) : pos -> expr -> pos -> expr -> Prop :=
| C_unary p n op a : child_of o p (EUnary n op a) (p_unary op) a
| C_left p n l op r : child_of o p (EBinary n l op r) (p_operand (q_eq p) op false) l
| C_right p n l op r table :
    (table = true -> assignment_op (t_kind op) = true /\ asked DTable p n) ->
    child_of o p (EBinary n l op r) (p_operand (q_eq p) op table) r
| C_extract_left p n l op r : child_of o p (EExtract n l op r) p_plain l
| C_extract_right p n l op r : child_of o p (EExtract n l op r) p_plain r
| C_namespace_left p n l op r : child_of o p (ENamespace n l op r) p_plain l
| C_namespace_right p n l op r : child_of o p (ENamespace n l op r) p_plain r
| C_params p n name ps b : child_of o p (EFunction n name ps b) p_plain ps
| C_function_body p n name ps b : child_of o p (EFunction n name ps b) p_body b
| C_param p n l x : In x l -> child_of o p (EParams n l) p_plain x
| C_param_name p n a d : child_of o p (EParam n a d) p_plain a
| C_param_default p n a d : child_of o p (EParam n a (Some d)) p_plain d
| C_default p n v : child_of o p (EDefault n v) p_plain v
| C_cond p n c t el : child_of o p (EIf n c t el) p_plain c
| C_then p n c t el : child_of o p (EIf n c t el) p_body t
| C_else p n c t el : child_of o p (EIf n c t (Some el)) p_plain el
| C_else_body p n nl a : child_of o p (EElse n nl a) p_body a
| C_for_var p n v s b : child_of o p (EFor n v s b) p_plain v
| C_for_seq p n v s b : child_of o p (EFor n v s b) p_plain s
| C_for_body p n v s b : child_of o p (EFor n v s b) p_body b
| C_while_cond p n c b : child_of o p (EWhile n c b) p_plain c
| C_while_body p n c b : child_of o p (EWhile n c b) p_body b
| C_repeat p n b : child_of o p (ERepeat n b) p_body b
| C_stmt p n a x b :
    child_of o p (EBraced n (a ++ x :: b))
      (p_stmt (match b with [] => false | _ => true end)) x
| C_paren p n b : child_of o p (EParen n b) p_body b
| C_callee p n f args : child_of o p (ECall n f args) p_plain f
| C_args p n f args table :
    (table = true -> table_asked o p n f) ->
    child_of o p (ECall n f args) (mkpos false false false table) args
| C_item p n k rc l x : In x l -> child_of o p (EArgs n k rc l) p_item x
| C_arg_name p n c v sl : child_of o p (EArg n (Some c) v sl) p_plain c
| C_arg_value p n nm v sl : child_of o p (EArg n nm (Some v) sl) p_plain v
| C_name p n nm : child_of o p (ENameClause n nm) p_plain nm.
Inductive inside (o : format_options) : pos -> expr -> pos -> expr -> Prop :=
| N_here p e : inside o p e p e
| N_below p e p' x p'' y : child_of o p e p' x -> inside o p' x p'' y -> inside o p e p'' y.

(** The arguments of a call that is to be laid out as a table. *)
Definition table_args (p : pos) (e : expr) : Prop :=
  q_table p = true /\ exists n rc l, e = EArgs n KCall rc l.

(** Names in the settings are stored by [SortedStrings::new]. *)
Definition stored (names : option (list text)) : Prop :=
  exists l, names = option_map sorted_strings_new l.

(** A comment dangles only in lists: [{}], [()] and arguments. *)
Definition undangled (e : expr) : Prop :=
  match e with
  | EParams _ _ | EBraced _ _ | EArgs _ _ _ _ => True
  | _ => n_dang (notes_of e) = []
  end.

(** * Where lines begin *)

(** The tokens of the output, each with whether a line begins between the
    token before it and itself.  Of a copied node only its beginning is
    looked at. *)
Definition mark_all (nl : bool) (ts : list token) : list (token * bool) :=
  match ts with [] => [] | t :: r => (t, nl) :: map (fun t => (t, false)) r end.
Fixpoint marks (nl : bool) (ps : list piece) : list (token * bool) :=
  match ps with
  | [] => []
  | PNewline :: r => marks true r
  | PSpace :: r => marks nl r
  | PWord w :: r =>
    mark_all nl (word_tokens w) ++
    marks (match word_tokens w with [] => nl | _ => false end) r
  end.
(** The beginning of the file begins a line. *)
Definition line_marks (out : list piece) : list (token * bool) := marks true out.

Definition begins_line (l : list (token * bool)) : Prop :=
  match l with [] => True | (_, nl) :: _ => nl = true end.

(** The marks of consecutive items, each beginning a line. *)
Definition one_per_line (items : list (list token)) (ms : list (token * bool)) : Prop :=
  exists mss, ms = List.concat mss /\ Forall2 (fun ts l => map fst l = ts /\ begins_line l) items mss.

(** Items followed by a comma, but for the last one. *)
Fixpoint with_commas (l : list (list token)) : list (list token) :=
  match l with
  | [] => []
  | [x] => [x]
  | x :: r => (x ++ [tCOMMA]) :: with_commas r
  end.

(** An argument that was left out, without comments. *)
Definition hole (a : expr) : Prop :=
  exists n sl, a = EArg n None None sl /\ n_lead n = [] /\ n_dang n = [] /\ n_trail n = [].
(** A line break before the first argument; [sl] counts those before the comma
    after an argument that was left out. *)
Definition hole_break (a : expr) : Prop :=
  match a with EArg _ _ _ sl => 0 < sl | _ => False end.
Definition breaks_first (holes : list expr) (first : expr) : Prop :=
  0 < n_lines (notes_of first) \/ Exists hole_break holes.
(** [test_that("title", { ... })]. *)
Definition titled_block (k : call_kind) (items : list expr) : Prop :=
  k = KCall /\ exists n1 nm1 n k1 ts sl1 n2 nm2 n' es sl2, k1 = R_STRING_VALUE /\
    items = [EArg n1 nm1 (Some (ELeaf n k1 ts)) sl1; EArg n2 nm2 (Some (EBraced n' es)) sl2].

(** [chain e h t]: [e] is [h op1 r1 op2 r2 ...], nested to the left, with [t]
    the pairs of operator and right hand side, and goes no further left. *)
Inductive chain : expr -> expr -> list (token * expr) -> Prop :=
| CH_one n l op r :
    chain_op (t_kind op) = true -> ~ chain_node l -> chain (EBinary n l op r) l [(op, r)]
| CH_more n l op r h t :
    chain_op (t_kind op) = true -> chain l h t -> chain (EBinary n l op r) h (t ++ [(op, r)]).

(** The marks of such pairs in order: of an operator, then as [Q] says. *)
Inductive tail_marks (Q : expr -> list (token * bool) -> Prop) :
  list (token * expr) -> list (token * bool) -> Prop :=
| TM_nil : tail_marks Q [] []
| TM_cons op r t nl ms mt :
    Q r ms -> tail_marks Q t mt -> tail_marks Q ((op, r) :: t) ((op, nl) :: ms ++ mt).

(** The operand's tokens; the first begins a line. *)
Definition shows_item (o : format_options) (x : expr) (ms : list (token * bool)) : Prop :=
  exists x', tidy o p_item x x' /\ map fst ms = etokens x'.
Definition on_new_line (o : format_options) (x : expr) (ms : list (token * bool)) : Prop :=
  shows_item o x ms /\ begins_line ms.
(** It does not, but for a blank line or comments before it. *)
Definition on_same_line (o : format_options) (x : expr) (ms : list (token * bool)) : Prop :=
  shows_item o x ms /\
  (n_lines (notes_of x) <= 1 -> placed o p_item x -> ecomments x = [] ->
   match ms with [] => True | (_, nl) :: _ => nl = false end).

(** * Blank lines *)

(** Text that begins and ends with a word. *)
Definition block (b : list piece) : Prop :=
  (exists w r, b = PWord w :: r) /\ (exists r w, b = r ++ [PWord w]).

(** Expressions one below the other, with as many empty lines before each as
    in the source, [cap] at most.  [n_lines]: line breaks before it.  [shows
    last e b]: [b] is the text of [e], which is the last expression or not. *)
Section Spaced.
Variable shows : bool -> expr -> list piece -> Prop.
Variable cap : nat.
Inductive spaced : list expr -> list piece -> Prop :=
| spaced_one e b : block b -> shows true e b -> spaced [e] b
| spaced_cons e b e' l out :
    block b -> shows false e b -> spaced (e' :: l) out ->
    spaced (e :: e' :: l)
      (b ++ repeat PNewline (1 + Nat.min cap (n_lines (notes_of e') - 1)) ++ out).
End Spaced.

(** The text of an expression: the tokens of a tidied form of it and its
    comments. *)
Definition shows_stmt (o : format_options) (effect : bool) (e : expr) (b : list piece) : Prop :=
  exists e', tidy o (p_stmt effect) e e' /\ ptokens b = etokens e' /\
    (placed o (p_stmt effect) e -> Permutation (pcomments b) (ecomments e)).

(** Comments and white space. *)
Definition remark (p : piece) : Prop :=
  match p with PWord (WComment _) | PSpace | PNewline => True | _ => False end.

(** * Without line breaks *)

(** A tree without the line breaks of the source that are only a matter of
    layout: single ones, other than before the body of a function and the
    branches of an if statement ([keep]).  Blank lines stay. *)
Definition unbroken_lines (k : nat) : nat := if k <=? 1 then 0 else k.
Definition unbroken_notes (keep : bool) (n : notes) : notes :=
  {| n_lead := n_lead n; n_dang := n_dang n; n_trail := n_trail n;
     n_lines := unbroken_lines (n_lines n); n_newline := keep && n_newline n;
     n_direct := n_direct n; n_src := n_src n |}.
Definition opt_with (f : expr -> expr) (x : option expr) : option expr :=
  match x with Some a => Some (f a) | None => None end.
Fixpoint unbroken (keep : bool) (e : expr) : expr :=
  let u := unbroken_notes keep in
  let go := unbroken false in
  match e with
  | ELeaf n k ts => ELeaf (u n) k ts
  | EUnary n op a => EUnary (u n) op (go a)
  | EBinary n l op r => EBinary (u n) (go l) op (go r)
  | EExtract n l op r => EExtract (u n) (go l) op (go r)
  | ENamespace n l op r => ENamespace (u n) (go l) op (go r)
  | EFunction n name ps b => EFunction (u n) name (go ps) (unbroken true b)
  | EParams n l => EParams (u n) (map go l)
  | EParam n a d => EParam (u n) (go a) (opt_with go d)
  | EDefault n a => EDefault (u n) (go a)
  | EIf n c t el => EIf (u n) (go c) (unbroken true t) (opt_with go el)
  | EElse n nl a => EElse (u n) nl (unbroken true a)
  | EFor n a s b => EFor (u n) (go a) (go s) (go b)
  | EWhile n c b => EWhile (u n) (go c) (go b)
  | ERepeat n b => ERepeat (u n) (go b)
  | EBraced n l => EBraced (u n) (map go l)
  | EParen n b => EParen (u n) (go b)
  | ECall n f a => ECall (u n) (go f) (go a)
  | EArgs n k rc l => EArgs (u n) k rc (map go l)
  | EArg n nm a sl => EArg (u n) (opt_with go nm) (opt_with go a) (unbroken_lines sl)
  | ENameClause n nm => ENameClause (u n) (go nm)
  end.
Definition unbroken_root (r : root) : root :=
  {| r_bom := r_bom r; r_notes := r_notes r; r_exprs := map (unbroken false) (r_exprs r) |}.

(** * Precedence *)

(** How tightly the operators of chains bind, as in R's grammar
    (crates/air_r_syntax/src/lib.rs:333-421); all of them group to the left. *)
Definition precedence (k : kind) : nat :=
  match k with
  | OR_OP | OR2 => 1
  | AND_OP | AND2 => 2
  | PLUS | MINUS => 4
  | MULTIPLY | DIVIDE => 5
  | SPECIAL | PIPE => 6
  | _ => 0
  end.
(** An expression as R reads it: what stands unparenthesised to the left of an
    operator binds at least as tightly, what stands to the right more so. *)
Definition read_by_precedence (e : expr) : Prop :=
  match e with
  | EBinary _ l op r =>
    chain_op (t_kind op) = true ->
    (forall n a op' b, l = EBinary n a op' b -> chain_op (t_kind op') = true ->
       precedence (t_kind op) <= precedence (t_kind op')) /\
    (forall n a op' b, r = EBinary n a op' b -> chain_op (t_kind op') = true ->
       precedence (t_kind op) < precedence (t_kind op'))
  | _ => True
  end.

(** Vocabulary for the formatter's properties (C37, C38, C40-C42).

    The source of a node as tokens and comments, the tidied programs that a
    source may become, and what a printed file contains.  None of it mentions
    the documents or the rules. *)
From Coq Require Import List Arith Bool NArith.
From Verif Require Import Text LineEndingModel LineEndingSpec SettingsModel SyntaxKind
  DirectiveModel FmtTree IrModel.
Import ListNotations.

Definition opt_list {A B : Type} (f : A -> list B) (x : option A) : list B :=
  match x with Some a => f a | None => [] end.

(** * Tokens and comments of a tree, in source order *)

Fixpoint commas (l : list (list token)) : list token :=
  match l with
  | [] => []
  | [x] => x
  | x :: r => x ++ tCOMMA :: commas r
  end.

Fixpoint etokens (e : expr) : list token :=
  match e with
  | ELeaf _ _ ts => ts
  | EUnary _ op a => op :: etokens a
  | EBinary _ l op r | EExtract _ l op r | ENamespace _ l op r =>
    etokens l ++ op :: etokens r
  | EFunction _ name ps b => name :: etokens ps ++ etokens b
  | EParams _ items => tLPAREN :: commas (map etokens items) ++ [tRPAREN]
  | EParam _ name d => etokens name ++ opt_list etokens d
  | EDefault _ v => tEQUAL :: etokens v
  | EIf _ c t el =>
    tIF :: tLPAREN :: etokens c ++ tRPAREN :: etokens t ++ opt_list etokens el
  | EElse _ _ a => tELSE :: etokens a
  | EFor _ v s b =>
    tFOR :: tLPAREN :: etokens v ++ tIN :: etokens s ++ tRPAREN :: etokens b
  | EWhile _ c b => tWHILE :: tLPAREN :: etokens c ++ tRPAREN :: etokens b
  | ERepeat _ b => tREPEAT :: etokens b
  | EBraced _ es => tLCURLY :: List.concat (map etokens es) ++ [tRCURLY]
  | EParen _ b => tLPAREN :: etokens b ++ [tRPAREN]
  | ECall _ f args => etokens f ++ etokens args
  | EArgs _ k _ items => l_token k :: commas (map etokens items) ++ [r_token k]
  | EArg _ nm v _ => opt_list etokens nm ++ opt_list etokens v
  | ENameClause _ nm => etokens nm ++ [tEQUAL]
  end.

(** The comments attached to a node or to a node inside it. *)
Definition wrap_comments (n : notes) (inner : list text) : list text :=
  map c_text (n_lead n) ++ inner ++ map c_text (n_dang n) ++ map c_text (n_trail n).
Fixpoint ecomments (e : expr) : list text :=
  wrap_comments (notes_of e)
    match e with
    | ELeaf _ _ _ => []
    | EUnary _ _ a | EDefault _ a | EElse _ _ a | ERepeat _ a | EParen _ a
    | ENameClause _ a => ecomments a
    | EBinary _ l _ r | EExtract _ l _ r | ENamespace _ l _ r => ecomments l ++ ecomments r
    | EFunction _ _ a b | EWhile _ a b | ECall _ a b => ecomments a ++ ecomments b
    | EParams _ l | EBraced _ l | EArgs _ _ _ l => List.concat (map ecomments l)
    | EParam _ a d => ecomments a ++ opt_list ecomments d
    | EIf _ c t el => ecomments c ++ ecomments t ++ opt_list ecomments el
    | EFor _ v s b => ecomments v ++ ecomments s ++ ecomments b
    | EArg _ nm v _ => opt_list ecomments nm ++ opt_list ecomments v
    end.

(** Comments inside the text of a node: all but those attached to the node
    itself that lie outside its text. *)
Definition outside_comments (n : notes) : list text :=
  map c_text (filter (fun c => negb (c_within c)) (n_lead n ++ n_trail n)).
Definition inside_notes (n : notes) : notes :=
  {| n_lead := filter c_within (n_lead n); n_dang := n_dang n;
     n_trail := filter c_within (n_trail n); n_lines := n_lines n; n_newline := n_newline n;
     n_direct := n_direct n; n_src := n_src n |}.
Definition inner_comments (e : expr) : list text :=
  match e with
  | ELeaf n k ts => ecomments (ELeaf (inside_notes n) k ts)
  | EUnary n op a => ecomments (EUnary (inside_notes n) op a)
  | EBinary n l op r => ecomments (EBinary (inside_notes n) l op r)
  | EExtract n l op r => ecomments (EExtract (inside_notes n) l op r)
  | ENamespace n l op r => ecomments (ENamespace (inside_notes n) l op r)
  | EFunction n name ps b => ecomments (EFunction (inside_notes n) name ps b)
  | EParams n l => ecomments (EParams (inside_notes n) l)
  | EParam n a d => ecomments (EParam (inside_notes n) a d)
  | EDefault n v => ecomments (EDefault (inside_notes n) v)
  | EIf n c t el => ecomments (EIf (inside_notes n) c t el)
  | EElse n nl a => ecomments (EElse (inside_notes n) nl a)
  | EFor n v s b => ecomments (EFor (inside_notes n) v s b)
  | EWhile n c b => ecomments (EWhile (inside_notes n) c b)
  | ERepeat n b => ecomments (ERepeat (inside_notes n) b)
  | EBraced n es => ecomments (EBraced (inside_notes n) es)
  | EParen n b => ecomments (EParen (inside_notes n) b)
  | ECall n f a => ecomments (ECall (inside_notes n) f a)
  | EArgs n k rc l => ecomments (EArgs (inside_notes n) k rc l)
  | EArg n nm v sl => ecomments (EArg (inside_notes n) nm v sl)
  | ENameClause n nm => ecomments (ENameClause (inside_notes n) nm)
  end.

(** * What a printed file contains *)

(** A copied node is read as the tokens and comments of that node (its line
    endings, which copying normalises too, are left aside; C42 is about them). *)
Definition word_tokens (w : word) : list token :=
  match w with
  | WTok t => [t]
  | WVerb e => etokens e
  | WComment _ | WPad _ | WBreak => []
  end.
Definition word_comments (w : word) : list text :=
  match w with
  | WComment c => [c]
  | WVerb e => inner_comments e
  | WTok _ | WPad _ | WBreak => []
  end.
Definition ptokens (ps : list piece) : list token :=
  flat_map (fun p => match p with PWord w => word_tokens w | _ => [] end) ps.
Definition pcomments (ps : list piece) : list text :=
  flat_map (fun p => match p with PWord w => word_comments w | _ => [] end) ps.

(** Every comment runs to the end of its line: only spaces and other comments
    follow it before the next line break or the end. *)
Fixpoint to_line_end (ps : list piece) : Prop :=
  match ps with
  | [] | PNewline :: _ => True
  | PSpace :: r => to_line_end r
  | PWord (WComment _) :: r => to_line_end r
  | PWord _ :: _ => False
  end.
Fixpoint comments_closed (ps : list piece) : Prop :=
  match ps with
  | [] => True
  | PWord (WComment _) :: r => to_line_end r /\ comments_closed r
  | _ :: r => comments_closed r
  end.

(** * Positions *)

(** What the place of a node allows: [=] as an assignment; a directive in the
    comments before it; its value is not used; it is a call whose arguments
    the enclosing assignment declares a table. *)
Record pos := { q_eq : bool; q_dir : bool; q_effect : bool; q_table : bool }.

Definition mkpos (eq dir effect table : bool) : pos :=
  {| q_eq := eq; q_dir := dir; q_effect := effect; q_table := table |}.
Definition p_plain : pos := mkpos false false false false.
(** Bodies of functions, branches and loops, and parenthesised expressions. *)
Definition p_body : pos := mkpos true false false false.
(** Elements of a program or of braces. *)
Definition p_stmt (effect : bool) : pos := mkpos true true effect false.
(** Arguments of a call. *)
Definition p_item : pos := mkpos false true false false.
(** [?x]. *)
Definition p_unary (op : token) : pos := mkpos (kind_eqb (t_kind op) WAT) false false false.

(** A comment with the directive stands before the node, where one may. *)
Definition asked (d : directive) (p : pos) (n : notes) : Prop :=
  q_dir p = true /\
  exists c, In c (n_lead n) /\ parse_comment_directive (c_text c) = Some d.

(** The function called has a name that is in the setting. *)
Inductive calls : expr -> text -> Prop :=
| calls_name n t : calls (ELeaf n R_IDENTIFIER [t]) (t_text t)
| calls_qualified n l op n' t :
    calls (ENamespace n l op (ELeaf n' R_IDENTIFIER [t])) (t_text t).
Definition listed (names : option (list text)) (f : expr) : Prop :=
  exists l name, names = Some l /\ calls f name /\ In name l.
Definition round_call (e : expr) : Prop :=
  exists n f n' rc items, e = ECall n f (EArgs n' KCall rc items).

(** Formatting of the node is switched off. *)
Definition skip_asked (o : format_options) (p : pos) (e : expr) : Prop :=
  asked DSkip p (notes_of e) \/
  (exists n f args, e = ECall n f args /\ round_call e /\ listed (o_skip o) f).

(** The arguments of the call are to be laid out as a table. *)
Definition table_asked (o : format_options) (p : pos) (n : notes) (f : expr) : Prop :=
  q_table p = true \/ asked DTable p n \/ listed (o_table o) f.

(** Assignments whose right hand side may be declared a table, and operators
    below which [=] is as good as above. *)
Definition assignment_op (k : kind) : bool :=
  existsb (kind_eqb k)
    [TILDE; EQUAL; WALRUS; ASSIGN; ASSIGN_RIGHT; SUPER_ASSIGN; SUPER_ASSIGN_RIGHT].
Definition passes_eq (k : kind) : bool := existsb (kind_eqb k) [ASSIGN; EQUAL; WAT].
Definition p_operand (eq : bool) (op : token) (table : bool) : pos :=
  mkpos (eq && passes_eq (t_kind op)) true false table.

(** * Tidied programs *)

(** A token stays as it is, but for line endings inside a string. *)
Definition same_token (t t' : token) : Prop :=
  if kind_eqb (t_kind t) STRING_CONTENT
  then t_kind t' = STRING_CONTENT /\ t_text t' = without_cr_of_crlf (t_text t)
  else t' = t.

(** The assignment operator according to the style; [eq]: [=] is accepted. *)
Definition restyled (st : assignment_style) (eq : bool) (op op' : token) : Prop :=
  match st, t_kind op, eq with
  | AArrow, EQUAL, _ => op' = tARROW
  | AEqual, ASSIGN, true => op' = tEQUAL
  | _, _, _ => same_token op op'
  end.

Definition no_notes : notes :=
  {| n_lead := []; n_dang := []; n_trail := []; n_lines := 0; n_newline := false;
     n_direct := false; n_src := [] |}.
Definition add_braces (e : expr) : expr := EBraced no_notes [e].

Inductive opt_rel {A B : Type} (R : A -> B -> Prop) : option A -> option B -> Prop :=
| opt_none : opt_rel R None None
| opt_some a b : R a b -> opt_rel R (Some a) (Some b).

(** Element by element; the flag tells all but the last element apart. *)
Inductive stmts_rel {A B : Type} (R : bool -> A -> B -> Prop) : list A -> list B -> Prop :=
| stmts_nil : stmts_rel R [] []
| stmts_cons a b l l' :
    R (match l with [] => false | _ => true end) a b -> stmts_rel R l l' ->
    stmts_rel R (a :: l) (b :: l').

(** What makes an if statement get braces whatever the width: a line break
    before a branch or before [else], a branch already in braces, or an if
    statement as a branch. *)
Definition if_forced (t : expr) (el : option expr) : Prop :=
  n_newline (notes_of t) = true \/ is_braced t = true \/ is_if t = true \/
  exists n nl a, el = Some (EElse n nl a) /\
    (nl = true \/ n_newline (notes_of a) = true \/ is_braced a = true \/ is_if a = true).

Section Tidy.
Variable o : format_options.

(** [tidy p e e']: the program text [e] at a place [p] may become [e'].
    Nothing is added or dropped but braces around a body.  [tidy_body w]: with
    [w] a body that is not braced is put in braces.  [tidy_if w]: an if
    statement, all its branches alike. *)
Inductive tidy : pos -> expr -> expr -> Prop :=
| T_skip p e : skip_asked o p e -> tidy p e e
| T_leaf p n k ts ts' : Forall2 same_token ts ts' -> tidy p (ELeaf n k ts) (ELeaf n k ts')
| T_unary p n op op' a a' :
    same_token op op' -> tidy (p_unary op) a a' -> tidy p (EUnary n op a) (EUnary n op' a')
| T_binary p n l l' op op' r r' table :
    restyled (o_assignment_style o) (q_eq p) op op' ->
    (table = true -> assignment_op (t_kind op) = true /\ asked DTable p n) ->
    tidy (p_operand (q_eq p) op false) l l' ->
    tidy (p_operand (q_eq p) op table) r r' ->
    tidy p (EBinary n l op r) (EBinary n l' op' r')
| T_extract p n l l' op op' r r' :
    same_token op op' -> tidy p_plain l l' -> tidy p_plain r r' ->
    tidy p (EExtract n l op r) (EExtract n l' op' r')
| T_namespace p n l l' op op' r r' :
    same_token op op' -> tidy p_plain l l' -> tidy p_plain r r' ->
    tidy p (ENamespace n l op r) (ENamespace n l' op' r')
| T_function p n name name' ps ps' w b b' :
    same_token name name' -> tidy p_plain ps ps' -> tidy_body w b b' ->
    (n_newline (notes_of b) = true -> w = true) ->
    tidy p (EFunction n name ps b) (EFunction n name' ps' b')
| T_params p n l l' : Forall2 (tidy p_plain) l l' -> tidy p (EParams n l) (EParams n l')
| T_param p n a a' d d' :
    tidy p_plain a a' -> opt_rel (tidy p_plain) d d' -> tidy p (EParam n a d) (EParam n a' d')
| T_default p n v v' : tidy p_plain v v' -> tidy p (EDefault n v) (EDefault n v')
| T_if p w e e' :
    tidy_if w e e' -> (q_effect p = true -> w = true) -> tidy p e e'
| T_for p n v v' s s' b b' :
    tidy p_plain v v' -> tidy p_plain s s' -> tidy_body true b b' ->
    tidy p (EFor n v s b) (EFor n v' s' b')
| T_while p n c c' b b' :
    tidy p_plain c c' -> tidy_body true b b' -> tidy p (EWhile n c b) (EWhile n c' b')
| T_repeat p n b b' : tidy_body true b b' -> tidy p (ERepeat n b) (ERepeat n b')
| T_braced p n l l' :
    stmts_rel (fun effect => tidy (p_stmt effect)) l l' -> tidy p (EBraced n l) (EBraced n l')
| T_paren p n b b' : tidy p_body b b' -> tidy p (EParen n b) (EParen n b')
| T_call p n f f' args args' table :
    (table = true -> table_asked o p n f) ->
    tidy p_plain f f' -> tidy (mkpos false false false table) args args' ->
    tidy p (ECall n f args) (ECall n f' args')
| T_args p n k rc l l' : Forall2 (tidy p_item) l l' -> tidy p (EArgs n k rc l) (EArgs n k rc l')
| T_args_table p n rc l :
    q_table p = true -> tidy p (EArgs n KCall rc l) (EArgs n KCall rc l)
| T_arg p n nm nm' v v' sl :
    opt_rel (tidy p_plain) nm nm' -> opt_rel (tidy p_plain) v v' ->
    tidy p (EArg n nm v sl) (EArg n nm' v' sl)
| T_name p n nm nm' : tidy p_plain nm nm' -> tidy p (ENameClause n nm) (ENameClause n nm')
with tidy_if : bool -> expr -> expr -> Prop :=
| TI_if w n c c' t t' el el' :
    tidy p_plain c c' -> tidy_body w t t' -> tidy_else w el el' ->
    (if_forced t el -> w = true) ->
    tidy_if w (EIf n c t el) (EIf n c' t' el')
with tidy_else : bool -> option expr -> option expr -> Prop :=
| TE_none w : tidy_else w None None
| TE_if w n nl a a' :
    is_if a = true -> tidy_if w a a' -> tidy_else w (Some (EElse n nl a)) (Some (EElse n nl a'))
| TE_body w n nl a a' :
    is_if a = false -> tidy_body w a a' ->
    tidy_else w (Some (EElse n nl a)) (Some (EElse n nl a'))
with tidy_body : bool -> expr -> expr -> Prop :=
| TB_braced w b b' : is_braced b = true -> tidy p_body b b' -> tidy_body w b b'
| TB_wrap b b' : is_braced b = false -> tidy p_body b b' -> tidy_body true b (add_braces b')
| TB_plain b b' : is_braced b = false -> tidy p_body b b' -> tidy_body false b b'.
End Tidy.

(** * Well-formed trees *)

(** What may stand in which place, as in r.ungram; every leaf has a token. *)
Inductive sort := SoExpr | SoParams | SoParam | SoDefault | SoElse | SoArgs | SoArg | SoName.
Definition sort_of (e : expr) : sort :=
  match e with
  | EParams _ _ => SoParams
  | EParam _ _ _ => SoParam
  | EDefault _ _ => SoDefault
  | EElse _ _ _ => SoElse
  | EArgs _ _ _ _ => SoArgs
  | EArg _ _ _ _ => SoArg
  | ENameClause _ _ => SoName
  | _ => SoExpr
  end.

Definition all_of {A : Type} (P : A -> Prop) : list A -> Prop :=
  fix go (l : list A) : Prop := match l with [] => True | x :: r => P x /\ go r end.
Definition opt_all {A : Type} (P : A -> Prop) (x : option A) : Prop :=
  match x with Some e => P e | None => True end.
(** As [all_of], telling apart the last element. *)
Definition all_stmts {A : Type} (P : bool -> A -> Prop) : list A -> Prop :=
  fix go (l : list A) : Prop :=
    match l with
    | [] => True
    | x :: r => P (match r with [] => false | _ => true end) x /\ go r
    end.

Fixpoint shaped (e : expr) : Prop :=
  let is s (x : expr) := sort_of x = s /\ shaped x in
  match e with
  | ELeaf _ _ ts => ts <> []
  | EUnary _ _ a => is SoExpr a
  | EBinary _ l _ r | EExtract _ l _ r | ENamespace _ l _ r => is SoExpr l /\ is SoExpr r
  | EFunction _ _ ps b => is SoParams ps /\ is SoExpr b
  | EParams _ l => all_of (is SoParam) l
  | EParam _ a d => is SoExpr a /\ opt_all (is SoDefault) d
  | EDefault _ v => is SoExpr v
  | EIf _ c t el => is SoExpr c /\ is SoExpr t /\ opt_all (is SoElse) el
  | EElse _ _ a => is SoExpr a
  | EFor _ v s b => is SoExpr v /\ is SoExpr s /\ is SoExpr b
  | EWhile _ c b => is SoExpr c /\ is SoExpr b
  | ERepeat _ b => is SoExpr b
  | EBraced _ l => all_of (is SoExpr) l
  | EParen _ b => is SoExpr b
  | ECall _ f args => is SoExpr f /\ is SoArgs args
  | EArgs _ _ _ l => all_of (is SoArg) l
  | EArg _ nm v _ => opt_all (is SoName) nm /\ opt_all (is SoExpr) v
  | ENameClause _ nm => is SoExpr nm
  end.

(** * Comments where the placement rules put them *)

(** A comment dangles only in an empty node, never in an argument.  Arguments
    laid out as a table have no comments of their own list and none inside a
    cell; see [c38_table_refuted] for what happens otherwise. *)
Section Placed.
Variable o : format_options.

Definition cell_ok (a : expr) : Prop :=
  match a with
  | EArg _ None (Some v) _ => ecomments v = []
  | _ => True
  end.

Fixpoint placed (p : pos) (e : expr) {struct e} : Prop :=
  match e with
  | ELeaf _ _ _ => True
  | EUnary n op a => placed (p_unary op) a
  | EBinary n l op r =>
    placed (p_operand (q_eq p) op false) l /\
    (forall table, (table = true -> assignment_op (t_kind op) = true /\ asked DTable p n) ->
       placed (p_operand (q_eq p) op table) r)
  | EExtract n l op r | ENamespace n l op r => placed p_plain l /\ placed p_plain r
  | EFunction n name ps b => placed p_plain ps /\ placed p_body b
  | EParams n l => (l <> [] -> n_dang n = []) /\ all_of (placed p_plain) l
  | EParam n a d => placed p_plain a /\ opt_all (placed p_plain) d
  | EDefault n v => placed p_plain v
  | EIf n c t el => placed p_plain c /\ placed p_body t /\ opt_all (placed p_plain) el
  | EElse n nl a => placed p_body a
  | EFor n v s b => placed p_plain v /\ placed p_plain s /\ placed p_body b
  | EWhile n c b => placed p_plain c /\ placed p_body b
  | ERepeat n b => placed p_body b
  | EBraced n l =>
    (l <> [] -> n_dang n = []) /\ all_stmts (fun effect => placed (p_stmt effect)) l
  | EParen n b => placed p_body b
  | ECall n f args =>
    placed p_plain f /\
    (forall table, (table = true -> table_asked o p n f) ->
       placed (mkpos false false false table) args)
  | EArgs n k rc l =>
    (l <> [] -> n_dang n = []) /\
    (q_table p = true -> l <> [] -> n_lead n = [] /\ n_trail n = []) /\
    (q_table p = true -> all_of cell_ok l) /\
    all_of (placed p_item) l
  | EArg n nm v sl => n_dang n = [] /\ opt_all (placed p_plain) nm /\ opt_all (placed p_plain) v
  | ENameClause n nm => placed p_plain nm
  end.
End Placed.

(** Printing a cell by itself takes one of the layouts of its document. *)
Definition cell_printer (pc : doc -> option (list piece)) : Prop :=
  forall d ps, pc d = Some ps -> prints d ps.

(** * The whole file *)

Definition root_shaped (r : root) : Prop :=
  all_of (fun e => sort_of e = SoExpr /\ shaped e) (r_exprs r).
Definition root_placed (o : format_options) (r : root) : Prop :=
  all_of (placed o (p_stmt true)) (r_exprs r).
Definition root_comments (r : root) : list text :=
  wrap_comments (r_notes r) (List.concat (map ecomments (r_exprs r))).
Definition root_tokens (r : root) : list token :=
  opt_list (fun t => [t]) (r_bom r) ++ List.concat (map etokens (r_exprs r)).

(** The printed file holds the tokens of the expressions [es], tidied forms of
    the file's expressions in order. *)
Definition file_tidied (o : format_options) (r : root) (es : list expr) (out : list piece)
  : Prop :=
  Forall2 (tidy o (p_stmt true)) (r_exprs r) es /\
  exists bom, Forall2 same_token (opt_list (fun t => [t]) (r_bom r)) bom /\
    ptokens out = bom ++ List.concat (map etokens es).

(** * Consequences stated on their own *)

(** The tokens of the output: those of the source, but that assignment
    operators follow the style and some stretches got braces. *)
Inductive retok (st : assignment_style) : list token -> list token -> Prop :=
| RT_nil : retok st [] []
| RT_copy t : retok st [t] [t]
| RT_keep t t' : same_token t t' -> retok st [t] [t']
| RT_arrow t : st = AArrow -> t_kind t = EQUAL -> retok st [t] [tARROW]
| RT_equal t : st = AEqual -> t_kind t = ASSIGN -> retok st [t] [tEQUAL]
| RT_braces x x' : x <> [] -> retok st x x' -> retok st x (tLCURLY :: x' ++ [tRCURLY])
| RT_app x x' y y' : retok st x x' -> retok st y y' -> retok st (x ++ y) (x' ++ y').

(** A property of every node of a tree. *)
Fixpoint everywhere (Q : expr -> Prop) (e : expr) : Prop :=
  let rec := everywhere Q in
  Q e /\
  match e with
  | ELeaf _ _ _ => True
  | EUnary _ _ a | EDefault _ a | EElse _ _ a | ERepeat _ a | EParen _ a
  | ENameClause _ a => rec a
  | EBinary _ l _ r | EExtract _ l _ r | ENamespace _ l _ r => rec l /\ rec r
  | EFunction _ _ a b | EWhile _ a b | ECall _ a b => rec a /\ rec b
  | EParams _ l | EBraced _ l | EArgs _ _ _ l => all_of rec l
  | EParam _ a d => rec a /\ opt_all rec d
  | EIf _ c t el => rec c /\ rec t /\ opt_all rec el
  | EFor _ v s b => rec v /\ rec s /\ rec b
  | EArg _ nm v _ => opt_all rec nm /\ opt_all rec v
  end.

(** No directive before the node, and not a call that the settings name. *)
Definition undirected (o : format_options) (e : expr) : Prop :=
  (forall c, In c (n_lead (notes_of e)) ->
     parse_comment_directive (c_text c) <> Some DSkip /\
     parse_comment_directive (c_text c) <> Some DTable) /\
  match e with
  | ECall _ f _ => ~ listed (o_skip o) f /\ ~ listed (o_table o) f
  | _ => True
  end.

(** Loop bodies are braced. *)
Definition loop_braced (e : expr) : Prop :=
  match e with
  | EFor _ _ _ b | EWhile _ _ b | ERepeat _ b => is_braced b = true
  | _ => True
  end.

(** The branches of an if statement, those of [else if] included. *)
Fixpoint branches (e : expr) : list expr :=
  match e with
  | EIf _ _ t el =>
    t :: match el with
         | Some (EElse _ _ a) => if is_if a then branches a else [a]
         | _ => []
         end
  | _ => []
  end.
Definition branches_alike (e : expr) : Prop :=
  (forall b, In b (branches e) -> is_braced b = true) \/
  (forall b, In b (branches e) -> is_braced b = false).

(** If statements whose value is not used. *)
Definition effects_braced (last : bool) (l : list expr) : Prop :=
  all_stmts (fun effect e => effect = true \/ last = true ->
    forall b, In b (branches e) -> is_braced b = true) l.
Definition block_braced (e : expr) : Prop :=
  match e with EBraced _ l => effects_braced false l | _ => True end.

(** * Where R's grammar accepts an assignment with [=]

    gram.y's [expr_or_assign_or_help], as listed at binary_expression.rs:296-441:
    elements of a program, of braces, of parentheses; bodies and branches;
    operands of another such [=] and of [?].  [eq]: the node stands in such a
    place. *)
Fixpoint eq_ok (eq : bool) (e : expr) : Prop :=
  match e with
  | ELeaf _ _ _ => True
  | EUnary _ op a => eq_ok (kind_eqb (t_kind op) WAT) a
  | EBinary _ l op r =>
    (t_kind op = EQUAL -> eq = true) /\
    let eq' := eq && (kind_eqb (t_kind op) EQUAL || kind_eqb (t_kind op) WAT) in
    eq_ok eq' l /\ eq_ok eq' r
  | EExtract _ l _ r | ENamespace _ l _ r => eq_ok false l /\ eq_ok false r
  | EFunction _ _ ps b => eq_ok false ps /\ eq_ok true b
  | EParams _ l | EArgs _ _ _ l => all_of (eq_ok false) l
  | EParam _ a d => eq_ok false a /\ opt_all (eq_ok false) d
  | EDefault _ a | ENameClause _ a => eq_ok false a
  | EIf _ c t el => eq_ok false c /\ eq_ok true t /\ opt_all (eq_ok false) el
  | EElse _ _ a | ERepeat _ a | EParen _ a => eq_ok true a
  | EFor _ v s b => eq_ok false v /\ eq_ok false s /\ eq_ok true b
  | EWhile _ c b => eq_ok false c /\ eq_ok true b
  | EBraced _ l => all_of (eq_ok true) l
  | ECall _ f a => eq_ok false f /\ eq_ok false a
  | EArg _ nm v _ => opt_all (eq_ok false) nm /\ opt_all (eq_ok false) v
  end.

(** No [# fmt: skip] before an assignment. *)
Definition plain_assignment (e : expr) : Prop :=
  match e with
  | EBinary n _ _ _ =>
    forall c, In c (n_lead n) -> parse_comment_directive (c_text c) <> Some DSkip
  | _ => True
  end.
Definition no_equal (e : expr) : Prop :=
  match e with EBinary _ _ op _ => t_kind op <> EQUAL | _ => True end.

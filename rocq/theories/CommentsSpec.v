(** Comments of a source, and where comments may be attached. *)
From Coq Require Import List Arith Bool NArith Permutation.
From Verif Require Import Text SettingsModel DirectiveModel SyntaxKind ParseModel ParseSpec FmtTree
  FmtSpec CommentsModel.
Import ListNotations.

(** The comments among some trivia. *)
Definition comments_in (ps : list (tkind * text)) : list text :=
  flat_map (fun p => match p with (Comment, x) => [x] | _ => [] end) ps.
(** The comments of a source, in order. *)
Definition token_comments (x : parts) : list text :=
  comments_in (p_leading x) ++ comments_in (p_trailing x).
Definition syn_comments (t : syn) : list text := flat_map token_comments (syn_tokens t).

(** Nodes other than lists inside a node. *)
Fixpoint has_node (t : syn) : bool :=
  match t with
  | Tok _ => false
  | Node k cs => if is_list k then existsb has_node cs else true
  end.

(** A comment dangles in a node with nothing inside, and not in an argument. *)
Definition dangles_well (e : expr) : Prop :=
  match e with
  | EParams n l | EBraced n l | EArgs n _ _ l => l <> [] -> n_dang n = []
  | EArg n _ _ _ => n_dang n = []
  | _ => True
  end.

(** The left operand of an operator, if it is an operation itself, neither
    leads with comments nor has some inside. *)
Definition chain_clear (e : expr) : Prop :=
  match e with
  | EBinary _ (EBinary n _ _ _) _ _ => n_lead n = [] /\ n_dang n = []
  | _ => True
  end.

(** Arguments laid out as a table: no comments of the list itself and none
    inside a cell. *)
Section Tables.
Variable o : format_options.
Fixpoint tables_clear (p : pos) (e : expr) {struct e} : Prop :=
  match e with
  | ELeaf _ _ _ => True
  | EUnary n op a => tables_clear (p_unary op) a
  | EBinary n l op r =>
    tables_clear (p_operand (q_eq p) op false) l /\
    (forall table, (table = true -> assignment_op (t_kind op) = true /\ asked DTable p n) ->
       tables_clear (p_operand (q_eq p) op table) r)
  | EExtract n l op r | ENamespace n l op r => tables_clear p_plain l /\ tables_clear p_plain r
  | EFunction n name ps b => tables_clear p_plain ps /\ tables_clear p_body b
  | EParams n l => all_of (tables_clear p_plain) l
  | EParam n a d => tables_clear p_plain a /\ opt_all (tables_clear p_plain) d
  | EDefault n v => tables_clear p_plain v
  | EIf n c t el =>
    tables_clear p_plain c /\ tables_clear p_body t /\ opt_all (tables_clear p_plain) el
  | EElse n nl a => tables_clear p_body a
  | EFor n v s b => tables_clear p_plain v /\ tables_clear p_plain s /\ tables_clear p_body b
  | EWhile n c b => tables_clear p_plain c /\ tables_clear p_body b
  | ERepeat n b => tables_clear p_body b
  | EBraced n l => all_stmts (fun effect => tables_clear (p_stmt effect)) l
  | EParen n b => tables_clear p_body b
  | ECall n f args =>
    tables_clear p_plain f /\
    (forall table, (table = true -> table_asked o p n f) ->
       tables_clear (mkpos false false false table) args)
  | EArgs n k rc l =>
    (q_table p = true -> l <> [] -> n_lead n = [] /\ n_trail n = []) /\
    (q_table p = true -> all_of cell_ok l) /\
    all_of (tables_clear p_item) l
  | EArg n nm v sl => opt_all (tables_clear p_plain) nm /\ opt_all (tables_clear p_plain) v
  | ENameClause n nm => tables_clear p_plain nm
  end.
End Tables.
Definition root_tables_clear (o : format_options) (r : root) : Prop :=
  all_of (tables_clear o (p_stmt true)) (r_exprs r).

(** The tokens and the comments of a source, from tree-sitter's tree. *)
Definition source_tokens (src : text) (t : ts) : list token :=
  flat_map (fun l => match l with
                     | LTok k s e => match slice s e src with Some x => [tk k x] | None => [] end
                     | LCom _ _ => []
                     end) (leaves t).
Definition source_comments (src : text) (t : ts) : list text :=
  flat_map (fun l => match l with
                     | LTok _ _ _ => []
                     | LCom s e => match slice s e src with Some x => [x] | None => [] end
                     end) (leaves t).

(** The typed syntax tree as the formatter sees it.

    One constructor per node kind of xtask/codegen/r.ungram that has a
    formatting rule.  Each node carries [notes]: the comments that
    [Comments] attached to it and the facts about the source around it that
    the rules read.  They are plain data: theorems quantify over all of them.
    Fixed tokens (parentheses, keywords, commas) are not stored; tokens whose
    text varies are. *)
From Coq Require Import List Arith Bool NArith String.
From Verif Require Import Text SyntaxKind DirectiveModel.
Import ListNotations.

(** A token as printed: its kind and its trimmed text. *)
Record token := { t_kind : kind; t_text : text }.

(** Tokens with a fixed text. *)
Definition tk (k : kind) (t : text) : token := {| t_kind := k; t_text := t |}.
Definition tLPAREN := tk L_PAREN $"(".
Definition tRPAREN := tk R_PAREN $")".
Definition tLBRACK := tk L_BRACK $"[".
Definition tRBRACK := tk R_BRACK $"]".
Definition tLBRACK2 := tk L_BRACK2 $"[[".
Definition tRBRACK2 := tk R_BRACK2 $"]]".
Definition tLCURLY := tk L_CURLY $"{".
Definition tRCURLY := tk R_CURLY $"}".
Definition tCOMMA := tk COMMA $",".
Definition tEQUAL := tk EQUAL $"=".
Definition tARROW := tk ASSIGN $"<-".
Definition tIF := tk IF_KW $"if".
Definition tELSE := tk ELSE_KW $"else".
Definition tFOR := tk FOR_KW $"for".
Definition tIN := tk IN_KW $"in".
Definition tWHILE := tk WHILE_KW $"while".
Definition tREPEAT := tk REPEAT_KW $"repeat".

(** biome_formatter's [SourceComment]: the comment's text, the line breaks
    before and after it in the source, and whether it lies inside the trimmed
    range of the node it is attached to (which [format_verbatim_node] asks). *)
Record comment := {
  c_text : text;
  c_before : nat;
  c_after : nat;
  c_within : bool
}.

(** What the rules know about one node.  [n_lead], [n_dang], [n_trail]:
    its comments.  [n_lines]: [get_lines_before].  [n_newline]:
    [has_leading_newline].  [n_direct]: [has_comments_direct].  [n_src]: its
    trimmed source text. *)
Record notes := {
  n_lead : list comment;
  n_dang : list comment;
  n_trail : list comment;
  n_lines : nat;
  n_newline : bool;
  n_direct : bool;
  n_src : text
}.

(** Which delimiters a list of arguments has: call_arguments.rs:82-118. *)
Inductive call_kind := KCall | KSubset | KSubset2.

(** call_arguments.rs:92-106: the delimiters of arguments. *)
Definition l_token (k : call_kind) : token :=
  match k with KCall => tLPAREN | KSubset => tLBRACK | KSubset2 => tLBRACK2 end.
Definition r_token (k : call_kind) : token :=
  match k with KCall => tRPAREN | KSubset => tRBRACK | KSubset2 => tRBRACK2 end.

Inductive expr :=
| ELeaf (n : notes) (k : kind) (ts : list token)
| EUnary (n : notes) (op : token) (a : expr)
| EBinary (n : notes) (l : expr) (op : token) (r : expr)
| EExtract (n : notes) (l : expr) (op : token) (r : expr)
| ENamespace (n : notes) (l : expr) (op : token) (r : expr)
| EFunction (n : notes) (name : token) (ps body : expr)
| EParams (n : notes) (items : list expr)
| EParam (n : notes) (name : expr) (dflt : option expr)
| EDefault (n : notes) (v : expr)
| EIf (n : notes) (c t : expr) (e : option expr)
| EElse (n : notes) (nl : bool) (a : expr)     (* [nl]: newline before [else] *)
| EFor (n : notes) (v s body : expr)
| EWhile (n : notes) (c body : expr)
| ERepeat (n : notes) (body : expr)
| EBraced (n : notes) (es : list expr)
| EParen (n : notes) (body : expr)
| ECall (n : notes) (f args : expr)            (* call, subset, subset2 *)
| EArgs (n : notes) (k : call_kind) (rc : bool) (items : list expr)
    (* [rc]: the closing token has leading comments *)
| EArg (n : notes) (nm v : option expr) (sl : nat)
    (* [sl]: line breaks before the separator after it *)
| ENameClause (n : notes) (nm : expr).

Section ExprInd.
  Variable P : expr -> Prop.
  Definition Popt (o : option expr) : Prop := match o with None => True | Some e => P e end.
  Variable Hleaf : forall n k ts, P (ELeaf n k ts).
  Variable Hunary : forall n op a, P a -> P (EUnary n op a).
  Variable Hbinary : forall n l op r, P l -> P r -> P (EBinary n l op r).
  Variable Hextract : forall n l op r, P l -> P r -> P (EExtract n l op r).
  Variable Hnamespace : forall n l op r, P l -> P r -> P (ENamespace n l op r).
  Variable Hfunction : forall n name ps body, P ps -> P body -> P (EFunction n name ps body).
  Variable Hparams : forall n items, Forall P items -> P (EParams n items).
  Variable Hparam : forall n name d, P name -> Popt d -> P (EParam n name d).
  Variable Hdefault : forall n v, P v -> P (EDefault n v).
  Variable Hif : forall n c t e, P c -> P t -> Popt e -> P (EIf n c t e).
  Variable Helse : forall n nl a, P a -> P (EElse n nl a).
  Variable Hfor : forall n v s b, P v -> P s -> P b -> P (EFor n v s b).
  Variable Hwhile : forall n c b, P c -> P b -> P (EWhile n c b).
  Variable Hrepeat : forall n b, P b -> P (ERepeat n b).
  Variable Hbraced : forall n es, Forall P es -> P (EBraced n es).
  Variable Hparen : forall n b, P b -> P (EParen n b).
  Variable Hcall : forall n f a, P f -> P a -> P (ECall n f a).
  Variable Hargs : forall n k rc items, Forall P items -> P (EArgs n k rc items).
  Variable Harg : forall n nm v sl, Popt nm -> Popt v -> P (EArg n nm v sl).
  Variable Hname : forall n nm, P nm -> P (ENameClause n nm).

  Fixpoint expr_ind' (e : expr) : P e :=
    let opt (o : option expr) : Popt o :=
      match o with None => I | Some e => expr_ind' e end in
    let fix all (l : list expr) : Forall P l :=
      match l with [] => Forall_nil P | x :: r => Forall_cons x (expr_ind' x) (all r) end in
    match e with
    | ELeaf n k ts => Hleaf n k ts
    | EUnary n op a => Hunary n op a (expr_ind' a)
    | EBinary n l op r => Hbinary n l op r (expr_ind' l) (expr_ind' r)
    | EExtract n l op r => Hextract n l op r (expr_ind' l) (expr_ind' r)
    | ENamespace n l op r => Hnamespace n l op r (expr_ind' l) (expr_ind' r)
    | EFunction n name ps b => Hfunction n name ps b (expr_ind' ps) (expr_ind' b)
    | EParams n items => Hparams n items (all items)
    | EParam n name d => Hparam n name d (expr_ind' name) (opt d)
    | EDefault n v => Hdefault n v (expr_ind' v)
    | EIf n c t e => Hif n c t e (expr_ind' c) (expr_ind' t) (opt e)
    | EElse n nl a => Helse n nl a (expr_ind' a)
    | EFor n v s b => Hfor n v s b (expr_ind' v) (expr_ind' s) (expr_ind' b)
    | EWhile n c b => Hwhile n c b (expr_ind' c) (expr_ind' b)
    | ERepeat n b => Hrepeat n b (expr_ind' b)
    | EBraced n es => Hbraced n es (all es)
    | EParen n b => Hparen n b (expr_ind' b)
    | ECall n f a => Hcall n f a (expr_ind' f) (expr_ind' a)
    | EArgs n k rc items => Hargs n k rc items (all items)
    | EArg n nm v sl => Harg n nm v sl (opt nm) (opt v)
    | ENameClause n nm => Hname n nm (expr_ind' nm)
    end.
End ExprInd.

Definition notes_of (e : expr) : notes :=
  match e with
  | ELeaf n _ _ | EUnary n _ _ | EBinary n _ _ _ | EExtract n _ _ _ | ENamespace n _ _ _
  | EFunction n _ _ _ | EParams n _ | EParam n _ _ | EDefault n _ | EIf n _ _ _
  | EElse n _ _ | EFor n _ _ _ | EWhile n _ _ | ERepeat n _ | EBraced n _ | EParen n _
  | ECall n _ _ | EArgs n _ _ _ | EArg n _ _ _ | ENameClause n _ => n
  end.

(** The whole file.  [r_bom]: a byte order mark token; [r_notes]: the notes of
    the root node, with the file's source as [n_src]. *)
Record root := {
  r_bom : option token;
  r_notes : notes;
  r_exprs : list expr
}.

(** What surrounds a node, innermost first: the parent's kind and the slot. *)
Inductive if_slot := SCond | SThen | SElse.
Inductive frame :=
| FRootList                      (* child of the root's RExpressionList *)
| FBracedList (last : bool)      (* child of a braced RExpressionList *)
| FParen
| FUnary (op : token)
| FBinary (op : token) | FExtract | FNamespace
| FFunction (is_body : bool) | FParamList | FParam | FDefault
| FIf (s : if_slot) | FElse
| FFor (is_body : bool) | FWhile (is_body : bool) | FRepeat
| FCall
| FArgList
| FArg | FNameClause.

Definition is_braced (e : expr) : bool := match e with EBraced _ _ => true | _ => false end.
Definition is_if (e : expr) : bool := match e with EIf _ _ _ _ => true | _ => false end.
Definition is_binary (e : expr) : bool := match e with EBinary _ _ _ _ => true | _ => false end.

(** Vocabulary for tables (C45): the rows of a call's arguments in the source,
    and rows printed with their columns lined up. *)
From Coq Require Import List Arith Bool NArith String.
From Verif Require Import Text SettingsModel SyntaxKind DirectiveModel FmtTree IrModel FmtSpec
  FmtPathSpec.
Import ListNotations.

(** * The source *)

Definition positional (a : expr) : Prop := exists n v sl, a = EArg n None v sl.
Definition has_name (a : expr) : Prop := exists n c v sl, a = EArg n (Some c) v sl.
Definition empty_arg (a : expr) : Prop := exists n sl, a = EArg n None None sl.

(** The cells of the table are the arguments before the first named one. *)
Definition cells_of (items cells named : list expr) : Prop :=
  items = cells ++ named /\ Forall positional cells /\
  match named with [] => True | a :: _ => has_name a end.

(** Each with whether a comma follows; [more]: arguments follow the last. *)
Fixpoint followed (more : bool) (l : list expr) : list (expr * bool) :=
  match l with
  | [] => []
  | [a] => [(a, more)]
  | a :: r => (a, true) :: followed more r
  end.
Definition some {A : Type} (l : list A) : bool := match l with [] => false | _ => true end.

(** A line break stands before the cell; for one that was left out, before the
    comma after it. *)
Definition on_next_line (c : expr * bool) : Prop :=
  match fst c with
  | EArg n _ (Some _) _ => 0 < n_lines n
  | EArg _ _ None sl => snd c = true /\ 0 < sl
  | _ => False
  end.

(** The rows: the lines of the source. *)
Definition row_of_line (row : list (expr * bool)) : Prop :=
  exists c r, row = c :: r /\ Forall (fun c => ~ on_next_line c) r.
Definition lines_of (l : list (expr * bool)) (rs : list (list (expr * bool))) : Prop :=
  List.concat rs = l /\ Forall row_of_line rs /\
  match rs with
  | [] => True
  | _ :: rest => Forall (fun row => exists c r, row = c :: r /\ on_next_line c) rest
  end.

(** Numbers: [units v k]: [v] has [k] characters before its decimal point, or
    before its end, or before the [L] of an integer. *)
Inductive literal_units : expr -> nat -> Prop :=
| LU_point n t a b :
    t_text t = a ++ 46%N :: b -> ~ In 46%N a ->
    literal_units (ELeaf n R_DOUBLE_VALUE [t]) (List.length a)
| LU_whole n t :
    ~ In 46%N (t_text t) -> literal_units (ELeaf n R_DOUBLE_VALUE [t]) (List.length (t_text t))
| LU_integer n t a c :
    t_text t = a ++ [c] -> literal_units (ELeaf n R_INTEGER_VALUE [t]) (List.length a).
Inductive units : expr -> nat -> Prop :=
| U_literal v k : literal_units v k -> units v k
| U_signed n op v k :
    t_text op = $"+" \/ t_text op = $"-" -> literal_units v k -> units (EUnary n op v) (S k).
Definition is_number (a : expr) : Prop :=
  exists n v sl k, a = EArg n None (Some v) sl /\ units v k.

(** Tokens of numbers: not empty, ASCII without spaces; every token and every node is
    written with some characters. *)
Definition ascii_token (t : token) : Prop :=
  t_kind t <> STRING_CONTENT /\ t_text t <> [] /\ Forall (fun c => (32 < c < 128)%N) (t_text t).
Definition written (v : expr) : Prop :=
  everywhere (fun x => n_src (notes_of x) <> []) v /\ Forall (fun t => t_text t <> []) (etokens v).

(** A cell: no comments inside it; its tokens are written, those of a number in
    ASCII.  Comments of its own come after it; only the first cell of a line
    may have some before it, and no number. *)
Definition cell_shape (first : bool) (c : expr * bool) : Prop :=
  let a := fst c in
  n_dang (notes_of a) = [] /\
  (n_lead (notes_of a) = [] \/ (first = true \/ on_next_line c) /\ ~ is_number a) /\
  match a with
  | EArg _ None (Some v) _ =>
    ecomments v = [] /\ written v /\ (is_number a -> Forall ascii_token (etokens v))
  | EArg _ None None _ => True
  | _ => False
  end.
Definition cell_shapes (l : list (expr * bool)) : Prop :=
  match l with
  | [] => True
  | c :: r => cell_shape true c /\ Forall (cell_shape false) r
  end.

(** Cells that fit on one line: no comments, no line breaks that have to be
    kept, no braces, functions or statements, no calls that the settings
    name. *)
Definition binary_operator (k : kind) : bool :=
  existsb (kind_eqb k)
    [ WAT; EXPONENTIATE; EXPONENTIATE2; SyntaxKind.COLON; TILDE; EQUAL; WALRUS; ASSIGN; ASSIGN_RIGHT;
      SUPER_ASSIGN; SUPER_ASSIGN_RIGHT; PIPE; SPECIAL; OR_OP; OR2; AND_OP; AND2; PLUS; MINUS;
      MULTIPLY; DIVIDE; GREATER_THAN; GREATER_THAN_OR_EQUAL_TO; LESS_THAN;
      LESS_THAN_OR_EQUAL_TO; EQUAL2; NOT_EQUAL ].
Definition flat_token (t : token) : Prop := ~ In LF (t_text t).
Definition one_line_node (o : format_options) (e : expr) : Prop :=
  n_lead (notes_of e) = [] /\ n_dang (notes_of e) = [] /\ n_trail (notes_of e) = [] /\
  match e with
  | ELeaf _ _ ts => Forall flat_token ts
  | EUnary _ op _ => flat_token op
  | EBinary _ _ op r =>
    binary_operator (t_kind op) = true /\ flat_token op /\
    n_lines (notes_of r) <= 1 /\ n_newline (notes_of r) = false
  | EExtract _ _ op _ | ENamespace _ _ op _ => flat_token op
  | EParen _ b => n_direct (notes_of b) = false
  | ECall _ f _ => ~ listed (o_skip o) f /\ ~ listed (o_table o) f
  | EArgs _ _ _ items => Forall (fun x => n_lines (notes_of x) <= 1) items
  | EArg _ _ _ _ | ENameClause _ _ => True
  | _ => False
  end.
Definition fits_one_line (o : format_options) (v : expr) : Prop := everywhere (one_line_node o) v.
Definition fitting_cell (o : format_options) (x : expr) : Prop :=
  match x with
  | EArg _ None (Some v) _ => fits_one_line o v
  | EArg _ None None _ => True
  | _ => False
  end.

(** Cells that do not: braces with something in them, or a literal with a line
    break in it, somewhere that is not to be copied. *)
Definition breaks (y : expr) : Prop :=
  match y with
  | EBraced _ es => es <> [] /\ ~ curly_curly es
  | ELeaf _ k ts =>
    k <> R_INTEGER_VALUE /\ k <> R_DOUBLE_VALUE /\ Exists (fun t => In LF (t_text t)) ts
  | _ => False
  end.
Definition has_break (o : format_options) (v : expr) : Prop :=
  exists p y, visited o p_plain v p y /\ ~ skip_asked o p y /\ breaks y.
Definition breaking_cell (o : format_options) (x : expr) : Prop :=
  exists n v sl, x = EArg n None (Some v) sl /\ has_break o v.

(** The printer of cells answers for every document without an error. *)
Fixpoint without_error (d : doc) : Prop :=
  match d with
  | DCat a b | DBest a b => without_error a /\ without_error b
  | DIndent d | DGroup _ d | DIfBreaks d => without_error d
  | DPanic => False
  | _ => True
  end.
Definition cells_answered (pc : doc -> option (list piece)) : Prop :=
  forall d, without_error d -> pc d <> None.

(** * The output *)

(** Characters shown. *)
Definition shown_chars (p : piece) : nat :=
  match p with
  | PWord (WTok t) => List.length (t_text t)
  | PWord (WComment c) => List.length c
  | PWord (WPad k) => k
  | PWord (WVerb e) => List.length (n_src (notes_of e))
  | PWord WBreak | PSpace | PNewline => 1
  end.
Definition chars (ps : list piece) : nat := list_sum (map shown_chars ps).

Definition blank (ps : list piece) : Prop :=
  Forall (fun p => match p with PSpace | PWord (WPad _) => True | _ => False end) ps.
Definition on_one_line (ps : list piece) : Prop :=
  Forall (fun p => match p with PNewline => False | PWord w => word_breaks w = false | PSpace => True end)
    ps.

(** The text of a cell. *)
Definition cell_shown (o : format_options) (a : expr) (txt : list piece) : Prop :=
  on_one_line txt /\
  match a with
  | EArg _ _ (Some v) _ => exists v', tidy o p_plain v v' /\ ptokens txt = etokens v'
  | _ => txt = []
  end.

(** A line of cells from column [j] on, [off] characters after the beginning of
    the line.  The comma after the cell in column [j] comes after [comma j]
    characters, the units of a number there end after [point j], and any other
    text there begins after [left j]. *)
Section Row.
Variable o : format_options.
Variables comma point left : nat -> nat.
(** The cell's text stands where its column wants it. *)
Definition placed_cell (j off : nat) (a : expr) (gap txt : list piece) : Prop :=
  blank gap /\ cell_shown o a txt /\
  (forall n v sl k, a = EArg n None (Some v) sl -> units v k -> off + chars gap + k = point j) /\
  (~ is_number a -> txt <> [] -> off + chars gap = left j).
Inductive row_shown : nat -> nat -> list (expr * bool) -> list piece -> Prop :=
| RS_end j off : row_shown j off [] []
| RS_last j off a gap txt :
    placed_cell j off a gap txt -> row_shown j off [(a, false)] (gap ++ txt)
| RS_cell j off a rest gap txt gap' more :
    placed_cell j off a gap txt -> blank gap' ->
    off + chars (gap ++ txt ++ gap') = comma j ->
    row_shown (S j) (S (comma j)) rest more ->
    row_shown j off ((a, true) :: rest) (gap ++ txt ++ gap' ++ PWord (WTok tCOMMA) :: more).

(** Lines of comments. *)
Definition comment_lines (ps : list piece) : Prop :=
  Forall remark ps /\ (ps = [] \/ exists q, ps = q ++ [PNewline]).

(** A row: comment lines, the line itself, and comments at its end. *)
Definition row_lines (row : list (expr * bool)) (ps : list piece) : Prop :=
  exists above line after, ps = above ++ line ++ after /\
    comment_lines above /\ row_shown 0 0 row line /\ Forall remark after /\
    match row with c :: _ => n_lead (notes_of (fst c)) = [] -> above = [] | [] => True end /\
    (Forall (fun c => n_trail (notes_of (fst c)) = []) row -> after = []).

(** The rows one below the other, with the empty lines of the source, one at
    most. *)
Inductive rows_shown : list (list (expr * bool)) -> list piece -> Prop :=
| RW_last row ps : row_lines row ps -> rows_shown [row] ps
| RW_row row ps c r rs qs :
    row_lines row ps -> rows_shown ((c :: r) :: rs) qs ->
    rows_shown (row :: (c :: r) :: rs)
      (ps ++ repeat PNewline (1 + Nat.min 1 (n_lines (notes_of (fst c)) - 1)) ++ qs).
End Row.

(** The table stands in the output: after the parenthesis, and perhaps a
    comment, its rows on lines of their own. *)
Definition table_in (o : format_options) (rs : list (list (expr * bool))) (out : list piece) : Prop :=
  exists comma point left pre held body post,
    out = pre ++ PWord (WTok tLPAREN) :: held ++ PNewline :: body ++ PNewline :: post /\
    Forall remark held /\ rows_shown o comma point left rs body.
(** The node is copied. *)
Definition copied_in (e : expr) (out : list piece) : Prop :=
  exists a b, out = a ++ PWord (WVerb e) :: b.

(** A call laid out as a table: it is one of the program, not to be copied, and
    something asks for it; [cells] are its cells. *)
Definition table_call (o : format_options) (r : root) (args : expr) (cells named : list expr) : Prop :=
  exists p n f n' rc items, args = EArgs n' KCall rc items /\
    in_file o r p (ECall n f args) /\ ~ skip_asked o p (ECall n f args) /\ table_asked o p n f /\
    cells_of items cells named /\ cells <> [] /\ ~ (exists a, items = [a] /\ empty_arg a).

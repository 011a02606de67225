(** Vocabulary for C39: where R ends an expression at a line break.

    R's lexer throws line breaks away inside parentheses and brackets and
    after a token that cannot end an expression (gram.y, [token_] and
    [contextp]); any other line break ends the expression.  [read] reads the
    printed file that way and marks every token before which R saw the end of
    an expression.  [lines] says where a program is to have such marks: before
    every element of braces but the first.  Nothing here mentions the rules or
    the documents. *)
From Coq Require Import List Arith Bool NArith.
From Verif Require Import Text SettingsModel SyntaxKind DirectiveModel FmtTree IrModel
  FmtSpec RReadSpec.
Import ListNotations.

(** * Reading line breaks *)

(** Open delimiters, innermost first.  [DHead]: the parenthesis after a
    [RoHeader]. *)
Inductive delim := DHead | DRound | DCurly.

(** [rd_eats]: a line break here is thrown away.  [rd_broken]: a line break
    that ends the expression was seen.  [rd_header]: the last token is a
    [RoHeader]. *)
Record reader := {
  rd_stack : list delim;
  rd_eats : bool;
  rd_broken : bool;
  rd_header : bool
}.

Definition enclosed (s : list delim) : bool :=
  match s with DHead :: _ | DRound :: _ => true | _ => false end.

(** Where code stands after these delimiters were opened. *)
Definition context_of (s : list delim) : context :=
  match s with [] => InFile | DCurly :: _ => InBraces | _ => InRound end.

Definition see_newline (st : reader) : reader :=
  {| rd_stack := rd_stack st; rd_eats := rd_eats st;
     rd_broken := rd_broken st || negb (rd_eats st); rd_header := rd_header st |}.

Definition after_role (r : role) (st : reader) : reader :=
  let s := match r with
           | RoOpenRound => (if rd_header st then DHead else DRound) :: rd_stack st
           | RoOpenSquare => DRound :: rd_stack st
           | RoOpenCurly => DCurly :: rd_stack st
           | RoCloseRound | RoCloseSquare | RoCloseCurly => tl (rd_stack st)
           | _ => rd_stack st
           end in
  let continues := match r with
                   | RoContinues | RoHeader | RoOpenCurly => true
                   | RoCloseRound =>
                     match rd_stack st with DHead :: _ => true | _ => false end
                   | _ => false
                   end in
  {| rd_stack := s; rd_eats := continues || enclosed s; rd_broken := false;
     rd_header := match r with RoHeader => true | _ => false end |}.

(** A closing brace ends the last expression itself. *)
Definition see_token (st : reader) (t : token) : list (token * bool) * reader :=
  match role_of (t_kind t) with
  | RoMark => ([], st)
  | RoCloseCurly => ([(t, false)], after_role RoCloseCurly st)
  | r => ([(t, rd_broken st)], after_role r st)
  end.

(** * The marks a program is to have *)

Definition inline (t : token) : token * bool := (t, false).
(** Marks the first token. *)
Definition flag (b : bool) (l : list (token * bool)) : list (token * bool) :=
  match l with
  | [] => []
  | (t, f) :: r => (t, b || f) :: r
  end.
Definition statements (ls : list (list (token * bool))) : list (token * bool) :=
  match ls with
  | [] => []
  | x :: r => x ++ List.concat (map (flag true) r)
  end.
Fixpoint listed_by_commas (ls : list (list (token * bool))) : list (token * bool) :=
  match ls with
  | [] => []
  | [x] => x
  | x :: r => x ++ inline tCOMMA :: listed_by_commas r
  end.

Fixpoint lines (e : expr) : list (token * bool) :=
  match e with
  | ELeaf _ _ ts => map inline ts
  | EUnary _ op a => inline op :: lines a
  | EBinary _ l op r | EExtract _ l op r | ENamespace _ l op r =>
    lines l ++ inline op :: lines r
  | EFunction _ name ps b => inline name :: lines ps ++ lines b
  | EParams _ items => inline tLPAREN :: listed_by_commas (map lines items) ++ [inline tRPAREN]
  | EParam _ name d => lines name ++ opt_list lines d
  | EDefault _ v => inline tEQUAL :: lines v
  | EIf _ c t el =>
    inline tIF :: inline tLPAREN :: lines c ++ inline tRPAREN :: lines t ++ opt_list lines el
  | EElse _ _ a => inline tELSE :: lines a
  | EFor _ v s b =>
    inline tFOR :: inline tLPAREN :: lines v ++ inline tIN :: lines s ++ inline tRPAREN :: lines b
  | EWhile _ c b => inline tWHILE :: inline tLPAREN :: lines c ++ inline tRPAREN :: lines b
  | ERepeat _ b => inline tREPEAT :: lines b
  | EBraced _ es => inline tLCURLY :: statements (map lines es) ++ [inline tRCURLY]
  | EParen _ b => inline tLPAREN :: lines b ++ [inline tRPAREN]
  | ECall _ f args => lines f ++ lines args
  | EArgs _ k _ items =>
    inline (l_token k) :: listed_by_commas (map lines items) ++ [inline (r_token k)]
  | EArg _ nm v _ => opt_list lines nm ++ opt_list lines v
  | ENameClause _ nm => lines nm ++ [inline tEQUAL]
  end.

(** The whole program. *)
Definition program (es : list expr) : list (token * bool) := statements (map lines es).

(** * Reading a printed file *)

(** Between two expressions: nothing is pending. *)
Definition at_rest (s : list delim) : reader :=
  {| rd_stack := s; rd_eats := enclosed s; rd_broken := false; rd_header := false |}.

(** A copied node is a whole node of the source, which R read as the tree says
    (there, [;] separates expressions too). *)
Definition see_word (st : reader) (w : word) : list (token * bool) * reader :=
  match w with
  | WTok t => see_token st t
  | WVerb e => (flag (rd_broken st) (lines e), at_rest (rd_stack st))
  | WComment _ | WPad _ => ([], st)
  | WBreak => ([], see_newline st)
  end.
Definition see (st : reader) (p : piece) : list (token * bool) * reader :=
  match p with
  | PWord w => see_word st w
  | PSpace => ([], st)
  | PNewline => ([], see_newline st)
  end.
Fixpoint scan (st : reader) (ps : list piece) : list (token * bool) * reader :=
  match ps with
  | [] => ([], st)
  | p :: r =>
    let '(a, st1) := see st p in
    let '(b, st2) := scan st1 r in
    (a ++ b, st2)
  end.

Definition reader_start : reader :=
  {| rd_stack := []; rd_eats := true; rd_broken := false; rd_header := false |}.
Definition read (out : list piece) : list (token * bool) := fst (scan reader_start out).

(** * Trees as R's grammar and the placement of comments make them *)

Definition has_role (r : role) (t : token) : Prop := role_of (t_kind t) = r.
Definition uncommented (n : notes) : Prop := n_lead n = [] /\ n_dang n = [] /\ n_trail n = [].

(** Where a body stands that may get braces. *)
Definition body_context (c : context) : context :=
  match c with InRound => InBraces | _ => c end.

(** Tokens have the kinds that their place in the tree asks for.  Comments
    dangle only in lists.  [c]: where the node stands in the output, braces
    that may be added included; [c0]: where it stands in the source.  Only in
    parentheses or brackets, with no braces in between, may a comment stand
    before the arguments of a call, after [::], before [else] or next to the
    operand of a unary operator; see the refutations in FmtLineProps.v.  [P] is
    asked of every node. *)
Fixpoint tame (P : context -> context -> expr -> Prop) (c0 c : context) (e : expr) : Prop :=
  (match e with EParams _ _ | EBraced _ _ | EArgs _ _ _ _ => True
              | _ => n_dang (notes_of e) = [] end /\ P c0 c e) /\
  match e with
  | ELeaf _ _ ts => all_of (has_role RoPlain) ts
  | EUnary _ op a =>
    has_role RoContinues op /\ (c = InRound \/ uncommented (notes_of a)) /\ tame P c0 c a
  | EBinary _ l op r | EExtract _ l op r =>
    has_role RoContinues op /\ tame P c0 c l /\ tame P c0 c r
  | ENamespace _ l op r =>
    has_role RoPlain op /\ tame P c0 c l /\ tame P c0 c r /\
    (c = InRound \/ (exists n k ts, r = ELeaf n k ts /\ n_lead n = []))
  | EFunction _ name ps b =>
    has_role RoHeader name /\ tame P c0 c ps /\ tame P c0 (body_context c) b
  | EParams _ l => all_of (tame P InRound InRound) l
  | EParam _ a d => tame P InRound InRound a /\ opt_all (tame P InRound InRound) d
  | EDefault _ a | ENameClause _ a => tame P InRound InRound a
  | EIf _ i t el =>
    tame P InRound InRound i /\ tame P c0 (body_context c) t /\ opt_all (tame P c0 c) el
  | EElse n _ a => (c = InRound \/ n_lead n = []) /\ tame P c0 (body_context c) a
  | EFor _ v s b =>
    tame P InRound InRound v /\ tame P InRound InRound s /\ tame P c0 (body_context c) b
  | EWhile _ i b => tame P InRound InRound i /\ tame P c0 (body_context c) b
  | ERepeat _ b => tame P c0 (body_context c) b
  | EBraced _ l => all_of (tame P InBraces InBraces) l
  | EParen _ b => tame P InRound InRound b
  | ECall _ f args =>
    tame P c0 c f /\ tame P c0 c args /\ (c = InRound \/ n_lead (notes_of args) = [])
  | EArgs _ _ _ l => all_of (tame P InRound InRound) l
  | EArg _ nm v _ =>
    opt_all (tame P InRound InRound) nm /\ opt_all (tame P InRound InRound) v
  end.

(** More line breaks are thrown away at [c'] than at [c], or as many. *)
Definition wider (c c' : context) : Prop :=
  match c, c' with
  | InFile, _ | InBraces, InBraces | _, InRound => True
  | _, _ => False
  end.
(** Nodes that may be copied: asked to be skipped, or arguments that may be a
    table. *)
Definition copied (o : format_options) (e : expr) : Prop :=
  (exists c, In c (n_lead (notes_of e)) /\ parse_comment_directive (c_text c) = Some DSkip) \/
  (exists n f args, e = ECall n f args /\ round_call e /\ listed (o_skip o) f) \/
  (exists n rc items, e = EArgs n KCall rc items).

Definition root_tame_with (P : context -> context -> expr -> Prop) (r : root) : Prop :=
  opt_all (has_role RoMark) (r_bom r) /\ all_of (tame P InFile InFile) (r_exprs r).
Definition root_tame (r : root) : Prop := root_tame_with (fun _ _ _ => True) r.

(** * Source and output, read *)

Definition unmarked (l : list (token * bool)) : Prop :=
  match l with (_, true) :: _ => False | _ => True end.

(** The output reads as the source: the same tokens with the same marks, but
    that assignment operators follow the style and some stretches got braces,
    which take over the mark of the stretch. *)
Inductive reread (st : assignment_style)
  : list (token * bool) -> list (token * bool) -> Prop :=
| RR_nil : reread st [] []
| RR_keep t t' b : t' = t \/ same_token t t' -> reread st [(t, b)] [(t', b)]
| RR_arrow t b : st = AArrow -> t_kind t = EQUAL -> reread st [(t, b)] [(tARROW, b)]
| RR_equal t b : st = AEqual -> t_kind t = ASSIGN -> reread st [(t, b)] [(tEQUAL, b)]
| RR_braces b x x' :
    x <> [] -> unmarked x -> reread st x x' ->
    reread st (flag b x) ((tLCURLY, b) :: x' ++ [inline tRCURLY])
| RR_app x x' y y' : reread st x x' -> reread st y y' -> reread st (x ++ y) (x' ++ y').

(** How often R sees the end of an expression between two tokens. *)
Definition marks (l : list (token * bool)) : nat := List.length (filter snd l).

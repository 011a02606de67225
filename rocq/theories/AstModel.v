(** The typed syntax tree that the formatting rules see (FmtTree.v), read off
    the syntax tree and the attached comments.

    crates/air_r_syntax/src/generated/nodes.rs: each accessor takes a child by
    its place in the node (xtask/codegen/r.ungram).  A tree with missing or
    unexpected children is not read ([None]): biome's syntax factory
    (FactoryModel.v) makes it a bogus node, which is not formatted. *)
From Coq Require Import List Arith Bool NArith.
From Verif Require Import Text SyntaxKind ParseModel ParseSpec FmtTree FmtSpec CommentsModel.
Import ListNotations.

Definition token_of (x : parts) : token := tk (p_kind x) (p_own x).
Definition is_tok (t : token) (x : parts) : bool :=
  kind_eqb (p_kind x) (t_kind t) && text_eqb (p_own x) (t_text t).

Definition sort_eqb (a b : sort) : bool :=
  match a, b with
  | SoExpr, SoExpr | SoParams, SoParams | SoParam, SoParam | SoDefault, SoDefault
  | SoElse, SoElse | SoArgs, SoArgs | SoArg, SoArg | SoName, SoName => true
  | _, _ => false
  end.

(** * Facts about the source around a node *)

(** biome_formatter [get_lines_before_token], biome_rowan
    [has_leading_newline], [has_leading_comments], [has_trailing_comments] of a
    token (trusted). *)
Definition is_comment (p : tkind * text) : bool := tkind_eqb (fst p) Comment.
Definition token_lines (x : parts) : nat := lines_to_comment (p_leading x).
Definition token_newline (x : parts) : bool :=
  existsb (fun p => tkind_eqb (fst p) Newline) (p_leading x).
Definition comments_before (x : parts) : bool := existsb is_comment (p_leading x).
Definition comments_after (x : parts) : bool := existsb is_comment (p_trailing x).

Definition first_token (t : syn) : option parts := hd_error (syn_tokens t).
Definition last_token (t : syn) : option parts := hd_error (rev (syn_tokens t)).
Definition of_token {A : Type} (d : A) (f : parts -> A) (x : option parts) : A :=
  match x with Some x => f x | None => d end.

(** biome_rowan [text_trimmed]: the text without the trivia at both ends. *)
Definition with_trivia (x : parts) : text :=
  pieces_text (p_leading x) ++ p_own x ++ pieces_text (p_trailing x).
Fixpoint trimmed_end (xs : list parts) : text :=
  match xs with
  | [] => []
  | [x] => pieces_text (p_leading x) ++ p_own x
  | x :: r => with_trivia x ++ trimmed_end r
  end.
Definition trimmed (xs : list parts) : text :=
  match xs with
  | [] => []
  | [x] => p_own x
  | x :: r => p_own x ++ pieces_text (p_trailing x) ++ trimmed_end r
  end.

(** * Notes *)

Definition how_eqb (a b : how) : bool :=
  match a, b with
  | Leading, Leading | Dangling, Dangling | Trailing, Trailing => true
  | _, _ => false
  end.

Section Typed.
Variable pl : list placement.

(** The comments attached to a node: [Comments::leading_comments] and so on. *)
Definition placed_at (h : how) (p : path) : list placement :=
  filter (fun q => how_eqb (pt_how q) h && path_eqb (pt_path q) p) pl.
(** [c_within]: some token of the node lies before the comment and some after
    it.  [g]: the tokens before the node, [m]: the tokens of the node. *)
Definition comment_of (g m : nat) (q : placement) : comment :=
  let d := pt_comment q in
  {| c_text := d_text d; c_before := d_before d; c_after := d_after d;
     c_within := (g <? d_gap d) && (d_gap d <? g + m) |}.
Definition note (p : path) (g : nat) (t : syn) : notes :=
  let at_ h := map (comment_of g (List.length (syn_tokens t))) (placed_at h p) in
  {| n_lead := at_ Leading; n_dang := at_ Dangling; n_trail := at_ Trailing;
     n_lines := of_token 0 token_lines (first_token t);
     n_newline := of_token false token_newline (first_token t);
     n_direct := of_token false comments_after (last_token t)
                 || of_token false comments_before (first_token t);
     n_src := trimmed (syn_tokens t) |}.

(** * Nodes *)

Fixpoint leaf_tokens (cs : list syn) : option (list token) :=
  match cs with
  | [] => Some []
  | Tok x :: r => match leaf_tokens r with Some l => Some (token_of x :: l) | None => None end
  | Node _ _ :: _ => None
  end.

Definition check {A : Type} (b : bool) (x : option A) : option A := if b then x else None.
Definition sorted (s : sort) (x : option expr) : option expr :=
  match x with Some e => if sort_eqb (sort_of e) s then Some e else None | None => None end.
Notation "'do' x <- a ; b" := (match a with Some x => b | None => None end)
  (at level 200, x pattern, a at level 100, b at level 200, right associativity).

(** The line breaks before the separator after an argument. *)
Definition with_separator (x : parts) (e : expr) : expr :=
  match e with EArg n nm v _ => EArg n nm v (token_lines x) | _ => e end.
Definition call_kind_eqb (a b : call_kind) : bool :=
  match a, b with
  | KCall, KCall | KSubset, KSubset | KSubset2, KSubset2 => true
  | _, _ => false
  end.
Definition args_of_kind (k : call_kind) (e : expr) : bool :=
  match e with EArgs _ k' _ _ => call_kind_eqb k' k | _ => false end.

(** The number of tokens of a tree. *)
Definition width (t : syn) : nat := List.length (syn_tokens t).

(** The typed node at [p], before which there are [g] tokens. *)
Fixpoint typed (p : path) (g : nat) (t : syn) {struct t} : option expr :=
  match t with
  | Tok _ => None
  | Node k cs =>
    let n := note p g t in
    let child i g c s := sorted s (typed (i :: p) g c) in
    let listed s :=
      fix go (i g : nat) (l : list syn) : option (list expr) :=
        match l with
        | [] => Some []
        | x :: r =>
          do e <- sorted s (typed (i :: 1 :: p) g x);
          do es <- go (S i) (g + width x) r;
          Some (e :: es)
        end in
    let separated s :=
      fix go (i g : nat) (l : list syn) : option (list expr) :=
        match l with
        | [] => Some []
        | [x] => do e <- sorted s (typed (i :: 1 :: p) g x); Some [e]
        | x :: Tok c :: ((_ :: _) as r) =>
          check (is_tok tCOMMA c)
            (do e <- sorted s (typed (i :: 1 :: p) g x);
             do es <- go (S (S i)) (g + width x + 1) r;
             Some (with_separator c e :: es))
        | _ => None
        end in
    match form_of k, cs with
    | FoLeaf, _ :: _ => do ts <- leaf_tokens cs; Some (ELeaf n k ts)
    | FoUnary, [Tok op; a] =>
      do a' <- child 1 (g + 1) a SoExpr; Some (EUnary n (token_of op) a')
    | FoBinary, [l; Tok op; r] =>
      do l' <- child 0 g l SoExpr;
      do r' <- child 2 (g + width l + 1) r SoExpr;
      Some (EBinary n l' (token_of op) r')
    | FoExtract, [l; Tok op; r] =>
      do l' <- child 0 g l SoExpr;
      do r' <- child 2 (g + width l + 1) r SoExpr;
      Some (EExtract n l' (token_of op) r')
    | FoNamespace, [l; Tok op; r] =>
      do l' <- child 0 g l SoExpr;
      do r' <- child 2 (g + width l + 1) r SoExpr;
      Some (ENamespace n l' (token_of op) r')
    | FoFunction, [Tok kw; ps; b] =>
      do ps' <- child 1 (g + 1) ps SoParams;
      do b' <- child 2 (g + 1 + width ps) b SoExpr;
      Some (EFunction n (token_of kw) ps' b')
    | FoParams, [Tok a; Node lk l; Tok z] =>
      check (is_tok tLPAREN a && is_tok tRPAREN z && kind_eqb lk R_PARAMETER_LIST)
        (do es <- separated SoParam 0 (g + 1) l; Some (EParams n es))
    | FoParam, [a] => do a' <- child 0 g a SoExpr; Some (EParam n a' None)
    | FoParam, [a; d] =>
      do a' <- child 0 g a SoExpr;
      do d' <- child 1 (g + width a) d SoDefault;
      Some (EParam n a' (Some d'))
    | FoDefault, [Tok q; v] =>
      check (is_tok tEQUAL q) (do v' <- child 1 (g + 1) v SoExpr; Some (EDefault n v'))
    | FoIf, [Tok i; Tok a; c; Tok z; t] =>
      check (is_tok tIF i && is_tok tLPAREN a && is_tok tRPAREN z)
        (do c' <- child 2 (g + 2) c SoExpr;
         do t' <- child 4 (g + 3 + width c) t SoExpr;
         Some (EIf n c' t' None))
    | FoIf, [Tok i; Tok a; c; Tok z; t; e] =>
      check (is_tok tIF i && is_tok tLPAREN a && is_tok tRPAREN z)
        (do c' <- child 2 (g + 2) c SoExpr;
         do t' <- child 4 (g + 3 + width c) t SoExpr;
         do e' <- child 5 (g + 3 + width c + width t) e SoElse;
         Some (EIf n c' t' (Some e')))
    | FoElse, [Tok q; a] =>
      check (is_tok tELSE q)
        (do a' <- child 1 (g + 1) a SoExpr; Some (EElse n (token_newline q) a'))
    | FoFor, [Tok f; Tok a; v; Tok i; s; Tok z; b] =>
      check (is_tok tFOR f && is_tok tLPAREN a && is_tok tIN i && is_tok tRPAREN z)
        (do v' <- child 2 (g + 2) v SoExpr;
         do s' <- child 4 (g + 3 + width v) s SoExpr;
         do b' <- child 6 (g + 4 + width v + width s) b SoExpr;
         Some (EFor n v' s' b'))
    | FoWhile, [Tok w; Tok a; c; Tok z; b] =>
      check (is_tok tWHILE w && is_tok tLPAREN a && is_tok tRPAREN z)
        (do c' <- child 2 (g + 2) c SoExpr;
         do b' <- child 4 (g + 3 + width c) b SoExpr;
         Some (EWhile n c' b'))
    | FoRepeat, [Tok w; b] =>
      check (is_tok tREPEAT w) (do b' <- child 1 (g + 1) b SoExpr; Some (ERepeat n b'))
    | FoBraced, [Tok a; Node lk l; Tok z] =>
      check (is_tok tLCURLY a && is_tok tRCURLY z && kind_eqb lk R_EXPRESSION_LIST)
        (do es <- listed SoExpr 0 (g + 1) l; Some (EBraced n es))
    | FoParen, [Tok a; b; Tok z] =>
      check (is_tok tLPAREN a && is_tok tRPAREN z)
        (do b' <- child 1 (g + 1) b SoExpr; Some (EParen n b'))
    | FoCall c, [f; a] =>
      do f' <- child 0 g f SoExpr;
      do a' <- child 1 (g + width f) a SoArgs;
      check (args_of_kind c a') (Some (ECall n f' a'))
    | FoArgs c, [Tok a; Node lk l; Tok z] =>
      check (is_tok (l_token c) a && is_tok (r_token c) z && kind_eqb lk R_ARGUMENT_LIST)
        (do es <- separated SoArg 0 (g + 1) l; Some (EArgs n c (comments_before z) es))
    | FoArg, [] => Some (EArg n None None 0)
    | FoArg, [x] =>
      do x' <- typed (0 :: p) g x;
      match sort_of x' with
      | SoName => Some (EArg n (Some x') None 0)
      | SoExpr => Some (EArg n None (Some x') 0)
      | _ => None
      end
    | FoArg, [x; v] =>
      do x' <- child 0 g x SoName;
      do v' <- child 1 (g + width x) v SoExpr;
      Some (EArg n (Some x') (Some v') 0)
    | FoName, [a; Tok q] =>
      check (is_tok tEQUAL q) (do a' <- child 0 g a SoExpr; Some (ENameClause n a'))
    | _, _ => None
    end
  end.

(** The expressions of the file: list at [q], [g] tokens before it. *)
Fixpoint typed_all (q : path) (i g : nat) (l : list syn) : option (list expr) :=
  match l with
  | [] => Some []
  | x :: r =>
    do e <- sorted SoExpr (typed (i :: q) g x);
    do es <- typed_all q (S i) (g + width x) r;
    Some (e :: es)
  end.
Definition root_note (t : syn) : notes :=
  let n := note [] 0 t in
  {| n_lead := n_lead n; n_dang := n_dang n; n_trail := n_trail n; n_lines := n_lines n;
     n_newline := n_newline n; n_direct := n_direct n;
     n_src := flat_map with_trivia (syn_tokens t) |}.
Definition typed_root (t : syn) : option root :=
  match t with
  | Node k cs =>
    if kind_eqb k R_ROOT then
      match cs with
      | [Node lk l; Tok e] =>
        check (kind_eqb lk R_EXPRESSION_LIST && kind_eqb (p_kind e) EOF)
          (do es <- typed_all [0] 0 0 l;
           Some {| r_bom := None; r_notes := root_note t; r_exprs := es |})
      | [Tok b; Node lk l; Tok e] =>
        check (kind_eqb (p_kind b) UNICODE_BOM && kind_eqb lk R_EXPRESSION_LIST
               && kind_eqb (p_kind e) EOF)
          (do es <- typed_all [1] 0 1 l;
           Some {| r_bom := Some (token_of b); r_notes := root_note t; r_exprs := es |})
      | _ => None
      end
    else None
  | Tok _ => None
  end.
End Typed.

(** A file: comments are attached, then the tree is read. *)
Definition front_end (root_follows : bool) (t : syn) : option root :=
  typed_root (attached t root_follows) t.

(** A file that parses: crates/air_r_parser/src/parse.rs (ParseModel.v), then
    [format_node] (crates/air_r_formatter/src/lib.rs). *)
Definition source_root (root_follows : bool) (src : text) (t : ts) : option root :=
  match parse src false t with
  | Some (g, false) =>
    match open_green g with Some s => front_end root_follows s | None => None end
  | _ => None
  end.

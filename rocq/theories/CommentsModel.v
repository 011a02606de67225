(** Which node a comment is attached to.

    biome_formatter's [CommentsBuilderVisitor] (a dependency: transcribed from
    its published source, crates/biome_formatter/src/comments/builder.rs,
    trusted) walks the syntax tree and decorates each comment with the nodes
    around it; air's placement rules
    (crates/air_r_formatter/src/comments.rs:74-1019) choose the node. *)
From Coq Require Import List Arith Bool NArith.
From Verif Require Import Text SyntaxKind ParseModel ParseSpec FmtTree.
Import ListNotations.

(** * Syntax trees *)

(** A syntax tree whose tokens are taken apart into trivia and text
    (ParseSpec.v, [take_apart]). *)
Inductive syn := Node (k : kind) (cs : list syn) | Tok (p : parts).

Section SynInd.
  Variable P : syn -> Prop.
  Variable Hnode : forall k cs, Forall P cs -> P (Node k cs).
  Variable Htok : forall p, P (Tok p).
  Fixpoint syn_ind' (t : syn) : P t :=
    match t with
    | Node k cs => Hnode k cs
        ((fix all (l : list syn) : Forall P l :=
            match l with [] => Forall_nil P | x :: r => Forall_cons x (syn_ind' x) (all r) end) cs)
    | Tok p => Htok p
    end.
End SynInd.

(** The parser's tree (ParseModel.v), its tokens taken apart. *)
Fixpoint open_green (g : green) : option syn :=
  match g with
  | GTok t => match take_apart t with Some p => Some (Tok p) | None => None end
  | GNode k cs =>
    match (fix all (l : list green) : option (list syn) :=
             match l with
             | [] => Some []
             | x :: r =>
               match open_green x, all r with
               | Some y, Some z => Some (y :: z)
               | _, _ => None
               end
             end) cs with
    | Some ss => Some (Node k ss)
    | None => None
    end
  end.

Fixpoint syn_tokens (t : syn) : list parts :=
  match t with Node _ cs => flat_map syn_tokens cs | Tok p => [p] end.

(** air_r_syntax generated/kind.rs:194-199. *)
Definition is_list (k : kind) : bool :=
  match k with R_PARAMETER_LIST | R_ARGUMENT_LIST | R_EXPRESSION_LIST => true | _ => false end.

(** The kinds of nodes, grouped by the fields they have (xtask/codegen/r.ungram). *)
Inductive form :=
| FoLeaf | FoUnary | FoBinary | FoExtract | FoNamespace | FoFunction | FoIf | FoFor | FoWhile
| FoRepeat | FoBraced | FoParen | FoCall (b : call_kind)
| FoParams | FoParam | FoDefault | FoElse | FoArgs (b : call_kind) | FoArg | FoName | FoNone.
Definition form_of (k : kind) : form :=
  match k with
  | R_INTEGER_VALUE | R_DOUBLE_VALUE | R_COMPLEX_VALUE | R_STRING_VALUE | R_IDENTIFIER
  | R_NEXT_EXPRESSION | R_BREAK_EXPRESSION | R_TRUE_EXPRESSION | R_FALSE_EXPRESSION
  | R_NULL_EXPRESSION | R_INF_EXPRESSION | R_NAN_EXPRESSION | R_NA_EXPRESSION | R_DOTS
  | R_DOT_DOT_I => FoLeaf
  | R_UNARY_EXPRESSION => FoUnary
  | R_BINARY_EXPRESSION => FoBinary
  | R_EXTRACT_EXPRESSION => FoExtract
  | R_NAMESPACE_EXPRESSION => FoNamespace
  | R_FUNCTION_DEFINITION => FoFunction
  | R_IF_STATEMENT => FoIf
  | R_FOR_STATEMENT => FoFor
  | R_WHILE_STATEMENT => FoWhile
  | R_REPEAT_STATEMENT => FoRepeat
  | R_BRACED_EXPRESSIONS => FoBraced
  | R_PARENTHESIZED_EXPRESSION => FoParen
  | R_CALL => FoCall KCall
  | R_SUBSET => FoCall KSubset
  | R_SUBSET2 => FoCall KSubset2
  | R_PARAMETERS => FoParams
  | R_PARAMETER => FoParam
  | R_PARAMETER_DEFAULT => FoDefault
  | R_ELSE_CLAUSE => FoElse
  | R_CALL_ARGUMENTS => FoArgs KCall
  | R_SUBSET_ARGUMENTS => FoArgs KSubset
  | R_SUBSET2_ARGUMENTS => FoArgs KSubset2
  | R_ARGUMENT => FoArg
  | R_ARGUMENT_NAME_CLAUSE => FoName
  | _ => FoNone
  end.
(** r.ungram [AnyRExpression], bogus nodes aside. *)
Definition is_expression (k : kind) : bool :=
  match form_of k with
  | FoLeaf | FoUnary | FoBinary | FoExtract | FoNamespace | FoFunction | FoIf | FoFor | FoWhile
  | FoRepeat | FoBraced | FoParen | FoCall _ => true
  | _ => false
  end.

(** * Nodes by their place *)

(** A node is known by the indices of children that lead to it, innermost
    first (biome_rowan compares nodes by identity). *)
Definition path := list nat.
Fixpoint path_eqb (p q : path) : bool :=
  match p, q with
  | [], [] => true
  | i :: p', j :: q' => (i =? j) && path_eqb p' q'
  | _, _ => false
  end.
Fixpoint at_path (t : syn) (p : path) : option syn :=
  match p with
  | [] => Some t
  | i :: q => match at_path t q with Some (Node _ cs) => nth_error cs i | _ => None end
  end.

(** * Decorated comments *)

(** [DecoratedComment].  [d_own]: [CommentTextPosition::OwnLine], else
    [EndOfLine] ([SameLine] is left aside: a comment of R ends its line, and
    where no newline follows, at the end of the file, both are placed alike).
    [d_next]: the kind of the following token.  [d_gap]: the number of tokens
    before the comment. *)
Record decorated := {
  d_text : text;
  d_before : nat;
  d_after : nat;
  d_own : bool;
  d_gap : nat;
  d_enclosing : path;
  d_preceding : option path;
  d_following : option path;
  d_next : option kind
}.

Inductive how := Leading | Dangling | Trailing.
(** A comment attached to a node. *)
Record placement := { pt_how : how; pt_path : path; pt_comment : decorated }.

Definition tkind_eqb (a b : tkind) : bool :=
  match a, b with
  | Whitespace, Whitespace | Newline, Newline | Comment, Comment => true
  | _, _ => false
  end.

(** The line breaks up to the next comment or the end. *)
Fixpoint lines_to_comment (ps : list (tkind * text)) : nat :=
  match ps with
  | [] => 0
  | (Comment, _) :: _ => 0
  | (Newline, _) :: r => S (lines_to_comment r)
  | (Whitespace, _) :: r => lines_to_comment r
  end.
(** builder.rs, the loops over trivia in [visit_token]: the comments among the
    trivia between two tokens. *)
Fixpoint decorate (gap : nat) (encl : path) (prec : option path) (next : option kind)
    (own : bool) (lines : nat) (ps : list (tkind * text)) : list decorated :=
  match ps with
  | [] => []
  | (Newline, _) :: r => decorate gap encl prec next true (S lines) r
  | (Whitespace, _) :: r => decorate gap encl prec next own lines r
  | (Comment, x) :: r =>
    {| d_text := x; d_before := lines; d_after := lines_to_comment r; d_own := own; d_gap := gap;
       d_enclosing := encl; d_preceding := prec; d_following := None; d_next := next |}
    :: decorate gap encl prec next own 0 r
  end.

Definition with_following (f : option path) (d : decorated) : decorated :=
  {| d_text := d_text d; d_before := d_before d; d_after := d_after d; d_own := d_own d;
     d_gap := d_gap d; d_enclosing := d_enclosing d; d_preceding := d_preceding d;
     d_following := f; d_next := d_next d |}.

(** * Placement *)

Section Placement.
(** The root node. *)
Variable root : syn.

(** [SyntaxNode::kind]. *)
Definition node_kind (p : path) : option kind :=
  match at_path root p with Some (Node k _) => Some k | _ => None end.
Definition is_kind (k : kind) (p : path) : bool :=
  match node_kind p with Some k' => kind_eqb k' k | None => false end.
(** A field holding an expression ([AnyRExpression::cast]): the [i]th child. *)
Definition expression_field (i : nat) (p : path) : option path :=
  match node_kind (i :: p) with
  | Some k => if is_expression k then Some (i :: p) else None
  | None => None
  end.
Definition field_of_kind (k : kind) (i : nat) (p : path) : option path :=
  if is_kind k (i :: p) then Some (i :: p) else None.

Definition is_path (p : path) (q : option path) : bool :=
  match q with Some q => path_eqb p q | None => false end.
Definition is_next (k : kind) (q : option kind) : bool :=
  match q with Some k' => kind_eqb k' k | None => false end.

(** [CommentPlacement]; [None] is [Default]. *)
Definition choice := option (how * path).
Definition or_else (a b : choice) : choice := match a with Some _ => a | None => b end.

(** [RExpressionList::first] of the expressions of a braced node (an element
    that is no expression, which no parse has, panics there). *)
Definition first_expression (b : path) : option path :=
  if is_kind R_EXPRESSION_LIST (1 :: b) then expression_field 0 (1 :: b) else None.
(** comments.rs:1008-1019, [place_leading_or_dangling_body_comment]. *)
Definition place_body (b : path) : how * path :=
  if is_kind R_BRACED_EXPRESSIONS b then
    match first_expression b with
    | Some f => (Leading, f)
    | None => (Dangling, b)
    end
  else (Leading, b).
(** comments.rs:655-666, [place_leading_or_dangling_alternative_comment]. *)
Definition place_alternative (a : path) : choice :=
  if is_kind R_IF_STATEMENT a then
    match expression_field 4 a with
    | Some t => Some (place_body t)
    | None => None
    end
  else Some (place_body a).

(** comments.rs:107-203, [handle_for_comment]. *)
Definition handle_for (d : decorated) : choice :=
  let e := d_enclosing d in
  if is_kind R_FOR_STATEMENT e then
    match expression_field 6 e with
    | Some b =>
      if is_path b (d_following d) && match d_next d with
                                      | Some k => negb (kind_eqb k R_PAREN)
                                      | None => false
                                      end
      then Some (place_body b)
      else Some (Leading, e)
    | None => Some (Leading, e)
    end
  else None.
(** comments.rs:205-289, [handle_while_comment]. *)
Definition handle_while (d : decorated) : choice :=
  let e := d_enclosing d in
  if is_kind R_WHILE_STATEMENT e then
    match expression_field 4 e with
    | Some b =>
      if is_path b (d_following d) && match d_next d with
                                      | Some k => negb (kind_eqb k R_PAREN)
                                      | None => false
                                      end
      then Some (place_body b)
      else Some (Leading, e)
    | None => Some (Leading, e)
    end
  else None.
(** comments.rs:291-342, [handle_repeat_comment]. *)
Definition handle_repeat (d : decorated) : choice :=
  let e := d_enclosing d in
  if is_kind R_REPEAT_STATEMENT e then
    match expression_field 1 e with
    | Some b => Some (place_body b)
    | None => Some (Leading, e)
    end
  else None.
(** comments.rs:344-400, [handle_function_comment]. *)
Definition handle_function (d : decorated) : choice :=
  let e := d_enclosing d in
  if is_kind R_FUNCTION_DEFINITION e then
    if match field_of_kind R_PARAMETERS 1 e with
       | Some ps => is_path ps (d_following d)
       | None => false
       end
    then Some (Leading, e)
    else
      match expression_field 2 e with
      | Some b => if is_path b (d_following d) then Some (place_body b) else None
      | None => None
      end
  else None.
(** comments.rs:402-596, [handle_if_statement_comment]. *)
Definition handle_if (d : decorated) : choice :=
  let e := d_enclosing d in
  if is_kind R_IF_STATEMENT e then
    match expression_field 2 e, expression_field 4 e with
    | Some c, Some t =>
      if is_path c (d_preceding d) && is_next R_PAREN (d_next d) then Some (Trailing, c)
      else if is_path t (d_following d) then Some (place_body t)
      else
        match field_of_kind R_ELSE_CLAUSE 5 e with
        | Some el =>
          match expression_field 1 el with
          | Some a =>
            if is_path el (d_following d) then
              if d_own d then place_alternative a else Some (place_body t)
            else None
          | None => None
          end
        | None => None
        end
    | _, _ => None
    end
  else None.
(** comments.rs:598-639, [handle_else_clause_comment]. *)
Definition handle_else (d : decorated) : choice :=
  let e := d_enclosing d in
  if is_kind R_ELSE_CLAUSE e then
    match expression_field 1 e with
    | Some a => if is_path a (d_following d) then place_alternative a else None
    | None => None
    end
  else None.
(** comments.rs:668-709, [handle_parenthesized_expression_comment]. *)
Definition handle_paren (d : decorated) : choice :=
  let e := d_enclosing d in
  if is_kind R_PARENTHESIZED_EXPRESSION e then
    match expression_field 1 e with
    | Some b =>
      if is_path b (d_following d) then Some (Leading, b)
      else if is_path b (d_preceding d) then Some (Trailing, b)
      else None
    | None => None
    end
  else None.
(** r.ungram [AnyRArgumentName]. *)
Definition is_argument_name (k : kind) : bool :=
  match k with
  | R_IDENTIFIER | R_STRING_VALUE | R_DOTS | R_DOT_DOT_I | R_NULL_EXPRESSION => true
  | _ => false
  end.
(** comments.rs:711-741, [handle_argument_name_clause_comment]. *)
Definition handle_name_clause (d : decorated) : choice :=
  let e := d_enclosing d in
  if is_kind R_ARGUMENT_NAME_CLAUSE e then
    match node_kind (0 :: e) with
    | Some k =>
      if is_argument_name k && is_path (0 :: e) (d_preceding d) then Some (Leading, 0 :: e) else None
    | None => None
    end
  else None.
(** comments.rs:743-781, [handle_argument_comment]. *)
Definition handle_argument (d : decorated) : choice :=
  let e := d_enclosing d in
  if is_kind R_ARGUMENT e then
    match field_of_kind R_ARGUMENT_NAME_CLAUSE 0 e with
    | Some c => if is_path c (d_preceding d) then Some (Leading, c) else None
    | None => None
    end
  else None.

(** air_r_syntax argument_ext.rs:16-18, [is_hole], of an argument. *)
Definition is_hole_at (p : path) : bool :=
  match at_path root p with Some (Node _ []) => true | _ => false end.
Definition argument_node (p : path) : bool := is_kind R_ARGUMENT p.
(** [SyntaxNode::prev_sibling]: the node before it among its siblings. *)
Fixpoint prev_index (i : nat) (cs : list syn) (j : nat) (found : option nat) : option nat :=
  match i, cs with
  | S i', Node _ _ :: r => prev_index i' r (S j) (Some j)
  | S i', Tok _ :: r => prev_index i' r (S j) found
  | _, _ => found
  end.
Definition prev_sibling (p : path) : option path :=
  match p with
  | [] => None
  | i :: q =>
    match at_path root q with
    | Some (Node _ cs) =>
      match prev_index i cs 0 None with Some j => Some (j :: q) | None => None end
    | _ => None
    end
  end.
Definition closes_hole (k : option kind) : bool :=
  is_next COMMA k || is_next R_PAREN k || is_next R_BRACK k || is_next R_BRACK2 k.
Definition whole_argument (p : option path) : option path :=
  match p with
  | Some q => if argument_node q && negb (is_hole_at q) then Some q else None
  | None => None
  end.
(** comments.rs:914-959, [handle_hole_argument_comment]. *)
Definition handle_hole (d : decorated) : choice :=
  match d_preceding d with
  | Some h =>
    if argument_node h && is_hole_at h then
      if closes_hole (d_next d) then
        match whole_argument (prev_sibling h) with
        | Some q => Some (Trailing, q)
        | None => Some (Leading, h)
        end
      else
        match whole_argument (d_following d) with
        | Some q => Some (Leading, q)
        | None => Some (Leading, h)
        end
    else None
  | None => None
  end.

(** comments.rs:74-104, [place_comment]. *)
Definition place_comment (d : decorated) : choice :=
  or_else (handle_for d) (or_else (handle_function d) (or_else (handle_while d)
  (or_else (handle_repeat d) (or_else (handle_if d) (or_else (handle_else d)
  (or_else (handle_paren d) (or_else (handle_name_clause d) (or_else (handle_argument d)
  (handle_hole d))))))))).

(** builder.rs, [add_comment]: the default for what [place_comment] leaves. *)
Definition default_place (d : decorated) : how * path :=
  if d_own d then
    match d_following d, d_preceding d with
    | Some f, _ => (Leading, f)
    | None, Some p => (Trailing, p)
    | None, None => (Dangling, d_enclosing d)
    end
  else
    match d_preceding d, d_following d with
    | Some p, _ => (Trailing, p)
    | None, Some f => (Leading, f)
    | None, None => (Dangling, d_enclosing d)
    end.
Definition add_comment (d : decorated) : placement :=
  let '(h, p) := match place_comment d with Some x => x | None => default_place d end in
  {| pt_how := h; pt_path := p; pt_comment := d |}.

(** * The walk *)

(** [CommentsBuilderVisitor].  [v_parents]: outermost first.  [v_last]: the
    trailing trivia of the last token.  [v_count]: the tokens seen. *)
Record visitor := {
  v_pending : list decorated;
  v_placed : list placement;
  v_preceding : option path;
  v_following : option nat;
  v_parents : list path;
  v_last : option (list (tkind * text));
  v_count : nat
}.
Definition new_visitor : visitor :=
  {| v_pending := []; v_placed := []; v_preceding := None; v_following := None; v_parents := [];
     v_last := None; v_count := 0 |}.

(** [flush_comments]. *)
Definition flush (f : option path) (v : visitor) : visitor :=
  {| v_pending := [];
     v_placed := v_placed v ++ map (fun d => add_comment (with_following f d)) (v_pending v);
     v_preceding := v_preceding v; v_following := v_following v; v_parents := v_parents v;
     v_last := v_last v; v_count := v_count v |}.
Definition set_following (f : option nat) (v : visitor) : visitor :=
  {| v_pending := v_pending v; v_placed := v_placed v; v_preceding := v_preceding v;
     v_following := f; v_parents := v_parents v; v_last := v_last v; v_count := v_count v |}.
Definition set_parents (ps : list path) (v : visitor) : visitor :=
  {| v_pending := v_pending v; v_placed := v_placed v; v_preceding := v_preceding v;
     v_following := v_following v; v_parents := ps; v_last := v_last v; v_count := v_count v |}.
Definition set_preceding (p : option path) (v : visitor) : visitor :=
  {| v_pending := v_pending v; v_placed := v_placed v; v_preceding := p;
     v_following := v_following v; v_parents := v_parents v; v_last := v_last v;
     v_count := v_count v |}.

(** [visit_node], entering a node that is no list. *)
Definition enter (p : path) (v : visitor) : visitor :=
  let v' :=
    match v_following v with
    | None | Some 0 => set_following (Some (List.length (v_parents v))) (flush (Some p) v)
    | Some _ => v
    end in
  set_parents (v_parents v' ++ [p]) v'.
(** [visit_node], leaving it. *)
Definition leave (p : path) (v : visitor) : visitor :=
  set_preceding (Some p)
    (flush None (set_following None (set_parents (removelast (v_parents v)) v))).

(** [enclosing_node]; the root if nothing is open. *)
Definition enclosing (v : visitor) : path :=
  match v_following v with
  | None => last (v_parents v) []
  | Some 0 => []
  | Some (S i) => nth i (v_parents v) []
  end.

(** Whether the root counts as the node that follows the comments before the
    first token of a file without expressions. *)
Variable root_follows : bool.

(** [visit_token]. *)
Definition visit_token (x : parts) (v : visitor) : visitor :=
  let gap := match v_last v with Some ps => ps | None => [] end ++ p_leading x in
  let own := match v_last v with Some _ => false | None => true end in
  let cs := decorate (v_count v) (enclosing v) (v_preceding v) (Some (p_kind x)) own 0 gap in
  let v1 := {| v_pending := v_pending v ++ cs; v_placed := v_placed v;
               v_preceding := v_preceding v; v_following := v_following v;
               v_parents := v_parents v; v_last := Some (p_trailing x);
               v_count := S (v_count v) |} in
  match v_following v with
  | None => v1
  | Some i =>
    let f := match i with
             | 0 => if root_follows then Some [] else None
             | _ => nth_error (v_parents v) i
             end in
    set_preceding None (set_following None (flush f v1))
  end.

(** [visit]: the tree in preorder, lists passed over. *)
Fixpoint visit (p : path) (t : syn) (v : visitor) {struct t} : visitor :=
  match t with
  | Tok x => visit_token x v
  | Node k cs =>
    let children :=
      (fix go (i : nat) (l : list syn) (v : visitor) : visitor :=
         match l with
         | [] => v
         | c :: r => go (S i) r (visit (i :: p) c v)
         end) 0 cs in
    if is_list k then children v else leave p (children (enter p v))
  end.

(** The end of [visit]: the comments after the last token. *)
Definition finish (v : visitor) : list placement :=
  let gap := match v_last v with Some ps => ps | None => [] end in
  let cs := decorate (v_count v) [] (v_preceding v) None false 0 gap in
  v_placed v ++ map (fun d => add_comment d) cs.
Definition attached : list placement := finish (visit [] root new_visitor).
End Placement.

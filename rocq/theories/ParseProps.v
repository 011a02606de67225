(** * Properties of the parser: C34, C35, C36.

    Hypotheses on tree-sitter's tree [t] of the text [src]: [gram_root t] (it has
    the form its grammar gives it), [ts_end t = blen src] and
    [laid 0 (leaves t) src] (its leaves lie in the text in order, between them
    only white space, semicolons and newlines, comments end with their line).
    See ParseSpec.v. *)

From Coq Require Import NArith List Bool Arith String.
From Verif Require Import Text TextFacts SyntaxKind ParseModel ParseSpec ParseProofs ParseTree.
Import ListNotations.

(** ** C34: parsing loses no character of the source *)

Theorem c34_parse_lossless : forall src t, well_parsed src t ->
  exists g, parse src false t = Some (g, false) /\ tree_text g = src.
Proof. exact parse_lossless_holds. Qed.
Print Assumptions c34_parse_lossless.

(** Every token of the source is a token of the tree, with its kind, its text
    and its place; what surrounds it is non-empty pieces of white space,
    newlines and comments, and the pieces and tokens together are the source. *)
Theorem c34_tokens_and_trivia : forall src t g, well_parsed src t ->
  parse src false t = Some (g, false) ->
  exists ps,
    map take_apart (tokens g) = map Some ps /\
    flat_map parts_text ps = src /\
    own_ranges 0 ps = token_leaves (leaves t) ++ [(EOF, blen src, blen src)] /\
    Forall2 (fun p x => slice (snd (fst x)) (snd x) src = Some (p_own p)) ps (own_ranges 0 ps) /\
    Forall (fun p => forallb piece_ok (p_leading p) = true /\
                     forallb piece_ok (p_trailing p) = true) ps.
Proof. exact tokens_and_trivia_holds. Qed.
Print Assumptions c34_tokens_and_trivia.

(** Every comment is attached to exactly one token: the comments among the
    trivia are, in order, the comments of the source. *)
Theorem c34_comments_kept : forall src t g ps, well_parsed src t ->
  parse src false t = Some (g, false) -> map take_apart (tokens g) = map Some ps ->
  map fst (placed_comments (placed_trivia 0 ps))
  = flat_map (fun l => match l with LCom s e => [(s, e)] | LTok _ _ _ => [] end) (leaves t).
Proof. exact comments_kept_holds. Qed.
Print Assumptions c34_comments_kept.

(** The tree has the structure of tree-sitter's tree as [shapes] describes it. *)
Theorem c34_structure : forall src t g, well_parsed src t ->
  parse src false t = Some (g, false) ->
  fst (shape_of 0 g)
  = SNode R_ROOT [SNode R_EXPRESSION_LIST (flat_map shapes (ts_children t));
                  STok EOF (blen src) (blen src)].
Proof. exact structure_holds. Qed.
Print Assumptions c34_structure.

(** A text with a syntax error becomes one bogus token holding all of it. *)
Theorem c34_error_lossless : forall src t,
  exists g, parse src true t = Some (g, true) /\ tree_text g = src /\
            map take_apart (tokens g)
            = [Some {| p_kind := R_BOGUS; p_leading := []; p_own := src; p_trailing := [] |};
               Some {| p_kind := EOF; p_leading := []; p_own := []; p_trailing := [] |}].
Proof. exact error_lossless_holds. Qed.
Print Assumptions c34_error_lossless.

(** [f(x, # c], [)], [# d], [y <- 2L # e] on four lines. *)
Definition ex_src := $"f(x, # c" ++ [LF] ++ $")" ++ [LF] ++ $"# d" ++ [LF] ++ $"y <- 2L # e".
Definition ex_tk k s e := TS k F_other s e [].
Definition ex_tree := TS R_ROOT F_other 0 26 [
  TS R_CALL F_other 0 10 [
    ex_tk R_IDENTIFIER 0 1;
    TS R_UNMAPPED F_arguments 1 10
      [ex_tk L_PAREN 1 2; TS R_ARGUMENT F_other 2 3 [ex_tk R_IDENTIFIER 2 3]; ex_tk COMMA 3 4;
       ex_tk COMMENT 5 8; ex_tk R_PAREN 9 10]];
  ex_tk COMMENT 11 14;
  TS R_BINARY_EXPRESSION F_other 15 22
    [ex_tk R_IDENTIFIER 15 16; ex_tk ASSIGN 17 19; TS R_INTEGER_VALUE F_other 20 22 [ex_tk R_UNMAPPED 21 22]];
  ex_tk COMMENT 23 26].

Example c34_example :
  well_parsed ex_src ex_tree /\
  match parse ex_src false ex_tree with
  | Some (g, false) => List.length (tokens g) = 9 /\ tree_text g = ex_src
  | _ => False
  end.
Proof. vm_compute; repeat split. Qed.

(** Not every gap is covered: a no-break space before a token on a new line is
    no trivia the walker knows, and parsing panics. *)
Theorem c34_foreign_gap_refuted :
  exists src t, gram_root t = true /\ ts_end t = blen src /\
    token_leaves (leaves t) = [(IDENT, 0, 1); (IDENT, 4, 5)] /\
    src = $"x" ++ [LF; 160%N] ++ $"y" /\
    parse src false t = None.
Proof.
  exists ($"x" ++ [LF; 160%N] ++ $"y").
  exists (TS R_ROOT F_other 0 5 [ex_tk R_IDENTIFIER 0 1; ex_tk R_IDENTIFIER 4 5]).
  vm_compute; repeat split.
Qed.
Print Assumptions c34_foreign_gap_refuted.

(** ** C35: trailing trivia stay on their line *)

Theorem c35_trailing_on_line : forall src t g ps, well_parsed src t ->
  parse src false t = Some (g, false) -> map take_apart (tokens g) = map Some ps ->
  Forall (fun p => no_lf (pieces_text (p_trailing p)) = true) ps.
Proof. exact trailing_on_line_holds. Qed.
Print Assumptions c35_trailing_on_line.

(** A comment trails the token before it iff no line feed is between them. *)
Theorem c35_comment_placement : forall src t g ps, well_parsed src t ->
  parse src false t = Some (g, false) -> map take_apart (tokens g) = map Some ps ->
  placed_comments (placed_trivia 0 ps) = comment_places src None (leaves t).
Proof. exact comment_placement_holds. Qed.
Print Assumptions c35_comment_placement.

Example c35_example :
  tree_comments (parse ex_src false ex_tree)
  = Some [(5, 8, true); (11, 14, false); (23, 26, true)].
Proof. vm_compute. reflexivity. Qed.

(** A lone carriage return is a line ending elsewhere in the walker, but a
    comment on its own line after one counts as trailing. *)
Theorem c35_lone_cr_refuted :
  exists src t, well_parsed src t /\
    src = $"x" ++ [CR] ++ $"# c" /\
    tree_comments (parse src false t) = Some [(2, 5, true)].
Proof.
  exists ($"x" ++ [CR] ++ $"# c").
  exists (TS R_ROOT F_other 0 5 [ex_tk R_IDENTIFIER 0 1; ex_tk COMMENT 2 5]).
  vm_compute; repeat split.
Qed.
Print Assumptions c35_lone_cr_refuted.

(** ** C36: argument lists keep their shape *)

(** Where the list stands in the tree of a call. *)
Theorem c36_call_structure : forall k ak f s e pre post f' s' e' o m c,
  class_of k = C_call ak ->
  shapes (TS k f s e (pre ++ TS f' F_arguments s' e' (o :: m ++ [c]) :: post))
  = [SNode k (flat_map (call_child ak) pre
              ++ SNode ak (shapes o ++ SNode R_ARGUMENT_LIST (argument_list (items m)) :: shapes c)
              :: flat_map (call_child ak) post)].
Proof. exact call_structure_holds. Qed.
Print Assumptions c36_call_structure.

(** With commas: arguments and commas alternate, there is one argument per
    slot, and it is a hole exactly if the slot has no argument. *)
Theorem c36_slots : forall m, argument_items m -> count_kind COMMA m <> 0 ->
  alternating (argument_list (items m)) /\
  map (fun a => negb (is_hole a)) (filter is_argument_shape (argument_list (items m))) = filled false m /\
  List.length (filter is_argument_shape (argument_list (items m))) = S (count_kind COMMA m).
Proof. exact slots_holds. Qed.
Print Assumptions c36_slots.

(** Without commas: the one argument, or nothing. *)
Theorem c36_no_comma : forall m, argument_items m -> count_kind COMMA m = 0 ->
  argument_list (items m) = flat_map shapes (filter (fun c => kind_eqb (ts_kind c) R_ARGUMENT) m) /\
  List.length (argument_list (items m)) <= 1.
Proof. exact no_comma_holds. Qed.
Print Assumptions c36_no_comma.

(** The arguments that are not holes are the source's arguments, in order. *)
Theorem c36_arguments_in_order : forall m, argument_items m ->
  filter (fun a => is_argument_shape a && negb (is_hole a)) (argument_list (items m))
  = flat_map shapes (filter (fun c => kind_eqb (ts_kind c) R_ARGUMENT) m).
Proof. exact arguments_in_order_holds. Qed.
Print Assumptions c36_arguments_in_order.

(** A named argument: name and [=] form the clause, the rest is the value. *)
Theorem c36_named_argument : forall f s e a nm b eq post,
  forallb (fun c => negb (is_name c)) a = true ->
  is_name nm = true -> ts_kind nm <> EQUAL ->
  forallb (fun c => negb (kind_eqb (ts_kind c) EQUAL)) b = true -> ts_kind eq = EQUAL ->
  shapes (TS R_ARGUMENT f s e (a ++ nm :: b ++ eq :: post))
  = [SNode R_ARGUMENT
       (flat_map shapes a
        ++ SNode R_ARGUMENT_NAME_CLAUSE (flat_map shapes (nm :: b ++ [eq]))
        :: flat_map shapes post)].
Proof. exact named_argument. Qed.
Print Assumptions c36_named_argument.

(** [, x, # c \n , ]: four slots, the second filled. *)
Example c36_example :
  let m := [ex_tk COMMA 1 2; TS R_ARGUMENT F_other 3 4 [ex_tk R_IDENTIFIER 3 4];
            ex_tk COMMA 4 5; ex_tk COMMENT 6 9; ex_tk COMMA 10 11] in
  argument_items m /\ filled false m = [false; true; false; false] /\
  argument_list (items m)
  = [SNode R_ARGUMENT []; STok COMMA 1 2; SNode R_ARGUMENT [SNode R_IDENTIFIER [STok IDENT 3 4]];
     STok COMMA 4 5; SNode R_ARGUMENT []; STok COMMA 10 11; SNode R_ARGUMENT []].
Proof.
  split; [|split; reflexivity]. split; [|reflexivity].
  repeat constructor; intro H; discriminate H.
Qed.

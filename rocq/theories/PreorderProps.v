(** * Properties of the loops with which the parser goes over tree-sitter's tree:
    C56, C57. *)
From Coq Require Import NArith List Bool Arith String.
From Verif Require Import Text SyntaxKind ParseModel ParseSpec FactorySpec
  PreorderModel PreorderSpec PreorderProofs NamesSpec NamesProofs.
Import ListNotations.

(** ** C56: the loops end and go over each node once *)

(** For any tree, whether it conforms to the grammar or not, the main loop comes
    to an end or to a panic, and its events and trivia are those of the recursion
    over the tree with which the other theorems are stated. *)
Theorem c56_walk_is_recursion : forall src t,
  comes_to (walk_tree t src) (result (walk src (conv t) new_walker)).
Proof. exact walk_tree_walks. Qed.
Print Assumptions c56_walk_is_recursion.

Theorem c56_parse_is_recursion : forall src has_error t,
  comes_to (fun n => parse_tree n src has_error t) (result (parse src has_error (conv t))).
Proof. exact parse_tree_parses. Qed.
Print Assumptions c56_parse_is_recursion.

(** So C34 to C55, which are about [parse], are about the loops; for instance: *)
Theorem c56_lossless : forall src t, well_parsed src (conv t) ->
  exists g, comes_to (fun n => parse_tree n src false t) (Ok (g, false)) /\ tree_text g = src.
Proof. exact lossless. Qed.
Print Assumptions c56_lossless.

(** ** C57: tokens have the kind of their text *)

(** Every token of the syntax tree whose kind stands for one text has that text;
    the others are names, numbers, strings, special operators and the end. *)
Theorem c57_tokens_named : forall src t g, well_parsed src (conv t) -> called src t ->
  comes_to (fun n => parse_tree n src false t) (Ok (g, false)) ->
  exists ps, map take_apart (tokens g) = map Some ps /\ flat_map parts_text ps = src /\
  Forall (fun p => match fixed_text (p_kind p) with
                   | Some x => p_own p = x
                   | None => In (p_kind p) varying
                   end) ps.
Proof. exact tokens_named. Qed.
Print Assumptions c57_tokens_named.

(** No two kinds stand for the same text. *)
Theorem c57_kind_of_text : forall k k' x, fixed_text k = Some x -> fixed_text k' = Some x -> k = k'.
Proof. exact fixed_text_injective. Qed.
Print Assumptions c57_kind_of_text.

(** The parser knows each of these tokens by the name of its node, and all rules
    whose nodes it meets. *)
Theorem c57_every_text_known : forall k x f s e, fixed_text k = Some x ->
  leaves (conv (NTS (node_name x) f s e [])) = [LTok k s e].
Proof. exact every_text_known. Qed.
Print Assumptions c57_every_text_known.

Theorem c57_every_rule_known : forall name, In name (map fst rules) ->
  name <> $"arguments" -> name <> $"escape_sequence" -> node_syntax_kind name <> None.
Proof. exact every_rule_known. Qed.
Print Assumptions c57_every_rule_known.

(** What C38, C39 and C52 to C55 suppose of the spelling of tokens. *)
Theorem c57_spelled : forall src t, called src t -> spelled src (conv t).
Proof. exact spelled_called. Qed.
Print Assumptions c57_spelled.

(** [f(a = 1L, ) -> x # c], then [if (TRUE) NA else "\n"]: an argument with a name,
    a hole, a number and a string whose subtrees are skipped, a comment. *)
Definition walk_src := $"f(a = 1L, ) -> x # c" ++ [LF] ++ $"if (TRUE) NA else ""\n""".
Definition tkn (name : text) (s e : nat) := NTS name None s e [].
Definition walk_example_tree := NTS $"program" None 0 43 [
  NTS $"binary_operator" None 0 16 [
    NTS $"call" (Some $"lhs") 0 11 [
      NTS $"identifier" (Some $"function") 0 1 [];
      NTS $"arguments" (Some $"arguments") 1 11 [
        NTS $"(" (Some $"open") 1 2 [];
        NTS $"argument" (Some $"argument") 2 8 [
          NTS $"identifier" (Some $"name") 2 3 []; tkn $"=" 4 5;
          NTS $"integer" (Some $"value") 6 8 [tkn $"L" 7 8]];
        tkn $"comma" 8 9;
        NTS $")" (Some $"close") 10 11 []]];
    NTS $"->" (Some $"operator") 12 14 [];
    NTS $"identifier" (Some $"rhs") 15 16 []];
  tkn $"comment" 17 20;
  NTS $"if_statement" None 21 43 [
    tkn $"if" 21 23; NTS $"(" (Some $"open") 24 25 []; NTS $"true" (Some $"condition") 25 29 [];
    NTS $")" (Some $"close") 29 30 []; NTS $"na" (Some $"consequence") 31 33 [tkn $"NA" 31 33];
    tkn $"else" 34 38;
    NTS $"string" (Some $"alternative") 39 43 [
      tkn $"string_open" 39 40;
      NTS $"string_content" None 40 42 [tkn $"escape_sequence" 40 42];
      tkn $"string_close" 42 43]]].

Example c56_example :
  well_parsed walk_src (conv walk_example_tree) /\ called walk_src walk_example_tree /\
  parse_tree 5 walk_src false walk_example_tree = Fuel /\
  match parse_tree 100 walk_src false walk_example_tree with
  | Ok (g, false) =>
    tree_text g = walk_src /\
    map tk_kind (tokens g) =
      [ IDENT; L_PAREN; IDENT; EQUAL; R_INTEGER_LITERAL; COMMA; R_PAREN; ASSIGN_RIGHT; IDENT;
        IF_KW; L_PAREN; TRUE_KW; R_PAREN; NA_LOGICAL_KW; ELSE_KW; STRING_OPEN; STRING_CONTENT;
        STRING_CLOSE; EOF ]
  | _ => False
  end /\
  (* a node the parser does not know is a panic, but not inside a number *)
  parse_tree 100 $"x" false (NTS $"program" None 0 1 [tkn $"ERROR" 0 1]) = Panic.
Proof.
  split; [vm_compute; repeat split|]. split.
  - unfold called. cbn [nodes_of walk_example_tree flat_map app tkn].
    repeat (apply Forall_cons; [intros x E; vm_compute in E; try discriminate E; injection E as <-; vm_compute; reflexivity|]).
    apply Forall_nil.
  - vm_compute. repeat split.
Qed.

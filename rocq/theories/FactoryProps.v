(** Properties of the syntax tree: C51 (a file that parses has no bogus and no
    incomplete node) and C50 (a file that parses is formatted, without a
    panic). *)
From Coq Require Import List Arith Bool NArith Lia String.
From Verif Require Import Text LineEndingModel SettingsModel SyntaxKind DirectiveModel ParseModel
  ParseSpec ParseTree ParseProps FmtTree IrModel TableModel FmtModel FmtSpec FmtTableSpec FmtLayout
  FmtProps CommentsModel CommentsSpec AstModel FrontProofs TotalSpec TotalProofs TotalProps
  FactoryModel FactorySpec FactoryProofs FactoryTyped.
Import ListNotations.

(** * C51 *)

(** The tree of a file that parses obeys r.ungram everywhere, and the factory
    leaves it as it is. *)
Theorem c51_complete src t : well_parsed src t -> conforms t = true ->
  exists g, parse src false t = Some (g, false) /\ complete (skel_of g) = true /\
            rebuilt g = Some g.
Proof. exact (parsed_kept src t). Qed.
Print Assumptions c51_complete.

(** Whatever the tree, the factory loses no token. *)
Theorem c51_tokens_kept g g' : rebuilt g = Some g' -> tokens g' = tokens g.
Proof. exact (rebuilt_tokens g g'). Qed.
Print Assumptions c51_tokens_kept.

(** All that the factory changes, it marks as bogus. *)
Theorem c51_marked g g' : rebuilt g = Some g' -> any_node is_bogus g' = false -> g' = g.
Proof. exact (rebuilt_same g g'). Qed.
Print Assumptions c51_marked.

(** [if (a) f(x = 1, , "b") else \(p, q = 2) { x[[i]]$y; -NA }  # c]. *)
Definition all_src :=
  $"if (a) f(x = 1, , ""b"") else \(p, q = 2) { x[[i]]$y; -NA } # c".
Definition all_tree := TS R_ROOT F_other 0 61 [
  TS R_IF_STATEMENT F_other 0 57 [
    ex_tk IF_KW 0 2; ex_tk L_PAREN 3 4; ex_tk R_IDENTIFIER 4 5; ex_tk R_PAREN 5 6;
    TS R_CALL F_other 7 22 [
      ex_tk R_IDENTIFIER 7 8;
      TS R_UNMAPPED F_arguments 8 22 [
        ex_tk L_PAREN 8 9;
        TS R_ARGUMENT F_other 9 14 [
          TS R_IDENTIFIER F_name 9 10 []; ex_tk EQUAL 11 12; ex_tk R_DOUBLE_VALUE 13 14];
        ex_tk COMMA 14 15; ex_tk COMMA 16 17;
        TS R_ARGUMENT F_other 18 21 [
          TS R_STRING_VALUE F_other 18 21 [
            ex_tk STRING_OPEN 18 19; ex_tk STRING_CONTENT 19 20; ex_tk STRING_CLOSE 20 21]];
        ex_tk R_PAREN 21 22]];
    ex_tk ELSE_KW 23 27;
    TS R_FUNCTION_DEFINITION F_other 28 57 [
      ex_tk BACKSLASH 28 29;
      TS R_PARAMETERS F_other 29 39 [
        ex_tk L_PAREN 29 30;
        TS R_PARAMETER F_other 30 31 [ex_tk R_IDENTIFIER 30 31];
        ex_tk COMMA 31 32;
        TS R_PARAMETER F_other 33 38 [
          ex_tk R_IDENTIFIER 33 34; ex_tk EQUAL 35 36; ex_tk R_DOUBLE_VALUE 37 38];
        ex_tk R_PAREN 38 39];
      TS R_BRACED_EXPRESSIONS F_other 40 57 [
        ex_tk L_CURLY 40 41;
        TS R_EXTRACT_EXPRESSION F_other 42 50 [
          TS R_SUBSET2 F_other 42 48 [
            ex_tk R_IDENTIFIER 42 43;
            TS R_UNMAPPED F_arguments 43 48 [
              ex_tk L_BRACK2 43 45; TS R_ARGUMENT F_other 45 46 [ex_tk R_IDENTIFIER 45 46];
              ex_tk R_BRACK2 46 48]];
          ex_tk DOLLAR 48 49; ex_tk R_IDENTIFIER 49 50];
        TS R_UNARY_EXPRESSION F_other 52 55 [
          ex_tk MINUS 52 53; TS R_NA_EXPRESSION F_other 53 55 [ex_tk NA_LOGICAL_KW 53 55]];
        ex_tk R_CURLY 56 57]]];
  ex_tk COMMENT 58 61].
Example c51_example : well_parsed all_src all_tree /\ conforms all_tree = true.
Proof. vm_compute. repeat split. Qed.

(** Outside the grammar: R reads [x$(y)], but r.ungram has no parentheses after
    [$].  Were tree-sitter-r to accept it, the factory would make the node bogus
    and keep its tokens. *)
Definition odd_tree := TS R_ROOT F_other 0 5 [
  TS R_EXTRACT_EXPRESSION F_other 0 5 [
    ex_tk R_IDENTIFIER 0 1; ex_tk DOLLAR 1 2;
    TS R_PARENTHESIZED_EXPRESSION F_other 2 5 [
      ex_tk L_PAREN 2 3; ex_tk R_IDENTIFIER 3 4; ex_tk R_PAREN 4 5]]].
Example c51_bogus_example :
  well_parsed ($"x$(y)") odd_tree /\ conforms odd_tree = false /\
  exists g g', parse ($"x$(y)") false odd_tree = Some (g, false) /\ rebuilt g = Some g' /\
    complete (skel_of g) = false /\ any_node is_bogus g = false /\
    any_node (kind_eqb R_BOGUS_EXPRESSION) g' = true /\ tokens g' = tokens g.
Proof.
  split; [vm_compute; repeat split|]. split; [reflexivity|].
  do 2 eexists. split; [vm_compute; reflexivity|]. split; [vm_compute; reflexivity|].
  vm_compute. repeat split.
Qed.

(** * C50 *)

(** A file that parses is read into typed nodes whole, the rules print it, and
    no panic is reached: whatever the file, the options and the table cells. *)
Theorem c50_formats src t : well_parsed src t -> conforms t = true -> spelled src t ->
  forall rf o pc, exists r, source_root rf src t = Some r /\ ~ panics (root_doc o pc r) /\
    exists out, prints (root_doc o pc r) out.
Proof.
  exact (fun W C S rf o pc =>
    match source_formats src t W C S rf with
    | ex_intro _ r (conj R K) => ex_intro _ r (conj R (no_panic rf src t r o pc R K))
    end).
Qed.
Print Assumptions c50_formats.

Example c50_formats_example :
  well_parsed all_src all_tree /\ conforms all_tree = true /\ spelled all_src all_tree /\
  exists r out, source_root false all_src all_tree = Some r /\
    prints (root_doc (opts AArrow) wide_cell r) out /\
    ptext out = $"if (a) {" ++ LF :: $"f(x = 1, , ""b"")" ++ LF :: $"} else {" ++ LF
                :: $"\(p, q = 2) {" ++ LF :: $"x[[i]]$y" ++ LF :: $"-NA" ++ LF :: $"}" ++ LF
                :: $"} # c" ++ [LF].
Proof.
  split; [vm_compute; repeat split|]. split; [reflexivity|].
  split; [vm_compute; repeat constructor|]. do 2 eexists.
  split; [vm_compute; reflexivity|].
  split; [apply wide_root_prints; vm_compute; reflexivity|]. vm_compute. reflexivity.
Qed.

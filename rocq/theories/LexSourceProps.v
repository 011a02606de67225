(** Properties of the printed text as R's lexer reads it, from the source: C52. *)
From Coq Require Import List NArith Bool Arith Lia String.
From Verif Require Import Text LineEndingModel SettingsModel SyntaxKind DirectiveModel ParseModel
  ParseSpec ParseProps FmtTree IrModel TableModel FmtModel FmtSpec FmtLayout FmtFactProofs FmtProps
  CommentsModel CommentsSpec AstModel FrontProofs FrontProps FactorySpec FactoryProps LexSpec
  LexTreeProofs LexProps LexSourceSpec LexSourceProofs.
Import ListNotations.

(** * C52 *)

(** If R reads the source as tree-sitter's tokens, the tree that is formatted
    has R's lexemes in it, at each node. *)
Theorem c52_source_lexical rf src t r :
  well_parsed src t -> conforms t = true -> spelled src t -> read_by_r src t ->
  source_root rf src t = Some r -> lexical r.
Proof. exact (source_lexical rf src t r). Qed.
Print Assumptions c52_source_lexical.

(** From text to text: if R reads the source as tree-sitter's tokens, then R
    reads the output as the same tokens, but for the braces and the assignment
    operators that [retok] allows and CR LF inside strings.  [root_tables_clear]:
    no comment inside the cells of a table. *)
Theorem c52_source_read rf src t r o pc out txt :
  well_parsed src t -> conforms t = true -> spelled src t -> read_by_r src t ->
  source_root rf src t = Some r -> root_tables_clear o r ->
  cell_printer pc -> prints (root_doc o pc r) out -> rendered out txt ->
  exists ts ts' L, retok (o_assignment_style o) (source_tokens src t) ts /\
    Forall2 (fun t t' => t' = t \/ same_token t t') ts ts' /\
    lex txt = Some L /\ code L = lexemes ts'.
Proof. exact (source_read rf src t r o pc out txt). Qed.
Print Assumptions c52_source_read.

(** [if (a) f(x = 1, , "b") else \(p, q = 2) { x[[i]]$y; -NA }  # c] of
    FactoryProps.v. *)
Example c52_source_example :
  well_parsed all_src all_tree /\ conforms all_tree = true /\ spelled all_src all_tree /\
  read_by_r all_src all_tree /\
  exists r out, source_root false all_src all_tree = Some r /\
    root_tables_clear (opts AArrow) r /\
    prints (root_doc (opts AArrow) wide_cell r) out /\
    let txt := $"if (a) {" ++ LF :: $"  f(x = 1, , ""b"")" ++ LF :: $"} else {" ++ LF
                :: $"  \(p, q = 2) {" ++ LF :: $"    x[[i]]$y" ++ LF :: $"    -NA" ++ LF :: $"  }" ++ LF
                :: $"} # c" ++ [LF] in
    rendered out txt /\
    lex txt = Some [$"if"; $"("; $"a"; $")"; $"{"; $"f"; $"("; $"x"; $"="; $"1"; $","; $","; $"""b""";
      $")"; $"}"; $"else"; $"{"; $"\"; $"("; $"p"; $","; $"q"; $"="; $"2"; $")"; $"{"; $"x"; $"[["; $"i";
      $"]"; $"]"; $"$"; $"y"; $"-"; $"NA"; $"}"; $"}"; $"# c"].
Proof.
  split; [vm_compute; repeat split|]. split; [reflexivity|].
  split; [vm_compute; repeat constructor|].
  split.
  { split; [eexists; split; vm_compute; reflexivity|].
    split; [|vm_compute; intuition discriminate].
    vm_compute. repeat constructor; intuition discriminate. }
  do 2 eexists. split; [vm_compute; reflexivity|].
  split; [by_placed|].
  split; [apply wide_root_prints; vm_compute; reflexivity|].
  split; [|vm_compute; reflexivity].
  repeat first
    [ exact R_nil | refine (R_word _ _ _ _) | refine (R_space _ _ _)
    | refine (R_newline [32; 32; 32; 32]%N _ _ _ _); [repeat constructor|]
    | refine (R_newline [32; 32]%N _ _ _ _); [repeat constructor|]
    | refine (R_newline [] _ _ _ _); [constructor|] ].
Qed.

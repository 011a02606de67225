(** Properties of the printed text as R's lexer reads it: C52. *)
From Coq Require Import List NArith Bool Arith Lia String.
From Verif Require Import Text LineEndingModel SettingsModel SyntaxKind DirectiveModel ParseModel
  ParseSpec ParseProps FmtTree IrModel TableModel FmtModel FmtSpec FmtLayout FmtProps CommentsModel
  CommentsSpec AstModel FrontProofs FrontProps LexSpec LexProofs LexRunProofs LexSealProofs LexTreeProofs.
Import ListNotations.
Open Scope N_scope.

(** * C52 *)

(** However the layout is chosen and however deep the lines are indented, R's
    lexer splits the text into exactly the tokens of the tidied program:
    no two tokens run together, none is split, none is swallowed by a comment
    or a string. *)
Theorem c52_output_read o pc r out txt :
  cell_printer pc -> root_shaped r -> root_placed o r -> lexical r ->
  prints (root_doc o pc r) out -> rendered out txt ->
  exists es' ts L, Forall2 (tidy o (p_stmt true)) (r_exprs r) es' /\
    Forall2 (fun t t' => t' = t \/ same_token t t') (List.concat (map etokens es')) ts /\
    lex txt = Some L /\ code L = lexemes ts.
Proof. exact (output_read o pc r out txt). Qed.
Print Assumptions c52_output_read.

(** [f(x, # c], [)], [# d], [y <- 2L # e] of ParseProps.v. *)
Ltac by_lexing :=
  repeat split; try (vm_compute; intuition discriminate);
  try (eexists; split; [vm_compute; reflexivity|]; split; [reflexivity|]; split; [reflexivity|]);
  try reflexivity;
  try (split; [reflexivity|]; eexists; reflexivity);
  repeat constructor; try (vm_compute; intuition discriminate).
Example c52_example :
  exists r out, source_root false ex_src ex_tree = Some r /\
    root_shaped r /\ root_placed (opts AArrow) r /\ lexical r /\
    prints (root_doc (opts AArrow) wide_cell r) out /\
    let txt := $"f(" ++ LF :: $"  x, # c" ++ LF :: $")" ++ LF :: $"# d" ++ LF :: $"y <- 2L # e" ++ [LF] in
    rendered out txt /\
    lex txt = Some [$"f"; $"("; $"x"; $","; $"# c"; $")"; $"# d"; $"y"; $"<-"; $"2L"; $"# e"].
Proof.
  do 2 eexists. split; [vm_compute; reflexivity|].
  split; [vm_compute; repeat split; discriminate|].
  split; [by_placed|]. split; [by_lexing|].
  split; [apply wide_root_prints; vm_compute; reflexivity|].
  split; [|vm_compute; reflexivity].
  repeat first
    [ exact R_nil | refine (R_word _ _ _ _) | refine (R_space _ _ _)
    | refine (R_newline [32; 32] _ _ _ _); [repeat constructor|]
    | refine (R_newline [] _ _ _ _); [constructor|] ].
Qed.

(** Inside a table a comment can swallow a token: [root_placed] is needed.
    [tribble(], [1 # c], [+ 2, 3)]. *)
Theorem c52_table_comment_refuted :
  exists src t r out txt, well_parsed src t /\ source_root false src t = Some r /\
    root_shaped r /\ lexical r /\
    prints (root_doc table_opts wide_cell r) out /\ rendered out txt /\
    lex src = Some [$"tribble"; $"("; $"1"; $"# c"; $"+"; $"2"; $","; $"3"; $")"] /\
    lex txt = Some [$"tribble"; $"("; $"1"; $"+"; $"2"; $"# c , 3"; $")"].
Proof.
  exists ($"tribble(" ++ LF :: $"1 # c" ++ LF :: $"+ 2, 3)"), swallow_tree. do 2 eexists.
  exists ($"tribble(" ++ LF :: $"  1 + 2 # c , 3" ++ LF :: $")" ++ [LF]).
  split; [vm_compute; repeat split|]. split; [vm_compute; reflexivity|].
  split; [vm_compute; repeat split; discriminate|]. split; [by_lexing|].
  split; [apply wide_root_prints; vm_compute; reflexivity|].
  split; [|split; vm_compute; reflexivity].
  repeat first
    [ exact R_nil | refine (R_word _ _ _ _) | refine (R_space _ _ _)
    | refine (R_newline [32; 32] _ _ _ _); [repeat constructor|]
    | refine (R_newline [] _ _ _ _); [constructor|] ].
Qed.
Print Assumptions c52_table_comment_refuted.

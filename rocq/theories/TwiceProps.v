(** * C58: formatting a formatted file *)
From Coq Require Import List NArith Bool Arith Lia String.
From Verif Require Import Text LineEndingModel SettingsModel SyntaxKind DirectiveModel ParseModel
  ParseSpec ParseProps FmtTree IrModel TableModel FmtModel FmtSpec FmtLayout FmtProps CommentsModel
  CommentsSpec AstModel FrontProofs FrontProps FactorySpec LexSpec LexProps LexSourceSpec LexSourceProofs LexSourceProps
  RReadSpec FmtLineSpec RTextSpec RTextProps GrammarSpec GrammarSoundProofs GrammarProps RProgramSpec RProgramProofs RProgramProps
  TwiceSpec TwiceProofs.
Import ListNotations.
Open Scope N_scope.

(** However often a file is formatted, in whatever layouts, R reads the same
    program, up to the braces and arrows of C40 and C41. *)
Theorem c58_program_kept o s s' l : run_often o s s' -> r_program s l ->
  exists l', r_program s' l' /\ same_program (o_assignment_style o) l l'.
Proof. exact (runs_keep o s s' l). Qed.
Print Assumptions c58_program_kept.

(** But the second run may change the file again.  Full statement, for all files:

      formatted s = Some s' -> formatted s' = Some s'

    [1 ->], [# c], [x] on three lines becomes [1 -> # c], [x], and then [1 -> x # c]:
    no layout of the second run is the output of the first. *)
Definition right_src := $"1 ->" ++ LF :: $"# c" ++ LF :: $"x" ++ [LF].
Definition right_src_tree : ts :=
  TS R_ROOT F_other 0 11 [TS R_BINARY_EXPRESSION F_other 0 10 [ex_tk R_DOUBLE_VALUE 0 1; ex_tk
  ASSIGN_RIGHT 2 4; ex_tk COMMENT 5 8; ex_tk R_IDENTIFIER 9 10]].
Definition right_once := $"1 -> # c" ++ LF :: $"x" ++ [LF].
Definition right_once_tree : ts :=
  TS R_ROOT F_other 0 11 [TS R_BINARY_EXPRESSION F_other 0 10 [ex_tk R_DOUBLE_VALUE 0 1; ex_tk
  ASSIGN_RIGHT 2 4; ex_tk COMMENT 5 8; ex_tk R_IDENTIFIER 9 10]].

Ltac by_tree := split; [vm_compute; repeat split|]; split; [reflexivity|];
  split; [vm_compute; repeat constructor|]; vm_compute; reflexivity.
Ltac by_rendering :=
  repeat first
    [ exact R_nil | refine (R_word _ _ _ _) | refine (R_space _ _ _)
    | refine (R_newline [32; 32] _ _ _ _); [repeat constructor|]
    | refine (R_newline [] _ _ _ _); [constructor|] ].

Theorem c58_idempotent_refuted :
  exists r out r', tree_of right_src right_src_tree r /\ wide_root (opts AArrow) r = Some out /\
    rendered out right_once /\ tree_of right_once right_once_tree r' /\
    forall out', prints (root_doc (opts AArrow) wide_cell r') out' -> ptext out' <> ptext out.
Proof.
  do 3 eexists. split; [by_tree|]. split; [vm_compute; reflexivity|]. split; [by_rendering|].
  split; [by_tree|]. apply no_layout. vm_compute. reflexivity.
Qed.
Print Assumptions c58_idempotent_refuted.

(** Nor does the third run leave alone what the second one made: with braces in
    place of [x], the comment goes into them in two steps. *)
Definition thrice_src := $"x ->" ++ LF :: $"# c" ++ LF :: $"{" ++ LF :: $"1" ++ LF :: $"}" ++ [LF].
Definition thrice_src_tree : ts :=
  TS R_ROOT F_other 0 15 [TS R_BINARY_EXPRESSION F_other 0 14 [ex_tk R_IDENTIFIER 0 1; ex_tk
  ASSIGN_RIGHT 2 4; ex_tk COMMENT 5 8; TS R_BRACED_EXPRESSIONS F_other 9 14 [ex_tk L_CURLY 9 10;
  ex_tk R_DOUBLE_VALUE 11 12; ex_tk R_CURLY 13 14]]].
Definition thrice_once := $"x -> # c" ++ LF :: $"{" ++ LF :: $"  1" ++ LF :: $"}" ++ [LF].
Definition thrice_once_tree : ts :=
  TS R_ROOT F_other 0 17 [TS R_BINARY_EXPRESSION F_other 0 16 [ex_tk R_IDENTIFIER 0 1; ex_tk
  ASSIGN_RIGHT 2 4; ex_tk COMMENT 5 8; TS R_BRACED_EXPRESSIONS F_other 9 16 [ex_tk L_CURLY 9 10;
  ex_tk R_DOUBLE_VALUE 13 14; ex_tk R_CURLY 15 16]]].
Definition thrice_twice := $"x -> { # c" ++ LF :: $"  1" ++ LF :: $"}" ++ [LF].
Definition thrice_twice_tree : ts :=
  TS R_ROOT F_other 0 17 [TS R_BINARY_EXPRESSION F_other 0 16 [ex_tk R_IDENTIFIER 0 1; ex_tk
  ASSIGN_RIGHT 2 4; TS R_BRACED_EXPRESSIONS F_other 5 16 [ex_tk L_CURLY 5 6; ex_tk COMMENT 7 10;
  ex_tk R_DOUBLE_VALUE 13 14; ex_tk R_CURLY 15 16]]].

Theorem c58_third_run_refuted :
  exists r out r' out' r'',
    tree_of thrice_src thrice_src_tree r /\ wide_root (opts AArrow) r = Some out /\ rendered out thrice_once /\
    tree_of thrice_once thrice_once_tree r' /\ wide_root (opts AArrow) r' = Some out' /\ rendered out' thrice_twice /\
    tree_of thrice_twice thrice_twice_tree r'' /\
    ptext out' <> ptext out /\
    forall out'', prints (root_doc (opts AArrow) wide_cell r'') out'' -> ptext out'' <> ptext out'.
Proof.
  do 5 eexists. split; [by_tree|]. split; [vm_compute; reflexivity|]. split; [by_rendering|].
  split; [by_tree|]. split; [vm_compute; reflexivity|]. split; [by_rendering|].
  split; [by_tree|]. split; [vm_compute; discriminate|]. apply no_layout. vm_compute. reflexivity.
Qed.
Print Assumptions c58_third_run_refuted.

(** A blank line below a comment at an argument left out is lost in the second
    run; a comment after the name of a parameter goes behind its default. *)
Definition hole_src := $"f(x" ++ LF :: $"# c" ++ LF :: $"" ++ LF :: $",)" ++ [LF].
Definition hole_src_tree : ts :=
  TS R_ROOT F_other 0 12 [TS R_CALL F_other 0 11 [ex_tk R_IDENTIFIER 0 1; TS R_UNMAPPED
  F_arguments 1 11 [ex_tk L_PAREN 1 2; TS R_ARGUMENT F_other 2 3 [ex_tk R_IDENTIFIER 2 3]; ex_tk
  COMMENT 4 7; ex_tk COMMA 9 10; ex_tk R_PAREN 10 11]]].
Definition hole_once := $"f(" ++ LF :: $"  x," ++ LF :: $"  # c" ++ LF :: $"" ++ LF :: $")" ++ [LF].
Definition hole_once_tree : ts :=
  TS R_ROOT F_other 0 17 [TS R_CALL F_other 0 16 [ex_tk R_IDENTIFIER 0 1; TS R_UNMAPPED
  F_arguments 1 16 [ex_tk L_PAREN 1 2; TS R_ARGUMENT F_other 5 6 [ex_tk R_IDENTIFIER 5 6]; ex_tk
  COMMA 6 7; ex_tk COMMENT 10 13; ex_tk R_PAREN 15 16]]].
Definition default_src := $"function(p" ++ LF :: $"# c" ++ LF :: $"= 1) {}" ++ [LF].
Definition default_src_tree : ts :=
  TS R_ROOT F_other 0 23 [TS R_FUNCTION_DEFINITION F_other 0 22 [ex_tk FUNCTION_KW 0 8; TS
  R_PARAMETERS F_other 8 19 [ex_tk L_PAREN 8 9; TS R_PARAMETER F_other 9 18 [ex_tk R_IDENTIFIER
  9 10; ex_tk COMMENT 11 14; ex_tk EQUAL 15 16; ex_tk R_DOUBLE_VALUE 17 18]; ex_tk R_PAREN 18
  19]; TS R_BRACED_EXPRESSIONS F_other 20 22 [ex_tk L_CURLY 20 21; ex_tk R_CURLY 21 22]]].
Definition default_once := $"function(" ++ LF :: $"  p # c" ++ LF :: $"  = 1" ++ LF :: $") {}" ++ [LF].
Definition default_once_tree : ts :=
  TS R_ROOT F_other 0 29 [TS R_FUNCTION_DEFINITION F_other 0 28 [ex_tk FUNCTION_KW 0 8; TS
  R_PARAMETERS F_other 8 25 [ex_tk L_PAREN 8 9; TS R_PARAMETER F_other 12 23 [ex_tk R_IDENTIFIER
  12 13; ex_tk COMMENT 14 17; ex_tk EQUAL 20 21; ex_tk R_DOUBLE_VALUE 22 23]; ex_tk R_PAREN 24
  25]; TS R_BRACED_EXPRESSIONS F_other 26 28 [ex_tk L_CURLY 26 27; ex_tk R_CURLY 27 28]]].

Theorem c58_hole_refuted :
  exists r out r', tree_of hole_src hole_src_tree r /\ wide_root (opts AArrow) r = Some out /\
    rendered out hole_once /\ tree_of hole_once hole_once_tree r' /\
    forall out', prints (root_doc (opts AArrow) wide_cell r') out' -> ptext out' <> ptext out.
Proof.
  do 3 eexists. split; [by_tree|]. split; [vm_compute; reflexivity|]. split; [by_rendering|].
  split; [by_tree|]. apply no_layout. vm_compute. reflexivity.
Qed.
Print Assumptions c58_hole_refuted.

Theorem c58_default_refuted :
  exists r out r', tree_of default_src default_src_tree r /\ wide_root (opts AArrow) r = Some out /\
    rendered out default_once /\ tree_of default_once default_once_tree r' /\
    forall out', prints (root_doc (opts AArrow) wide_cell r') out' -> ptext out' <> ptext out.
Proof.
  do 3 eexists. split; [by_tree|]. split; [vm_compute; reflexivity|]. split; [by_rendering|].
  split; [by_tree|]. apply no_layout. vm_compute. reflexivity.
Qed.
Print Assumptions c58_default_refuted.

(** The three runs of [c58_third_run_refuted] are runs in the sense of
    [c58_program_kept]. *)
Ltac by_run t := exists false, t; eexists; exists wide_cell; eexists; split; [vm_compute; repeat split|]; split; [reflexivity|];
  split; [vm_compute; repeat constructor|];
  split; [split; [eexists; split; vm_compute; reflexivity|];
          split; [vm_compute; repeat constructor; intuition discriminate|vm_compute; intuition discriminate]|];
  split; [vm_compute; reflexivity|];
  split; [by_placed|]; split; [by_staying|];
  split; [cbn -[parse_comment_directive]; repeat split; right; repeat split; discriminate|];
  split; [eexists; split; [vm_compute; reflexivity|apply (parses_by 40); intros k; vm_compute; reflexivity]|];
  split; [exact wide_cell_ok|];
  split; [apply wide_root_prints; vm_compute; reflexivity|]; by_rendering.

Example c58_runs_example :
  run_often (opts AArrow) thrice_src thrice_twice /\ (exists l, r_program thrice_src l) /\
  thrice_src <> thrice_once /\ thrice_once <> thrice_twice.
Proof.
  split.
  { apply (Again _ _ thrice_once); [by_run thrice_src_tree|].
    apply (Again _ _ thrice_twice); [by_run thrice_once_tree|]. apply Never. }
  split; [eexists; eexists; split; [vm_compute; reflexivity|apply (parses_by 40); intros k; vm_compute; reflexivity]|].
  split; discriminate.
Qed.

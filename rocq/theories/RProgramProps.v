(** C39 from text to text: what R makes of the source, and what it makes of the
    printed text. *)
From Coq Require Import List NArith Bool Arith Lia String.
From Verif Require Import Text LineEndingModel SettingsModel SyntaxKind DirectiveModel ParseModel
  ParseSpec ParseProps FmtTree IrModel TableModel FmtModel FmtSpec FmtLayout FmtProps CommentsModel
  CommentsSpec AstModel FrontProofs FrontProps FactorySpec LexSpec LexProps LexSourceSpec LexSourceProofs LexSourceProps
  RReadSpec FmtLineSpec RTextSpec RTextProps GrammarSpec GrammarSoundProofs GrammarProps RProgramSpec RProgramProofs RKeptProofs.
Import ListNotations.
Open Scope N_scope.

(** What R's grammar builds from a text consists of the tokens of the text, in
    order, with the ends of expressions where R's lexer saw them, and is
    grammatical: the converse of [c39_grammatical_parses]. *)
Theorem c39_parsed_grammatical src r :
  root_shaped r -> lexical r -> r_program src (map term_of (r_exprs r)) ->
  tokens_of src = Some (program (r_exprs r)) /\ file_grammatical r /\ classed r.
Proof. exact (read_settles src r). Qed.
Print Assumptions c39_parsed_grammatical.

(** If R reads the source as the tree that was formatted, then R reads the
    printed text, and as the same program. *)
Theorem c39_text_program o pc r src out txt :
  cell_printer pc -> root_shaped r -> root_placed o r -> lexical r ->
  root_tame_with (fun c0 c e => copied o e -> fitting c e) r ->
  all_of (restylable (o_assignment_style o)) (r_exprs r) ->
  r_program src (map term_of (r_exprs r)) ->
  prints (root_doc o pc r) out -> rendered out txt ->
  exists l', r_program txt l' /\ same_program (o_assignment_style o) (map term_of (r_exprs r)) l'.
Proof. exact (text_to_text o pc r src out txt). Qed.
Print Assumptions c39_text_program.

(** From the front end: the tree is the one that was made from tree-sitter's
    tree [t] of the source. *)
Theorem c39_source_program rf src t r o pc out txt :
  well_parsed src t -> conforms t = true -> spelled src t -> read_by_r src t ->
  source_root rf src t = Some r -> root_tables_clear o r ->
  root_tame_with (fun c0 c e => copied o e -> fitting c e) r ->
  all_of (restylable (o_assignment_style o)) (r_exprs r) ->
  r_program src (map term_of (r_exprs r)) ->
  cell_printer pc -> prints (root_doc o pc r) out -> rendered out txt ->
  exists l', r_program txt l' /\ same_program (o_assignment_style o) (map term_of (r_exprs r)) l'.
Proof. exact (source_to_text rf src t r o pc out txt). Qed.
Print Assumptions c39_source_program.

(** [f(x, # c], [)], [# d], [y <- 2L # e] of ParseProps.v. *)
Example c39_program_example :
  well_parsed ex_src ex_tree /\ conforms ex_tree = true /\ spelled ex_src ex_tree /\
  read_by_r ex_src ex_tree /\
  exists r out, source_root false ex_src ex_tree = Some r /\
    root_shaped r /\ root_tables_clear (opts AArrow) r /\ root_placed (opts AArrow) r /\ lexical r /\
    root_tame_with (fun c0 c e => copied (opts AArrow) e -> fitting c e) r /\
    all_of (restylable AArrow) (r_exprs r) /\
    r_program ex_src (map term_of (r_exprs r)) /\
    prints (root_doc (opts AArrow) wide_cell r) out /\
    let txt := $"f(" ++ LF :: $"  x, # c" ++ LF :: $")" ++ LF :: $"# d" ++ LF :: $"y <- 2L # e" ++ [LF] in
    rendered out txt /\
    r_program txt
      [ Apply (Atom [tk IDENT $"f"]) KCall [(None, Some (Atom [tk IDENT $"x"])); (None, None)];
        Infix (Atom [tk IDENT $"y"]) tARROW (Atom [tk R_INTEGER_LITERAL $"2L"]) ].
Proof.
  split; [vm_compute; repeat split|]. split; [reflexivity|].
  split; [vm_compute; repeat constructor|].
  split.
  { split; [eexists; split; vm_compute; reflexivity|].
    split; [|vm_compute; intuition discriminate].
    vm_compute. repeat constructor; intuition discriminate. }
  do 2 eexists. split; [vm_compute; reflexivity|].
  split; [vm_compute; repeat split; discriminate|].
  split; [by_placed|]. split; [by_placed|]. split; [by_lexing|].
  split; [by_fitting|].
  split; [cbn -[parse_comment_directive]; repeat split; right; repeat split; discriminate|].
  split; [eexists; split; [vm_compute; reflexivity|apply (parses_by 40); intros k; vm_compute; reflexivity]|].
  split; [apply wide_root_prints; vm_compute; reflexivity|].
  split; [|eexists; split; [vm_compute; reflexivity|apply (parses_by 40); intros k; vm_compute; reflexivity]].
  repeat first
    [ exact R_nil | refine (R_word _ _ _ _) | refine (R_space _ _ _)
    | refine (R_newline [32; 32] _ _ _ _); [repeat constructor|]
    | refine (R_newline [] _ _ _ _); [constructor|] ].
Qed.

(** Code that is copied as it stands in the source needs no assumption of its
    own, as long as it does not move from parentheses into braces that are added
    ([stays]). *)
Theorem c39_program_kept rf src t r o pc out txt :
  well_parsed src t -> conforms t = true -> spelled src t -> read_by_r src t ->
  source_root rf src t = Some r -> root_tables_clear o r ->
  root_tame_with (stays o) r ->
  all_of (restylable (o_assignment_style o)) (r_exprs r) ->
  r_program src (map term_of (r_exprs r)) ->
  cell_printer pc -> prints (root_doc o pc r) out -> rendered out txt ->
  exists l', r_program txt l' /\ same_program (o_assignment_style o) (map term_of (r_exprs r)) l'.
Proof. exact (source_kept rf src t r o pc out txt). Qed.
Print Assumptions c39_program_kept.

(** The copied code may have line breaks, here a carriage return and a line feed,
    and may be an argument. *)
Definition kept_src :=
  $"# fmt: skip" ++ LF :: $"x  <-  f(a," ++ CR :: LF :: $"  b)" ++ LF :: $"g(" ++ LF :: $"# fmt: skip" ++
  LF :: $"b" ++ LF :: $"*  c)" ++ LF :: $"y  -z".
Definition kept_tree : ts :=
  TS R_ROOT F_other 0 58 [ex_tk COMMENT 0 11; TS R_BINARY_EXPRESSION F_other 12 29 [ex_tk
  R_IDENTIFIER 12 13; ex_tk ASSIGN 15 17; TS R_CALL F_other 19 29 [ex_tk R_IDENTIFIER 19 20; TS
  R_UNMAPPED F_arguments 20 29 [ex_tk L_PAREN 20 21; TS R_ARGUMENT F_other 21 22 [ex_tk R_IDENTIFIER
  21 22]; ex_tk COMMA 22 23; TS R_ARGUMENT F_other 27 28 [ex_tk R_IDENTIFIER 27 28]; ex_tk R_PAREN
  28 29]]]; TS R_CALL F_other 30 52 [ex_tk R_IDENTIFIER 30 31; TS R_UNMAPPED F_arguments 31 52
  [ex_tk L_PAREN 31 32; ex_tk COMMENT 33 44; TS R_ARGUMENT F_other 45 51 [TS R_BINARY_EXPRESSION
  F_other 45 51 [ex_tk R_IDENTIFIER 45 46; ex_tk MULTIPLY 47 48; ex_tk R_IDENTIFIER 50 51]]; ex_tk
  R_PAREN 51 52]]; TS R_BINARY_EXPRESSION F_other 53 58 [ex_tk R_IDENTIFIER 53 54; ex_tk MINUS 56
  57; ex_tk R_IDENTIFIER 57 58]].
Ltac by_staying :=
  cbv [root_tame_with tame all_of opt_all r_bom r_exprs notes_of n_lead n_dang n_trail uncommented
       has_role role_of t_kind body_context];
  repeat match goal with
  | |- stays _ _ _ _ => intros _; left; exact I
  | |- _ /\ _ => split
  | |- True => exact I
  | |- _ => first [reflexivity | left; reflexivity | right; reflexivity]
  end.
Example c39_kept_example :
  well_parsed kept_src kept_tree /\ conforms kept_tree = true /\ spelled kept_src kept_tree /\
  read_by_r kept_src kept_tree /\
  exists r out, source_root false kept_src kept_tree = Some r /\
    root_tables_clear (opts AArrow) r /\ root_tame_with (stays (opts AArrow)) r /\
    all_of (restylable AArrow) (r_exprs r) /\
    r_program kept_src (map term_of (r_exprs r)) /\
    (exists e, In e (r_exprs r) /\ copied (opts AArrow) e /\ may_skip (opts AArrow) e) /\
    prints (root_doc (opts AArrow) wide_cell r) out /\
    let txt := $"# fmt: skip" ++ LF :: $"x  <-  f(a," ++ LF :: $"  b)" ++ LF :: $"g(" ++ LF ::
      $"  # fmt: skip" ++ LF :: $"  b" ++ LF :: $"*  c" ++ LF :: $")" ++ LF :: $"y - z" ++ [LF] in
    rendered out txt /\
    r_program txt (map term_of (r_exprs r)).
Proof.
  split; [vm_compute; repeat split|]. split; [reflexivity|].
  split; [vm_compute; repeat constructor|].
  split.
  { split; [eexists; split; vm_compute; reflexivity|].
    split; [|vm_compute; intuition discriminate].
    vm_compute. repeat constructor; intuition discriminate. }
  do 2 eexists. split; [vm_compute; reflexivity|].
  split; [by_placed|]. split; [by_staying|].
  split; [cbn -[parse_comment_directive]; repeat split; right; repeat split; discriminate|].
  split; [eexists; split; [vm_compute; reflexivity|apply (parses_by 40); intros k; vm_compute; reflexivity]|].
  split.
  { eexists. split; [left; reflexivity|]. split; left; eexists; (split; [left; reflexivity|vm_compute; reflexivity]). }
  split; [apply wide_root_prints; vm_compute; reflexivity|].
  split; [|eexists; split; [vm_compute; reflexivity|apply (parses_by 40); intros k; vm_compute; reflexivity]].
  repeat first
    [ exact R_nil | refine (R_word _ _ _ _) | refine (R_space _ _ _)
    | refine (R_newline [32; 32] _ _ _ _); [repeat constructor|]
    | refine (R_newline [] _ _ _ _); [constructor|] ].
Qed.

(** [fitting], and [stays], are needed: of [(function(x)], [a +], [# fmt: skip], [b], [* c)]
    on five lines the factor [b * c] is copied into new braces, where its line
    break ends an expression.  R does not accept the output. *)
Definition torn_src :=
  $"(function(x)" ++ LF :: $"a +" ++ LF :: $"# fmt: skip" ++ LF :: $"b" ++ LF :: $"* c)".
Definition torn_tree : ts :=
  TS R_ROOT F_other 0 35 [TS R_PARENTHESIZED_EXPRESSION F_other 0 35 [ex_tk L_PAREN 0 1; TS
  R_FUNCTION_DEFINITION F_other 1 34 [ex_tk FUNCTION_KW 1 9; TS R_PARAMETERS F_other 9 12 [ex_tk
  L_PAREN 9 10; TS R_PARAMETER F_other 10 11 [ex_tk R_IDENTIFIER 10 11]; ex_tk R_PAREN 11 12]; TS
  R_BINARY_EXPRESSION F_other 13 34 [ex_tk R_IDENTIFIER 13 14; ex_tk PLUS 15 16; ex_tk COMMENT 17
  28; TS R_BINARY_EXPRESSION F_other 29 34 [ex_tk R_IDENTIFIER 29 30; ex_tk MULTIPLY 31 32; ex_tk
  R_IDENTIFIER 33 34]]]; ex_tk R_PAREN 34 35]].
Definition torn_out :=
  $"(function(x) {" ++ LF :: $"a +" ++ LF :: $"# fmt: skip" ++ LF :: $"b" ++ LF :: $"* c" ++ LF :: $"})" ++ [LF].
Theorem c39_skipped_refuted :
  exists r out, well_parsed torn_src torn_tree /\ conforms torn_tree = true /\ spelled torn_src torn_tree /\
    read_by_r torn_src torn_tree /\ source_root false torn_src torn_tree = Some r /\
    r_program torn_src (map term_of (r_exprs r)) /\
    prints (root_doc (opts AArrow) wide_cell r) out /\ ptext out = torn_out /\ rendered out torn_out /\
    ~ exists l, r_program torn_out l.
Proof.
  do 2 eexists. split; [vm_compute; repeat split|]. split; [reflexivity|].
  split; [vm_compute; repeat constructor|].
  split.
  { split; [eexists; split; vm_compute; reflexivity|].
    split; [|vm_compute; intuition discriminate].
    vm_compute. repeat constructor; intuition discriminate. }
  split; [vm_compute; reflexivity|].
  split; [eexists; split; [vm_compute; reflexivity|apply (parses_by 40); intros k; vm_compute; reflexivity]|].
  split; [apply wide_root_prints; vm_compute; reflexivity|].
  split; [vm_compute; reflexivity|].
  split.
  { repeat first
      [ exact R_nil | refine (R_word _ _ _ _) | refine (R_space _ _ _)
      | refine (R_newline [] _ _ _ _); [constructor|] ]. }
  intros (l & m & T & n & H). vm_compute in T. injection T as <-.
  specialize (H (40 + n)%nat (Nat.le_add_l _ _)). vm_compute in H. discriminate H.
Qed.
Print Assumptions c39_skipped_refuted.

(** Properties of the formatter from the source on: C37, C38.

    [src]: the text of a file, [t]: tree-sitter's tree of it; [source_root]
    parses the file, attaches its comments and reads the typed tree. *)
From Coq Require Import List Arith Bool NArith Lia Permutation String.
From Verif Require Import Text LineEndingModel SettingsModel SyntaxKind DirectiveModel ParseModel
  ParseSpec ParseProps FmtTree IrModel TableModel FmtModel FmtSpec FmtLayout FmtProps CommentsModel
  CommentsSpec CommentsProofs AstModel FrontProofs.
Import ListNotations.

(** * C37 *)

Lemma source_tokens_kept rf src t r o pc out :
  well_parsed src t -> source_root rf src t = Some r ->
  cell_printer pc -> prints (root_doc o pc r) out ->
  retok (o_assignment_style o) (source_tokens src t) (ptokens out).
Proof.
  intros W F C H. rewrite <- (source_front_tokens rf src t r W F).
  apply (tokens_kept o pc r out C); [exact (source_front_shaped rf src t r F)|exact H].
Qed.
(** The tokens of the source are the tokens printed, but for the braces and
    the assignment operators that [retok] allows. *)
Theorem c37_source_tokens_kept rf src t r o pc out :
  well_parsed src t -> source_root rf src t = Some r ->
  cell_printer pc -> prints (root_doc o pc r) out ->
  retok (o_assignment_style o) (source_tokens src t) (ptokens out).
Proof. exact (source_tokens_kept rf src t r o pc out). Qed.
Print Assumptions c37_source_tokens_kept.

(** * C38 *)

Lemma attached_once k cs rf :
  is_list k = false ->
  map (fun q => d_text (pt_comment q)) (attached (Node k cs) rf) = syn_comments (Node k cs) /\
  Forall (fun q => exists k' cs', at_path (Node k cs) (pt_path q) = Some (Node k' cs') /\
                                  is_list k' = false) (attached (Node k cs) rf).
Proof.
  intros L. split; [exact (attached_texts k cs rf L)|].
  eapply Forall_impl; [|exact (attached_well (Node k cs) rf k cs eq_refl L)].
  intros q [G _]. exact G.
Qed.
(** Whatever the tree, the walk over it and the placement rules attach every
    comment exactly once, in order, each to a node of the tree that is printed
    with its comments. *)
Theorem c38_attached_once k cs rf :
  is_list k = false ->
  map (fun q => d_text (pt_comment q)) (attached (Node k cs) rf) = syn_comments (Node k cs) /\
  Forall (fun q => exists k' cs', at_path (Node k cs) (pt_path q) = Some (Node k' cs') /\
                                  is_list k' = false) (attached (Node k cs) rf).
Proof. exact (attached_once k cs rf). Qed.
Print Assumptions c38_attached_once.

Lemma dangling_in_empty rf src t r :
  source_root rf src t = Some r -> all_of (everywhere dangles_well) (r_exprs r).
Proof.
  intros F. destruct (source_root_front rf src t r F) as [g [s [_ [_ H]]]].
  exact (front_dangles rf s r H).
Qed.
(** Comments dangle only in empty parentheses, brackets and braces. *)
Theorem c38_dangling_in_empty rf src t r :
  source_root rf src t = Some r -> all_of (everywhere dangles_well) (r_exprs r).
Proof. exact (dangling_in_empty rf src t r). Qed.
Print Assumptions c38_dangling_in_empty.

Lemma source_comments_kept rf src t r o pc out :
  well_parsed src t -> source_root rf src t = Some r -> root_tables_clear o r ->
  cell_printer pc -> prints (root_doc o pc r) out ->
  Permutation (pcomments out) (source_comments src t) /\ comments_closed out.
Proof.
  intros W F T C H. rewrite <- (source_front_comments rf src t r W F).
  apply (comments_kept o pc r out C); [exact (source_front_shaped rf src t r F)| |exact H].
  exact (source_front_placed rf src t r F o T).
Qed.
(** Every comment of the source is printed exactly once, and only comments
    follow it on its line, unless it stands inside a table. *)
Theorem c38_source_comments_kept rf src t r o pc out :
  well_parsed src t -> source_root rf src t = Some r -> root_tables_clear o r ->
  cell_printer pc -> prints (root_doc o pc r) out ->
  Permutation (pcomments out) (source_comments src t) /\ comments_closed out.
Proof. exact (source_comments_kept rf src t r o pc out). Qed.
Print Assumptions c38_source_comments_kept.

(** [f(x, # c], [)], [# d], [y <- 2L # e] of ParseProps.v. *)
Example c38_source_example :
  well_parsed ex_src ex_tree /\
  source_comments ex_src ex_tree = [$"# c"; $"# d"; $"# e"] /\
  exists r out, source_root false ex_src ex_tree = Some r /\
    root_tables_clear (opts AArrow) r /\
    prints (root_doc (opts AArrow) wide_cell r) out /\
    ptext out = $"f(" ++ LF :: $"x, # c" ++ LF :: $")" ++ LF :: $"# d" ++ LF :: $"y <- 2L # e"
                ++ [LF].
Proof.
  split; [vm_compute; repeat split|]. split; [vm_compute; reflexivity|].
  do 2 eexists. split; [vm_compute; reflexivity|].
  split; [by_placed|].
  split; [apply wide_root_prints; vm_compute; reflexivity|]. vm_compute. reflexivity.
Qed.

(** [(a # c1], [^b # c2], [)]: two comments on one line. *)
Definition merge_src := $"(a # c1" ++ LF :: $"^b # c2" ++ LF :: $")".
Definition merge_tree := TS R_ROOT F_other 0 17 [
  TS R_PARENTHESIZED_EXPRESSION F_other 0 17 [
    ex_tk L_PAREN 0 1;
    TS R_BINARY_EXPRESSION F_other 1 10 [
      ex_tk R_IDENTIFIER 1 2; ex_tk COMMENT 3 7; ex_tk EXPONENTIATE 8 9; ex_tk R_IDENTIFIER 9 10];
    ex_tk COMMENT 11 15; ex_tk R_PAREN 16 17]].
Theorem c38_source_merged_refuted :
  exists src t r out, well_parsed src t /\ source_root false src t = Some r /\
    root_tables_clear (opts AArrow) r /\
    prints (root_doc (opts AArrow) wide_cell r) out /\ ~ own_line out /\
    src = $"(a # c1" ++ LF :: $"^b # c2" ++ LF :: $")" /\
    ptext out = $"(" ++ LF :: $"a^b # c1 # c2" ++ LF :: $")" ++ [LF].
Proof.
  exists merge_src, merge_tree. do 2 eexists. split; [vm_compute; repeat split|].
  split; [vm_compute; reflexivity|]. split; [by_placed|].
  split; [apply wide_root_prints; vm_compute; reflexivity|].
  split; [vm_compute; tauto|]. split; [reflexivity|]. vm_compute. reflexivity.
Qed.
Print Assumptions c38_source_merged_refuted.

(** [tribble(], [1 # c], [+ 2, 3)]: the comment swallows a cell. *)
Definition swallow_tree := TS R_ROOT F_other 0 22 [
  TS R_CALL F_other 0 22 [
    ex_tk R_IDENTIFIER 0 7;
    TS R_UNMAPPED F_arguments 7 22
      [ex_tk L_PAREN 7 8;
       TS R_ARGUMENT F_other 9 18 [
         TS R_BINARY_EXPRESSION F_other 9 18 [
           TS R_DOUBLE_VALUE F_other 9 10 []; ex_tk COMMENT 11 14; ex_tk PLUS 15 16;
           TS R_DOUBLE_VALUE F_other 17 18 []]];
       ex_tk COMMA 18 19;
       TS R_ARGUMENT F_other 20 21 [TS R_DOUBLE_VALUE F_other 20 21 []];
       ex_tk R_PAREN 21 22]]].
Theorem c38_source_table_refuted :
  exists src t r out, well_parsed src t /\ source_root false src t = Some r /\
    prints (root_doc table_opts wide_cell r) out /\ ~ comments_closed out /\
    src = $"tribble(" ++ LF :: $"1 # c" ++ LF :: $"+ 2, 3)" /\
    ptext out = $"tribble(" ++ LF :: $"1 + 2 # c , 3" ++ LF :: $")" ++ [LF].
Proof.
  exists ($"tribble(" ++ LF :: $"1 # c" ++ LF :: $"+ 2, 3)"), swallow_tree. do 2 eexists.
  split; [vm_compute; repeat split|]. split; [vm_compute; reflexivity|].
  split; [apply wide_root_prints; vm_compute; reflexivity|].
  split; [vm_compute; tauto|]. split; [reflexivity|]. vm_compute. reflexivity.
Qed.
Print Assumptions c38_source_table_refuted.

(** Properties of the formatter: C50 (a file that parses is formatted, without
    a panic). *)
From Coq Require Import List Arith Bool NArith Lia Permutation String.
From Verif Require Import Text LineEndingModel SettingsModel SyntaxKind DirectiveModel ParseModel
  ParseSpec ParseProps FmtTree IrModel TableModel FmtModel FmtSpec FmtTableSpec FmtLayout FmtProps
  CommentsModel CommentsSpec AstModel FrontProofs TotalSpec TotalProofs.
Import ListNotations.

(** * C50 *)

Lemma no_panic rf src t r o pc :
  source_root rf src t = Some r -> all_of (everywhere known_operator) (r_exprs r) ->
  ~ panics (root_doc o pc r) /\ exists out, prints (root_doc o pc r) out.
Proof.
  intros F K. destruct (source_root_front rf src t r F) as [g [s [_ [_ H]]]].
  assert (S : safe (root_doc o pc r)).
  { apply root_safe. pose proof (front_chains rf s r H) as A.
    pose proof (front_dangles rf s r H) as B. clear -A B K.
    induction (r_exprs r) as [|e es IH]; [exact I|]. destruct A, B, K. split; [|auto].
    repeat apply everywhere_and; assumption. }
  split; [exact (safe_not_panics _ S)|]. destruct (safe_lay _ S Expanded) as [os L].
  eexists. exists os. split; [exact L|reflexivity].
Qed.
(** No rule panics on a file that was read from a source, wherever its comments
    stand, and the file has an output. *)
Theorem c50_no_panic rf src t r o pc :
  source_root rf src t = Some r -> all_of (everywhere known_operator) (r_exprs r) ->
  ~ panics (root_doc o pc r) /\ exists out, prints (root_doc o pc r) out.
Proof. exact (no_panic rf src t r o pc). Qed.
Print Assumptions c50_no_panic.

(** [f({{ # d], [x }}, a +], [# e], [b + c)]. *)
Definition total_src :=
  $"f({{ # d" ++ LF :: $"x }}, a +" ++ LF :: $"# e" ++ LF :: $"b + c)".
Definition total_tree := TS R_ROOT F_other 0 29 [
  TS R_CALL F_other 0 29 [
    ex_tk R_IDENTIFIER 0 1;
    TS R_UNMAPPED F_arguments 1 29
      [ex_tk L_PAREN 1 2;
       TS R_ARGUMENT F_other 2 13 [
         TS R_BRACED_EXPRESSIONS F_other 2 13 [
           ex_tk L_CURLY 2 3;
           TS R_BRACED_EXPRESSIONS F_other 3 12 [
             ex_tk L_CURLY 3 4; ex_tk COMMENT 5 8; ex_tk R_IDENTIFIER 9 10; ex_tk R_CURLY 11 12];
           ex_tk R_CURLY 12 13]];
       ex_tk COMMA 13 14;
       TS R_ARGUMENT F_other 15 28 [
         TS R_BINARY_EXPRESSION F_other 15 28 [
           TS R_BINARY_EXPRESSION F_other 15 24 [
             ex_tk R_IDENTIFIER 15 16; ex_tk PLUS 17 18; ex_tk COMMENT 19 22;
             ex_tk R_IDENTIFIER 23 24];
           ex_tk PLUS 25 26; ex_tk R_IDENTIFIER 27 28]];
       ex_tk R_PAREN 28 29]]].
Example c50_example :
  well_parsed total_src total_tree /\
  exists r out, source_root false total_src total_tree = Some r /\
    all_of (everywhere known_operator) (r_exprs r) /\
    prints (root_doc (opts AArrow) wide_cell r) out /\
    ptext out = $"f(" ++ LF :: $"{{" ++ LF :: $"# d" ++ LF :: $"x" ++ LF :: $"}}," ++ LF
                :: $"a +" ++ LF :: $"# e" ++ LF :: $"b +" ++ LF :: $"c" ++ LF :: $")" ++ [LF].
Proof.
  split; [vm_compute; repeat split|]. do 2 eexists. split; [vm_compute; reflexivity|].
  split; [vm_compute; tauto|].
  split; [apply wide_root_prints; vm_compute; reflexivity|]. vm_compute. reflexivity.
Qed.

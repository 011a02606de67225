(** Properties of the formatter: C53, comments stay with their statements.
    Parameters as in SourceProps.v. *)
From Coq Require Import List Arith Bool NArith Lia Permutation String.
From Verif Require Import Text LineEndingModel SettingsModel SyntaxKind DirectiveModel ParseModel ParseSpec
  ParseProps FmtTree IrModel TableModel FmtModel FmtSpec FmtPathSpec FmtLayout FmtProps FmtMarkProps CommentsModel
  CommentsSpec AstModel SourceSpec PlaceSpec DressSpec SourceProps PlaceSourceProofs DressProofs PlaceDressProofs.
Import ListNotations.

(** * C53: Comments stay with their statements *)

(** The file: the comments alone on their lines before a statement (all the
    comments before the first one) are printed on lines of their own directly
    above it, in order; the tokens before them are those of the statements
    before it.  The comments at the end of the statement's last line (all the
    comments after the last statement) are printed behind it: on its last line,
    or on lines of their own if they are in the source. *)
Theorem c53_source_top_level rf src t r o pc out a e b :
  well_parsed src t -> source_root rf src t = Some r -> cell_printer pc -> r_exprs r = a ++ e :: b ->
  gap_clean src t (wide a) -> gap_clean src t (wide (a ++ [e])) -> prints (root_doc o pc r) out ->
  exists pre h core post, out = pre ++ h ++ core ++ post /\ line_start pre /\ line_end post /\
    shows_tokens o (p_stmt true) a pre /\
    heads (kept_before a (gap_comments src t (wide a))) h /\
    block core /\ shows_tokens o (p_stmt true) [e] core /\
    (calm e -> exists body f, block body /\ core = body ++ f /\
       follows (kept_behind b (gap_comments src t (wide (a ++ [e])))) f).
Proof. exact (fun W F C => source_file_dressed rf src t r W F o pc C a e b out). Qed.
Print Assumptions c53_source_top_level.

(** The same in braces, wherever they are. *)
Theorem c53_source_braces rf src t r o pc out p n a e b g :
  well_parsed src t -> source_root rf src t = Some r -> cell_printer pc ->
  in_file o r p (EBraced n (a ++ e :: b)) -> ~ skip_asked o p (EBraced n (a ++ e :: b)) ->
  ~ curly_curly (a ++ e :: b) -> In (g, EBraced n (a ++ e :: b)) (root_nodes r) ->
  gap_clean src t (g + 1 + wide a) -> gap_clean src t (g + 1 + wide (a ++ [e])) ->
  prints (root_doc o pc r) out ->
  exists start rem pre h core post rest,
    out = start ++ PWord (WTok tLCURLY) :: rem ++ PNewline :: pre ++ h ++ core ++ post ++
            PNewline :: PWord (WTok tRCURLY) :: rest /\
    Forall remark rem /\ line_start pre /\ line_end post /\
    shows_tokens o (p_stmt true) a pre /\
    heads (kept_before a (gap_comments src t (g + 1 + wide a))) h /\
    block core /\ shows_tokens o (p_stmt (match b with [] => false | _ => true end)) [e] core /\
    (calm e -> exists body f, block body /\ core = body ++ f /\
       follows (kept_behind b (gap_comments src t (g + 1 + wide (a ++ [e])))) f).
Proof. exact (fun W F C => source_braces_dressed rf src t r W F o pc C p n a e b g out). Qed.
Print Assumptions c53_source_braces.

(** Parentheses: the comments after the opening one go before the expression,
    those before the closing one behind it. *)
Theorem c53_source_paren_leading rf src t r g n b :
  well_parsed src t -> source_root rf src t = Some r ->
  In (g, EParen n b) (root_nodes r) -> gap_clean src t (g + 1) ->
  exists y z, n_lead (notes_of b) = y ++ z /\
    map c_text y = all_comments (gap_comments src t (g + 1)) /\
    Forall (fun c => c_within c = false) y /\ Forall (fun c => c_within c = true) z.
Proof. exact (fun W F => paren_leading_holds rf src t r W F g n b). Qed.
Print Assumptions c53_source_paren_leading.
Theorem c53_source_paren_trailing rf src t r g n b :
  well_parsed src t -> source_root rf src t = Some r ->
  In (g, EParen n b) (root_nodes r) -> gap_clean src t (g + 1 + wide [b]) ->
  map c_text (n_trail (notes_of b)) = all_comments (gap_comments src t (g + 1 + wide [b])) /\
  Forall (fun c => c_within c = false) (n_trail (notes_of b)).
Proof. exact (fun W F => paren_trailing_holds rf src t r W F g n b). Qed.
Print Assumptions c53_source_paren_trailing.
(** Empty braces keep their comments. *)
Theorem c53_source_empty_braces rf src t r g n :
  well_parsed src t -> source_root rf src t = Some r ->
  In (g, EBraced n []) (root_nodes r) -> gap_clean src t (g + 1) ->
  exists x y z, n_dang n = x ++ y ++ z /\ map c_text y = all_comments (gap_comments src t (g + 1)).
Proof. exact (fun W F => empty_braces_hold rf src t r W F g n). Qed.
Print Assumptions c53_source_empty_braces.

(** [# top], [a # end], [# own], [b], [{], [# first], [c # tail], [# last],
    [}], [(], [# in], [d], [# out], [)], [{], [# only], [}]. *)
Definition place_src := $"# top" ++ LF :: $"a # end" ++ LF :: $"# own" ++ LF :: $"b" ++ LF :: $"{" ++ LF ::
  $"# first" ++ LF :: $"c # tail" ++ LF :: $"# last" ++ LF :: $"}" ++ LF :: $"(" ++ LF :: $"# in" ++ LF ::
  $"d" ++ LF :: $"# out" ++ LF :: $")" ++ LF :: $"{" ++ LF :: $"# only" ++ LF :: $"}".
Definition place_tree := TS R_ROOT F_other 0 77 [
  ex_tk COMMENT 0 5; ex_tk R_IDENTIFIER 6 7; ex_tk COMMENT 8 13; ex_tk COMMENT 14 19;
  ex_tk R_IDENTIFIER 20 21;
  TS R_BRACED_EXPRESSIONS F_other 22 49 [
    ex_tk L_CURLY 22 23; ex_tk COMMENT 24 31; ex_tk R_IDENTIFIER 32 33; ex_tk COMMENT 34 40;
    ex_tk COMMENT 41 47; ex_tk R_CURLY 48 49];
  TS R_PARENTHESIZED_EXPRESSION F_other 50 66 [
    ex_tk L_PAREN 50 51; ex_tk COMMENT 52 56; ex_tk R_IDENTIFIER 57 58; ex_tk COMMENT 59 64;
    ex_tk R_PAREN 65 66];
  TS R_BRACED_EXPRESSIONS F_other 67 77 [
    ex_tk L_CURLY 67 68; ex_tk COMMENT 69 75; ex_tk R_CURLY 76 77]].
Lemma clean_gap src t h gap : slice (gap_start t h) (gap_end src t h) src = Some gap -> cr_paired gap ->
  gap_clean src t h.
Proof. intros E C gap' E'. congruence. Qed.
Ltac clean := eapply clean_gap; [vm_compute; reflexivity|repeat (split; [discriminate|]); exact I].
Example place_example :
  well_parsed place_src place_tree /\
  exists r out, source_root false place_src place_tree = Some r /\
    prints (root_doc (opts AArrow) wide_cell r) out /\
    ptext out = place_src ++ [LF] /\
    (exists a b l, r_exprs r = [a] ++ b :: l /\ calm a /\ calm b /\ wide [a] = 1) /\
    gap_clean place_src place_tree 0 /\ gap_clean place_src place_tree 1 /\ gap_clean place_src place_tree 2 /\
    gap_comments place_src place_tree 0 = [($"# top", true)] /\
    gap_comments place_src place_tree 1 = [($"# end", false); ($"# own", true)] /\
    (exists n c, in_file (opts AArrow) r (p_stmt true) (EBraced n [c]) /\ calm c /\
       ~ skip_asked (opts AArrow) (p_stmt true) (EBraced n [c]) /\ ~ curly_curly [c] /\
       In (2, EBraced n [c]) (root_nodes r)) /\
    gap_comments place_src place_tree 3 = [($"# first", true)] /\
    gap_comments place_src place_tree 4 = [($"# tail", false); ($"# last", true)] /\
    (exists n b, In (5, EParen n b) (root_nodes r) /\ wide [b] = 1) /\
    gap_comments place_src place_tree 6 = [($"# in", true)] /\
    gap_comments place_src place_tree 7 = [($"# out", true)] /\
    (exists n, In (8, EBraced n []) (root_nodes r)) /\
    gap_comments place_src place_tree 9 = [($"# only", true)].
Proof.
  split; [vm_compute; repeat split|]. do 2 eexists. split; [vm_compute; reflexivity|].
  split; [apply wide_root_prints; vm_compute; reflexivity|]. split; [vm_compute; reflexivity|].
  split; [do 3 eexists; repeat split|].
  split; [clean|]. split; [clean|]. split; [clean|].
  split; [vm_compute; reflexivity|]. split; [vm_compute; reflexivity|].
  split.
  { do 2 eexists. split; [eexists; split; [do 2 right; left; reflexivity|constructor]|].
    split; [reflexivity|]. split; [apply not_asked; reflexivity|]. split; [|cbn; do 2 right; left; reflexivity].
    intros (? & ? & ? & ? & H). discriminate H. }
  split; [vm_compute; reflexivity|]. split; [vm_compute; reflexivity|].
  split; [do 2 eexists; split; [cbn; do 4 right; left; reflexivity|reflexivity]|].
  split; [vm_compute; reflexivity|]. split; [vm_compute; reflexivity|].
  split; [eexists; cbn; do 6 right; left; reflexivity|]. vm_compute. reflexivity.
Qed.

(** A comment before the operand of a sign: then the comment at the end of the
    line goes to a line of its own.  [-], [# c], [a # eol]. *)
Definition sign_src := $"-" ++ LF :: $"# c" ++ LF :: $"a # eol".
Definition sign_tree := TS R_ROOT F_other 0 13 [
  TS R_UNARY_EXPRESSION F_other 0 7 [ex_tk MINUS 0 1; ex_tk COMMENT 2 5; ex_tk R_IDENTIFIER 6 7];
  ex_tk COMMENT 8 13].
Theorem c53_sign_refuted :
  exists src t r e out, well_parsed src t /\ source_root false src t = Some r /\
    prints (root_doc (opts AArrow) wide_cell r) out /\ r_exprs r = [e] /\ ~ calm e /\
    gap_comments src t (wide [e]) = [($"# eol", false)] /\
    ptext out = $"-" ++ LF :: $"# c" ++ LF :: $"a" ++ LF :: $"# eol" ++ [LF].
Proof.
  exists sign_src, sign_tree. do 3 eexists. split; [vm_compute; repeat split|].
  split; [vm_compute; reflexivity|]. split; [apply wide_root_prints; vm_compute; reflexivity|].
  split; [reflexivity|]. split; [intros (_ & H & _); discriminate H|].
  split; vm_compute; reflexivity.
Qed.
Print Assumptions c53_sign_refuted.

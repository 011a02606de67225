(** Properties of the formatter: C54, the comments in headers.  Parameters as in
    SourceProps.v. *)
From Coq Require Import List Arith Bool NArith Lia Permutation String.
From Verif Require Import Text LineEndingModel SettingsModel SyntaxKind DirectiveModel ParseModel ParseSpec
  ParseProps FmtTree IrModel TableModel FmtModel FmtSpec FmtPathSpec FmtLayout FmtProps FmtMarkProps CommentsModel
  CommentsSpec AstModel FactorySpec SourceSpec PlaceSpec DressSpec SourceProps PlaceProps BodySpec BodyProofs BodyDressProofs.
Import ListNotations.

(** * C54: Comments in headers *)

(** Between the header of a loop, a function or a condition and its body: the
    comments go to the start of the body. *)
Theorem c54_source_bodies rf src t r G b :
  well_parsed src t -> conforms t = true -> source_root rf src t = Some r ->
  before_body r G b -> gap_clean src t G ->
  holds false (body_notes b) (all_comments (gap_comments src t G)).
Proof. exact (fun W C F => bodies_hold rf src t r W C F G b). Qed.
Print Assumptions c54_source_bodies.

(** In the header of a loop, and before the parameters of a function: above the
    loop or the function. *)
Theorem c54_source_headers rf src t r G e :
  well_parsed src t -> conforms t = true -> source_root rf src t = Some r ->
  in_header r G e -> gap_clean src t G ->
  holds true (n_lead (notes_of e)) (all_comments (gap_comments src t G)).
Proof. exact (fun W C F => headers_hold rf src t r W C F G e). Qed.
Print Assumptions c54_source_headers.

(** Around the condition of an [if]: those before it lead it, those behind it
    trail it. *)
Theorem c54_source_conditions rf src t r g n c th el :
  well_parsed src t -> conforms t = true -> source_root rf src t = Some r ->
  In (g, EIf n c th el) (root_nodes r) ->
  (forall d, In d [1; 2] -> gap_clean src t (g + d) ->
     holds false (n_lead (notes_of c)) (all_comments (gap_comments src t (g + d)))) /\
  (gap_clean src t (g + 2 + wide [c]) ->
     holds false (n_trail (notes_of c)) (all_comments (gap_comments src t (g + 2 + wide [c])))).
Proof. exact (fun W C F => conditions_hold rf src t r W C F g n c th el). Qed.
Print Assumptions c54_source_conditions.

(** Before [else]: a comment at the end of a line goes to the start of the
    first body, one on a line of its own to the start of the second. *)
Theorem c54_source_before_else rf src t r g n c th n' nl a :
  well_parsed src t -> conforms t = true -> source_root rf src t = Some r ->
  In (g, EIf n c th (Some (EElse n' nl a))) (root_nodes r) ->
  gap_clean src t (g + 3 + wide [c; th]) ->
  holds false (body_notes th) (end_of_line (gap_comments src t (g + 3 + wide [c; th]))) /\
  holds false (alternative_notes a) (own_line (gap_comments src t (g + 3 + wide [c; th]))).
Proof. exact (fun W C F => before_else_holds rf src t r W C F g n c th n' nl a). Qed.
Print Assumptions c54_source_before_else.

(** After [else]: to the start of the second body. *)
Theorem c54_source_after_else rf src t r g n nl a :
  well_parsed src t -> conforms t = true -> source_root rf src t = Some r ->
  In (g, EElse n nl a) (root_nodes r) -> gap_clean src t (g + 1) ->
  holds false (alternative_notes a) (all_comments (gap_comments src t (g + 1))).
Proof. exact (fun W C F => after_else_holds rf src t r W C F g n nl a). Qed.
Print Assumptions c54_source_after_else.

(** In the output: the comments between a header and a body in braces are on
    lines of their own, after the opening brace, with no token between it and
    them, above the first expression. *)
Theorem c54_bodies_shown rf src t r o pc out G p n e b :
  well_parsed src t -> conforms t = true -> source_root rf src t = Some r -> cell_printer pc ->
  before_body r G (EBraced n (e :: b)) -> gap_clean src t G ->
  in_file o r p (EBraced n (e :: b)) -> ~ skip_asked o p (EBraced n (e :: b)) -> ~ curly_curly (e :: b) ->
  prints (root_doc o pc r) out ->
  exists start rem pre h core post rest,
    out = start ++ PWord (WTok tLCURLY) :: rem ++ PNewline :: pre ++ h ++ core ++ post ++
            PNewline :: PWord (WTok tRCURLY) :: rest /\
    Forall remark rem /\ line_start pre /\ line_end post /\ ptokens pre = [] /\
    heads (all_comments (gap_comments src t G)) h /\
    block core /\ shows_tokens o (p_stmt (match b with [] => false | _ => true end)) [e] core.
Proof. exact (fun W C F P => bodies_shown o pc P rf src t r W F C G p n e b out). Qed.
Print Assumptions c54_bodies_shown.

(** The comments in the header of a loop (or before the parameters of a
    function) that is a statement of the file are on lines of their own above
    it, after the statements before it. *)
Theorem c54_headers_shown rf src t r o pc out G a e b :
  well_parsed src t -> conforms t = true -> source_root rf src t = Some r -> cell_printer pc ->
  r_exprs r = a ++ e :: b -> in_header r G e -> gap_clean src t G ->
  ~ skip_asked o (p_stmt true) e -> prints (root_doc o pc r) out ->
  exists pre h core post, out = pre ++ h ++ core ++ post /\ line_start pre /\ line_end post /\
    shows_tokens o (p_stmt true) a pre /\ heads (all_comments (gap_comments src t G)) h /\
    block core /\ shows_tokens o (p_stmt true) [e] core.
Proof. exact (fun W C F P => headers_shown o pc P rf src t r W F C G a e b out). Qed.
Print Assumptions c54_headers_shown.
(** The same in braces. *)
Theorem c54_inner_headers_shown rf src t r o pc out G p n a e b :
  well_parsed src t -> conforms t = true -> source_root rf src t = Some r -> cell_printer pc ->
  in_file o r p (EBraced n (a ++ e :: b)) -> ~ skip_asked o p (EBraced n (a ++ e :: b)) ->
  ~ curly_curly (a ++ e :: b) -> in_header r G e -> gap_clean src t G ->
  ~ skip_asked o (p_stmt (match b with [] => false | _ => true end)) e -> prints (root_doc o pc r) out ->
  exists start rem pre h core post rest,
    out = start ++ PWord (WTok tLCURLY) :: rem ++ PNewline :: pre ++ h ++ core ++ post ++
            PNewline :: PWord (WTok tRCURLY) :: rest /\
    Forall remark rem /\ line_start pre /\ line_end post /\
    shows_tokens o (p_stmt true) a pre /\ heads (all_comments (gap_comments src t G)) h /\
    block core /\ shows_tokens o (p_stmt (match b with [] => false | _ => true end)) [e] core.
Proof. exact (fun W C F P => inner_headers_shown o pc P rf src t r W F C G p n a e b out). Qed.
Print Assumptions c54_inner_headers_shown.

(** A loop of each kind, a function and a condition with comments in their
    headers. *)
Definition body_src :=
  $"for # a" ++ LF :: $"(x in y # b" ++ LF :: $") # c" ++ LF :: $"{" ++ LF :: $"# d" ++ LF ::
  $"z" ++ LF :: $"}" ++ LF :: $"while (w) # e" ++ LF :: $"{}" ++ LF :: $"repeat # f" ++ LF ::
  $"v" ++ LF :: $"function # g" ++ LF :: $"() # h" ++ LF :: $"{u}" ++ LF :: $"{" ++ LF ::
  $"if ( # i" ++ LF :: $"p # j" ++ LF :: $") # k" ++ LF :: $"{" ++ LF :: $"q" ++ LF :: $"} # l" ++ LF ::
  $"# m" ++ LF :: $"else # n" ++ LF :: $"if (r) {s}" ++ LF :: $"}".
Definition body_tree :=
  TS R_ROOT F_other 0 148 [ TS R_FOR_STATEMENT F_other 0 35 [ ex_tk FOR_KW 0 3; ex_tk COMMENT 4 7;
  ex_tk L_PAREN 8 9; ex_tk R_IDENTIFIER 9 10; ex_tk IN_KW 11 13; ex_tk R_IDENTIFIER 14 15; ex_tk
  COMMENT 16 19; ex_tk R_PAREN 20 21; ex_tk COMMENT 22 25; TS R_BRACED_EXPRESSIONS F_other 26 35 [
  ex_tk L_CURLY 26 27; ex_tk COMMENT 28 31; ex_tk R_IDENTIFIER 32 33; ex_tk R_CURLY 34 35]]; TS
  R_WHILE_STATEMENT F_other 36 52 [ ex_tk WHILE_KW 36 41; ex_tk L_PAREN 42 43; ex_tk R_IDENTIFIER 43
  44; ex_tk R_PAREN 44 45; ex_tk COMMENT 46 49; TS R_BRACED_EXPRESSIONS F_other 50 52 [ ex_tk L_CURLY
  50 51; ex_tk R_CURLY 51 52]]; TS R_REPEAT_STATEMENT F_other 53 65 [ ex_tk REPEAT_KW 53 59; ex_tk
  COMMENT 60 63; ex_tk R_IDENTIFIER 64 65]; TS R_FUNCTION_DEFINITION F_other 66 89 [ ex_tk FUNCTION_KW
  66 74; ex_tk COMMENT 75 78; TS R_PARAMETERS F_other 79 81 [ ex_tk L_PAREN 79 80; ex_tk R_PAREN 80
  81]; ex_tk COMMENT 82 85; TS R_BRACED_EXPRESSIONS F_other 86 89 [ ex_tk L_CURLY 86 87; ex_tk
  R_IDENTIFIER 87 88; ex_tk R_CURLY 88 89]]; TS R_BRACED_EXPRESSIONS F_other 90 148 [ ex_tk L_CURLY 90
  91; TS R_IF_STATEMENT F_other 92 146 [ ex_tk IF_KW 92 94; ex_tk L_PAREN 95 96; ex_tk COMMENT 97 100;
  ex_tk R_IDENTIFIER 101 102; ex_tk COMMENT 103 106; ex_tk R_PAREN 107 108; ex_tk COMMENT 109 112; TS
  R_BRACED_EXPRESSIONS F_other 113 118 [ ex_tk L_CURLY 113 114; ex_tk R_IDENTIFIER 115 116; ex_tk
  R_CURLY 117 118]; ex_tk COMMENT 119 122; ex_tk COMMENT 123 126; ex_tk ELSE_KW 127 131; ex_tk COMMENT
  132 135; TS R_IF_STATEMENT F_other 136 146 [ ex_tk IF_KW 136 138; ex_tk L_PAREN 139 140; ex_tk
  R_IDENTIFIER 140 141; ex_tk R_PAREN 141 142; TS R_BRACED_EXPRESSIONS F_other 143 146 [ ex_tk L_CURLY
  143 144; ex_tk R_IDENTIFIER 144 145; ex_tk R_CURLY 145 146]]]; ex_tk R_CURLY 147 148]].
Definition body_out :=
  $"# a" ++ LF :: $"# b" ++ LF :: $"for (x in y) {" ++ LF :: $"# c" ++ LF :: $"# d" ++ LF :: $"z" ++ LF ::
  $"}" ++ LF :: $"while (w) {" ++ LF :: $"# e" ++ LF :: $"}" ++ LF :: $"repeat {" ++ LF :: $"# f" ++ LF ::
  $"v" ++ LF :: $"}" ++ LF :: $"# g" ++ LF :: $"function() {" ++ LF :: $"# h" ++ LF :: $"u" ++ LF :: $"}" ++
  LF :: $"{" ++ LF :: $"if (" ++ LF :: $"# i" ++ LF :: $"p # j" ++ LF :: $") {" ++ LF :: $"# k" ++ LF ::
  $"# l" ++ LF :: $"q" ++ LF :: $"} else if (r) {" ++ LF :: $"# m" ++ LF :: $"# n" ++ LF :: $"s" ++ LF ::
  $"}" ++ LF :: $"}" ++ [LF].
Lemma not_directed o p e :
  forallb (fun c => match parse_comment_directive (c_text c) with Some _ => false | None => true end)
    (n_lead (notes_of e)) = true ->
  o_skip o = None -> ~ skip_asked o p e.
Proof.
  intros E S [[_ [c [I D]]]|[n [f [a [_ [_ [l [name [H _]]]]]]]]]; [|congruence].
  rewrite forallb_forall in E. specialize (E c I). rewrite D in E. discriminate E.
Qed.
Ltac node k := eapply (nth_error_In _ k); etransitivity; [vm_compute; reflexivity|reflexivity].
Example body_example :
  well_parsed body_src body_tree /\ conforms body_tree = true /\
  exists r out, source_root false body_src body_tree = Some r /\
    prints (root_doc (opts AArrow) wide_cell r) out /\ ptext out = body_out /\
    (exists v s b n l, In (0, EFor n v s b) (root_nodes r) /\ wide [v] = 1 /\ wide [v; s] = 2 /\
       r_exprs r = [] ++ EFor n v s b :: l /\ ~ skip_asked (opts AArrow) (p_stmt true) (EFor n v s b)) /\
    gap_comments body_src body_tree 1 = [($"# a", false)] /\ gap_clean body_src body_tree 1 /\
    gap_comments body_src body_tree 5 = [($"# b", false)] /\ gap_clean body_src body_tree 5 /\
    gap_comments body_src body_tree 6 = [($"# c", false)] /\ gap_clean body_src body_tree 6 /\
    (exists n c b, In (9, EWhile n c b) (root_nodes r) /\ wide [c] = 1) /\
    gap_comments body_src body_tree 13 = [($"# e", false)] /\ gap_clean body_src body_tree 13 /\
    (exists n b, In (15, ERepeat n b) (root_nodes r)) /\
    gap_comments body_src body_tree 16 = [($"# f", false)] /\ gap_clean body_src body_tree 16 /\
    (exists n k ps m b, In (17, EFunction n k ps (EBraced m [b])) (root_nodes r) /\ wide [ps] = 2 /\
       before_body r 20 (EBraced m [b]) /\ ~ curly_curly [b] /\
       exists p, in_file (opts AArrow) r p (EBraced m [b]) /\ ~ skip_asked (opts AArrow) p (EBraced m [b])) /\
    gap_comments body_src body_tree 18 = [($"# g", false)] /\ gap_clean body_src body_tree 18 /\
    gap_comments body_src body_tree 20 = [($"# h", false)] /\ gap_clean body_src body_tree 20 /\
    (exists n c th n' nl a, In (24, EIf n c th (Some (EElse n' nl a))) (root_nodes r) /\
       In (31, EElse n' nl a) (root_nodes r) /\ wide [c] = 1 /\ wide [c; th] = 4) /\
    gap_comments body_src body_tree 26 = [($"# i", false)] /\ gap_clean body_src body_tree 26 /\
    gap_comments body_src body_tree 27 = [($"# j", false)] /\ gap_clean body_src body_tree 27 /\
    gap_comments body_src body_tree 28 = [($"# k", false)] /\ gap_clean body_src body_tree 28 /\
    gap_comments body_src body_tree 31 = [($"# l", false); ($"# m", true)] /\ gap_clean body_src body_tree 31 /\
    gap_comments body_src body_tree 32 = [($"# n", false)] /\ gap_clean body_src body_tree 32.
Proof.
  split; [vm_compute; repeat split|]. split; [reflexivity|].
  do 2 eexists. split; [vm_compute; reflexivity|].
  split; [apply wide_root_prints; vm_compute; reflexivity|]. split; [vm_compute; reflexivity|].
  split.
  { do 5 eexists. split; [node 0|]. split; [reflexivity|]. split; [reflexivity|].
    split; [reflexivity|]. apply not_directed; vm_compute; reflexivity. }
  do 6 (split; [first [clean | vm_compute; reflexivity]|]).
  split; [do 3 eexists; split; [node 5|reflexivity]|].
  do 2 (split; [first [clean | vm_compute; reflexivity]|]).
  split; [do 2 eexists; node 8|].
  do 2 (split; [first [clean | vm_compute; reflexivity]|]).
  split.
  { do 5 eexists. split; [node 10|]. split; [reflexivity|].
    split; [refine (body_function _ 17 _ _ (EParams _ []) _ _); node 10|].
    split; [intros (? & ? & ? & ? & H); discriminate H|].
    eexists. split; [|apply not_asked; reflexivity].
    eexists. split; [do 3 right; left; reflexivity|].
    eapply V_below; [apply not_directed; vm_compute; reflexivity|apply P_function_body|constructor]. }
  do 4 (split; [first [clean | vm_compute; reflexivity]|]).
  split.
  { do 6 eexists. split; [node 15|].
    split; [node 19|]. split; reflexivity. }
  do 9 (split; [first [clean | vm_compute; reflexivity]|]). clean.
Qed.

(** Properties of the formatter from the source on: C42, C43, C44, C46.

    [src]: the text of a file, [t]: tree-sitter's tree of it; [source_root]
    parses the file, attaches its comments and reads the typed tree.
    [root_nodes r]: the nodes of the typed tree, each with the number of the
    tokens before it. *)
From Coq Require Import List Arith Bool NArith Lia String.
From Verif Require Import Text LineEndingModel LineEndingSpec LineEndingProofs SettingsModel SyntaxKind
  DirectiveModel ParseModel ParseSpec ParseProps FmtTree IrModel TableModel FmtModel FmtSpec
  FmtPathSpec FmtProofs FmtPathProofs FmtBlankProofs FmtMarkProofs FmtLayout FmtProps FmtBlankProps
  FmtMarkProps FmtSkipProps CommentsModel AstModel FrontProofs SourceSpec SourceProofs
  SourceCommentProofs SourceNodeProofs PlaceSourceProofs.
Import ListNotations.

(** * Nodes *)

(** The text that a node is held to have, the line breaks before it and
    before the commas after arguments, the line breaks around its comments
    and which of these lie inside the node: all are those of the source.
    ([cr_paired]: a CR that is not part of a CRLF is no line break for the
    formatter in one place and one in another.) *)
Theorem c38_source_nodes rf src t r g e :
  well_parsed src t -> source_root rf src t = Some r -> In (g, e) (root_nodes r) ->
  node_right src t g e /\
  match e with EArgs _ _ _ l => commas_right src t (g + 1) l | _ => True end.
Proof. exact (fun W F => source_right rf src t r W F g e). Qed.
Print Assumptions c38_source_nodes.

(** Whatever is laid out is a node. *)
Theorem c38_source_found o r p x : in_file o r p x -> exists g, In (g, x) (root_nodes r).
Proof. exact (in_file_node o r p x). Qed.
Print Assumptions c38_source_found.

(** * C42 *)

Lemma source_skipped rf src t r o pc out p y g :
  well_parsed src t -> source_root rf src t = Some r -> stored (o_skip o) ->
  in_file o r p y -> skip_asked o p y -> In (g, y) (root_nodes r) -> etokens y <> [] ->
  prints (root_doc o pc r) out ->
  exists before own s f code a b, spot src t g y before own s f /\ slice s f src = Some code /\
    ptext out = ptext a ++ without_cr_of_crlf code ++ ptext b.
Proof.
  intros W F St I Sk H N P.
  destruct (copied_source rf src t r W F g y H N) as (before & own & s & f & code & S & C & E).
  destruct (c42_skipped_reproduced o pc r out p y (source_front_shaped rf src t r F) St I Sk P)
    as (a & b & _ & T).
  exists before, own, s, f, code, a, b. rewrite E in T. auto.
Qed.
(** A node under a skip directive, or a call of a function listed in [skip]:
    the bytes of the source from its first token to its last one are printed,
    CRLF turned into LF. *)
Theorem c42_source_skipped rf src t r o pc out p y g :
  well_parsed src t -> source_root rf src t = Some r -> stored (o_skip o) ->
  in_file o r p y -> skip_asked o p y -> In (g, y) (root_nodes r) -> etokens y <> [] ->
  prints (root_doc o pc r) out ->
  exists before own s f code a b, spot src t g y before own s f /\ slice s f src = Some code /\
    ptext out = ptext a ++ without_cr_of_crlf code ++ ptext b.
Proof. exact (source_skipped rf src t r o pc out p y g). Qed.
Print Assumptions c42_source_skipped.

Lemma source_copies rf src t r o pc out y :
  well_parsed src t -> source_root rf src t = Some r -> cell_printer pc ->
  prints (root_doc o pc r) out -> In (PWord (WVerb y)) out -> etokens y <> [] ->
  exists g before own s f code, In (g, y) (root_nodes r) /\ spot src t g y before own s f /\
    slice s f src = Some code /\ word_text (WVerb y) = without_cr_of_crlf code.
Proof.
  intros W F C P H N.
  destruct (c42_others_formatted o pc r out y C P H) as (e & p & He & I & _).
  destruct (root_holds r e y He (inside_held _ _ _ _ _ I)) as [g Hg].
  destruct (copied_source rf src t r W F g y Hg N) as (before & own & s & f & code & S & Cd & E).
  exists g, before, own, s, f, code. split; [exact Hg|]. split; [exact S|]. split; [exact Cd|].
  cbn [word_text]. rewrite normalize_ref_spec, normalize_spec, E. reflexivity.
Qed.
(** Whatever is copied is a part of the source, from a token to a token. *)
Theorem c42_source_copies rf src t r o pc out y :
  well_parsed src t -> source_root rf src t = Some r -> cell_printer pc ->
  prints (root_doc o pc r) out -> In (PWord (WVerb y)) out -> etokens y <> [] ->
  exists g before own s f code, In (g, y) (root_nodes r) /\ spot src t g y before own s f /\
    slice s f src = Some code /\ word_text (WVerb y) = without_cr_of_crlf code.
Proof. exact (source_copies rf src t r o pc out y). Qed.
Print Assumptions c42_source_copies.

(** * C43 *)

Lemma source_left_alone rf src t r o pc :
  well_parsed src t -> source_root rf src t = Some r -> left_alone r ->
  fmt_root o pc r = RCopied (without_cr_of_crlf src).
Proof.
  intros W F L. rewrite (proj1 (c43_left_alone_iff o pc r) L).
  rewrite (root_text rf src t r W F). reflexivity.
Qed.
(** A file that is to be left alone is printed byte for byte, CRLF turned into
    LF. *)
Theorem c43_source_left_alone rf src t r o pc :
  well_parsed src t -> source_root rf src t = Some r -> left_alone r ->
  fmt_root o pc r = RCopied (without_cr_of_crlf src).
Proof. exact (source_left_alone rf src t r o pc). Qed.
Print Assumptions c43_source_left_alone.

(** * C44 *)

Lemma source_top_level rf src t r o pc out :
  well_parsed src t -> source_root rf src t = Some r -> cell_printer pc -> r_exprs r <> [] ->
  prints (root_doc o pc r) out ->
  exists body, spaced_at src t (fun _ => shows_stmt o true) 2 0 (r_exprs r) body /\
    out = body ++ [PNewline].
Proof.
  intros W F C N P. destruct (root_bare rf src t r W F N) as (N1 & N2 & N3 & N4).
  destruct (c44_top_level o pc r out C (source_front_shaped rf src t r F) N N1 N2 N3 P)
    as (body & S & E).
  pose proof (spaced_root rf src t r W F _ _ _ S) as Sp. unfold bom_tokens in Sp. rewrite N4 in Sp, E.
  exists body. split; [exact Sp|exact E].
Qed.
(** At top level, [breaks_in] counting the line breaks of the source. *)
Theorem c44_source_top_level rf src t r o pc out :
  well_parsed src t -> source_root rf src t = Some r -> cell_printer pc -> r_exprs r <> [] ->
  prints (root_doc o pc r) out ->
  exists body, spaced_at src t (fun _ => shows_stmt o true) 2 0 (r_exprs r) body /\
    out = body ++ [PNewline].
Proof. exact (source_top_level rf src t r o pc out). Qed.
Print Assumptions c44_source_top_level.

Lemma source_braces rf src t r o pc out p n es g :
  well_parsed src t -> source_root rf src t = Some r -> cell_printer pc ->
  in_file o r p (EBraced n es) -> ~ skip_asked o p (EBraced n es) -> es <> [] -> ~ curly_curly es ->
  In (g, EBraced n es) (root_nodes r) -> prints (root_doc o pc r) out ->
  exists pre a body post,
    out = pre ++ PWord (WTok tLCURLY) :: a ++ PNewline :: body ++
            PNewline :: PWord (WTok tRCURLY) :: post /\
    Forall remark a /\ spaced_at src t (fun last => shows_stmt o (negb last)) 1 (g + 1) es body.
Proof.
  intros W F C I Sk N Cc H P.
  destruct (c44_braces o pc r out p n es C (source_front_shaped rf src t r F) I Sk N Cc P)
    as (pre & a & body & post & E & R & S).
  exists pre, a, body, post. split; [exact E|]. split; [exact R|].
  exact (spaced_braced rf src t r W F _ _ _ _ _ _ H S).
Qed.
Theorem c44_source_braces rf src t r o pc out p n es g :
  well_parsed src t -> source_root rf src t = Some r -> cell_printer pc ->
  in_file o r p (EBraced n es) -> ~ skip_asked o p (EBraced n es) -> es <> [] -> ~ curly_curly es ->
  In (g, EBraced n es) (root_nodes r) -> prints (root_doc o pc r) out ->
  exists pre a body post,
    out = pre ++ PWord (WTok tLCURLY) :: a ++ PNewline :: body ++
            PNewline :: PWord (WTok tRCURLY) :: post /\
    Forall remark a /\ spaced_at src t (fun last => shows_stmt o (negb last)) 1 (g + 1) es body.
Proof. exact (source_braces rf src t r o pc out p n es g). Qed.
Print Assumptions c44_source_braces.

(** * C46 *)

Lemma source_arguments rf src t r o pc out p n k rc hs a rest g i :
  well_parsed src t -> source_root rf src t = Some r -> cell_printer pc ->
  o_persistent_line_breaks o = PRespect ->
  in_file o r p (EArgs n k rc (hs ++ a :: rest)) ->
  ~ skip_asked o p (EArgs n k rc (hs ++ a :: rest)) -> (q_table p = true -> k <> KCall) ->
  Forall hole hs -> etokens a <> [] -> ~ titled_block k (hs ++ a :: rest) ->
  In (g, EArgs n k rc (hs ++ a :: rest)) (root_nodes r) ->
  i <= List.length hs -> line_break src t (g + 1 + i) ->
  prints (root_doc o pc r) out ->
  exists pre nl ms post l',
    line_marks out = pre ++ (l_token k, nl) :: map (fun _ => (tCOMMA, false)) hs ++ ms ++
      (r_token k, true) :: post /\
    Forall2 (tidy o p_item) (a :: rest) l' /\ one_per_line (with_commas (map etokens l')) ms.
Proof.
  intros W F C Per I Sk Tb Hs N Tt H L B P.
  apply (c46_arguments o pc r out p n k rc hs a rest C Per (source_front_shaped rf src t r F) I Sk Tb Hs).
  - intros (nt & sl & -> & _). apply N. reflexivity.
  - exact Tt.
  - exact (first_argument rf src t r W F g n k rc hs a rest i H Hs N L B).
  - exact P.
Qed.
(** A line break in the source between the opening delimiter and the first
    argument [a] that is not left out. *)
Theorem c46_source_arguments rf src t r o pc out p n k rc hs a rest g i :
  well_parsed src t -> source_root rf src t = Some r -> cell_printer pc ->
  o_persistent_line_breaks o = PRespect ->
  in_file o r p (EArgs n k rc (hs ++ a :: rest)) ->
  ~ skip_asked o p (EArgs n k rc (hs ++ a :: rest)) -> (q_table p = true -> k <> KCall) ->
  Forall hole hs -> etokens a <> [] -> ~ titled_block k (hs ++ a :: rest) ->
  In (g, EArgs n k rc (hs ++ a :: rest)) (root_nodes r) ->
  i <= List.length hs -> line_break src t (g + 1 + i) ->
  prints (root_doc o pc r) out ->
  exists pre nl ms post l',
    line_marks out = pre ++ (l_token k, nl) :: map (fun _ => (tCOMMA, false)) hs ++ ms ++
      (r_token k, true) :: post /\
    Forall2 (tidy o p_item) (a :: rest) l' /\ one_per_line (with_commas (map etokens l')) ms.
Proof. exact (source_arguments rf src t r o pc out p n k rc hs a rest g i). Qed.
Print Assumptions c46_source_arguments.

Lemma source_parameters rf src t r o pc out p n x l g :
  well_parsed src t -> source_root rf src t = Some r -> cell_printer pc ->
  o_persistent_line_breaks o = PRespect ->
  in_file o r p (EParams n (x :: l)) -> ~ skip_asked o p (EParams n (x :: l)) ->
  In (g, EParams n (x :: l)) (root_nodes r) -> line_break src t (g + 1) ->
  prints (root_doc o pc r) out ->
  exists pre nl ms post l',
    line_marks out = pre ++ (tLPAREN, nl) :: ms ++ (tRPAREN, true) :: post /\
    Forall2 (tidy o p_plain) (x :: l) l' /\ one_per_line (with_commas (map etokens l')) ms.
Proof.
  intros W F C Per I Sk H B P.
  apply (c46_parameters o pc r out p n x l C Per (source_front_shaped rf src t r F) I Sk); [|exact P].
  exact (first_param rf src t r W F g n x l H B).
Qed.
Theorem c46_source_parameters rf src t r o pc out p n x l g :
  well_parsed src t -> source_root rf src t = Some r -> cell_printer pc ->
  o_persistent_line_breaks o = PRespect ->
  in_file o r p (EParams n (x :: l)) -> ~ skip_asked o p (EParams n (x :: l)) ->
  In (g, EParams n (x :: l)) (root_nodes r) -> line_break src t (g + 1) ->
  prints (root_doc o pc r) out ->
  exists pre nl ms post l',
    line_marks out = pre ++ (tLPAREN, nl) :: ms ++ (tRPAREN, true) :: post /\
    Forall2 (tidy o p_plain) (x :: l) l' /\ one_per_line (with_commas (map etokens l')) ms.
Proof. exact (source_parameters rf src t r o pc out p n x l g). Qed.
Print Assumptions c46_source_parameters.

Lemma source_chains rf src t r o pc out p e h l g :
  well_parsed src t -> source_root rf src t = Some r -> cell_printer pc ->
  o_persistent_line_breaks o = PRespect ->
  in_file o r p e -> ~ skip_asked o p e -> FmtPathSpec.chain e h l ->
  In (g, e) (root_nodes r) -> line_break src t (g + List.length (etokens h) + 1) ->
  prints (root_doc o pc r) out ->
  exists pre mh mt post h', line_marks out = pre ++ mh ++ mt ++ post /\
    tidy o p_item h h' /\ map fst mh = etokens h' /\ tail_marks (on_new_line o) l mt.
Proof.
  intros W F C Per I Sk Ch H B P.
  apply (c46_chains o pc r out p e h l C Per (source_front_shaped rf src t r F) I Sk Ch); [|exact P].
  exact (chain_operand rf src t r W F g e h l Ch H B).
Qed.
(** A line break after the first operator of a chain. *)
Theorem c46_source_chains rf src t r o pc out p e h l g :
  well_parsed src t -> source_root rf src t = Some r -> cell_printer pc ->
  o_persistent_line_breaks o = PRespect ->
  in_file o r p e -> ~ skip_asked o p e -> FmtPathSpec.chain e h l ->
  In (g, e) (root_nodes r) -> line_break src t (g + List.length (etokens h) + 1) ->
  prints (root_doc o pc r) out ->
  exists pre mh mt post h', line_marks out = pre ++ mh ++ mt ++ post /\
    tidy o p_item h h' /\ map fst mh = etokens h' /\ tail_marks (on_new_line o) l mt.
Proof. exact (source_chains rf src t r o pc out p e h l g). Qed.
Print Assumptions c46_source_chains.

Lemma source_assignments rf src t r o pc out p n l op x g :
  well_parsed src t -> source_root rf src t = Some r -> cell_printer pc ->
  o_persistent_line_breaks o = PRespect ->
  in_file o r p (EBinary n l op x) -> ~ skip_asked o p (EBinary n l op x) ->
  In (t_kind op) [EQUAL; ASSIGN; SUPER_ASSIGN; TILDE] ->
  In (g, EBinary n l op x) (root_nodes r) -> line_break src t (g + List.length (etokens l) + 1) ->
  prints (root_doc o pc r) out ->
  exists pre op' nl ms post table x', line_marks out = pre ++ (op', nl) :: ms ++ post /\
    restyled (o_assignment_style o) (q_eq p) op op' /\
    tidy o (p_operand (q_eq p) op table) x x' /\ map fst ms = etokens x' /\ begins_line ms.
Proof.
  intros W F C Per I Sk Op H B P.
  apply (c46_assignments o pc r out p n l op x C Per (source_front_shaped rf src t r F) I Sk Op); [|exact P].
  exact (right_operand rf src t r W F g n l op x H B).
Qed.
Theorem c46_source_assignments rf src t r o pc out p n l op x g :
  well_parsed src t -> source_root rf src t = Some r -> cell_printer pc ->
  o_persistent_line_breaks o = PRespect ->
  in_file o r p (EBinary n l op x) -> ~ skip_asked o p (EBinary n l op x) ->
  In (t_kind op) [EQUAL; ASSIGN; SUPER_ASSIGN; TILDE] ->
  In (g, EBinary n l op x) (root_nodes r) -> line_break src t (g + List.length (etokens l) + 1) ->
  prints (root_doc o pc r) out ->
  exists pre op' nl ms post table x', line_marks out = pre ++ (op', nl) :: ms ++ post /\
    restyled (o_assignment_style o) (q_eq p) op op' /\
    tidy o (p_operand (q_eq p) op table) x x' /\ map fst ms = etokens x' /\ begins_line ms.
Proof. exact (source_assignments rf src t r o pc out p n l op x g). Qed.
Print Assumptions c46_source_assignments.

(** [# fmt: skip], [x  =  1], two empty lines, [f(], [a,b)]. *)
Definition spot_src := $"# fmt: skip" ++ LF :: $"x  =  1" ++ LF :: LF :: LF :: $"f(" ++ LF :: $"a,b)".
Definition spot_tree := TS R_ROOT F_other 0 29 [
  ex_tk COMMENT 0 11;
  TS R_BINARY_EXPRESSION F_other 12 19
    [ex_tk R_IDENTIFIER 12 13; ex_tk EQUAL 15 16; TS R_DOUBLE_VALUE F_other 18 19 []];
  TS R_CALL F_other 22 29 [
    ex_tk R_IDENTIFIER 22 23;
    TS R_UNMAPPED F_arguments 23 29
      [ex_tk L_PAREN 23 24; TS R_ARGUMENT F_other 25 26 [ex_tk R_IDENTIFIER 25 26];
       ex_tk COMMA 26 27; TS R_ARGUMENT F_other 27 28 [ex_tk R_IDENTIFIER 27 28];
       ex_tk R_PAREN 28 29]]].
Example spot_example :
  well_parsed spot_src spot_tree /\
  exists r out, source_root false spot_src spot_tree = Some r /\
    prints (root_doc (opts AArrow) wide_cell r) out /\
    ptext out = $"# fmt: skip" ++ LF :: $"x  =  1" ++ LF :: LF :: LF :: $"f(" ++ LF :: $"a," ++ LF ::
                $"b" ++ LF :: $")" ++ [LF] /\
    (exists y, nth_error (r_exprs r) 0 = Some y /\ In (0, y) (root_nodes r) /\
       skip_asked (opts AArrow) (p_stmt true) y /\ in_file (opts AArrow) r (p_stmt true) y) /\
    source_gap spot_src spot_tree 3 IDENT [LF; LF; LF] /\
    (exists n k rc l, In (4, EArgs n k rc l) (root_nodes r)) /\ line_break spot_src spot_tree 5.
Proof.
  split; [vm_compute; repeat split|]. do 2 eexists. split; [vm_compute; reflexivity|].
  split; [apply wide_root_prints; vm_compute; reflexivity|]. split; [vm_compute; reflexivity|].
  split; [|split; [|split]].
  - eexists. split; [reflexivity|]. split; [left; reflexivity|]. split.
    + left. split; [reflexivity|]. eexists. split; [left; reflexivity|vm_compute; reflexivity].
    + eexists. split; [left; reflexivity|constructor].
  - eexists [LCom 0 11; LTok IDENT 12 13; LTok EQUAL 15 16; LTok _ 18 19], 22, 23, _.
    vm_compute. repeat split.
  - do 4 eexists. cbn. do 5 right. left. reflexivity.
  - eexists _, [LF]. split; [|split; [split; [discriminate|exact I]|left; reflexivity]].
    eexists [LCom 0 11; LTok IDENT 12 13; LTok EQUAL 15 16; LTok _ 18 19; LTok IDENT 22 23; LTok L_PAREN 23 24],
      25, 26, _.
    vm_compute. repeat split.
Qed.

(** [y <-], [a |>], [f()], [function(], [x) {], [u], an empty line, [v], [}]. *)
Definition break_src := $"y <-" ++ LF :: $"a |>" ++ LF :: $"f()" ++ LF :: $"function(" ++ LF ::
  $"x) {" ++ LF :: $"u" ++ LF :: LF :: $"v" ++ LF :: $"}".
Definition break_tree := TS R_ROOT F_other 0 35 [
  TS R_BINARY_EXPRESSION F_other 0 13 [
    ex_tk R_IDENTIFIER 0 1; ex_tk ASSIGN 2 4;
    TS R_BINARY_EXPRESSION F_other 5 13 [
      ex_tk R_IDENTIFIER 5 6; ex_tk PIPE 7 9;
      TS R_CALL F_other 10 13 [
        ex_tk R_IDENTIFIER 10 11;
        TS R_UNMAPPED F_arguments 11 13 [ex_tk L_PAREN 11 12; ex_tk R_PAREN 12 13]]]];
  TS R_FUNCTION_DEFINITION F_other 14 35 [
    ex_tk FUNCTION_KW 14 22;
    TS R_PARAMETERS F_other 22 26 [
      ex_tk L_PAREN 22 23; TS R_PARAMETER F_other 24 25 [ex_tk R_IDENTIFIER 24 25];
      ex_tk R_PAREN 25 26];
    TS R_BRACED_EXPRESSIONS F_other 27 35 [
      ex_tk L_CURLY 27 28; ex_tk R_IDENTIFIER 29 30; ex_tk R_IDENTIFIER 32 33;
      ex_tk R_CURLY 34 35]]].
Ltac gap_at b s f := eexists b, s, f, _; vm_compute; repeat split.
Example break_example :
  well_parsed break_src break_tree /\
  exists r out, source_root false break_src break_tree = Some r /\
    prints (root_doc (opts AArrow) wide_cell r) out /\
    ptext out = $"y <-" ++ LF :: $"a |>" ++ LF :: $"f()" ++ LF :: $"function(" ++ LF ::
      $"x" ++ LF :: $") {" ++ LF :: $"u" ++ LF :: LF :: $"v" ++ LF :: $"}" ++ [LF] /\
    (exists p n l op x, in_file (opts AArrow) r p (EBinary n l op x) /\ t_kind op = ASSIGN /\
       In (0, EBinary n l op x) (root_nodes r)) /\ line_break break_src break_tree 2 /\
    (exists p e h l, in_file (opts AArrow) r p e /\ FmtPathSpec.chain e h l /\
       List.length (etokens h) = 1 /\ In (2, e) (root_nodes r)) /\
    line_break break_src break_tree 4 /\
    (exists p n x, in_file (opts AArrow) r p (EParams n [x]) /\
       In (8, EParams n [x]) (root_nodes r)) /\ line_break break_src break_tree 9 /\
    (exists p n u v, in_file (opts AArrow) r p (EBraced n [u; v]) /\
       In (11, EBraced n [u; v]) (root_nodes r)) /\
    source_gap break_src break_tree 13 IDENT [LF; LF].
Proof.
  split; [vm_compute; repeat split|]. do 2 eexists. split; [vm_compute; reflexivity|].
  split; [apply wide_root_prints; vm_compute; reflexivity|]. split; [vm_compute; reflexivity|].
  assert (L : forall g k gap, source_gap break_src break_tree g k gap -> gap = [LF] ->
            line_break break_src break_tree g).
  { intros g k gap G ->. exists k, [LF]. split; [exact G|].
    split; [split; [discriminate|exact I]|left; reflexivity]. }
  split; [|split; [|split; [|split; [|split; [|split; [|split]]]]]].
  - do 5 eexists. split; [|split; [|cbn; left; reflexivity]]; [|reflexivity].
    eexists. split; [left; reflexivity|constructor].
  - eapply L; [gap_at [LTok IDENT 0 1; LTok ASSIGN 2 4] 5 6|reflexivity].
  - do 4 eexists. split; [|split; [|split; [|cbn; do 2 right; left; reflexivity]]].
    + eexists. split; [left; reflexivity|].
      eapply V_below; [apply not_asked; reflexivity| |constructor].
      apply (P_right _ _ _ _ _ _ false); [reflexivity|]. split; [discriminate|].
      intros [_ [_ [c [[] _]]]].
    + apply CH_one; [reflexivity|]. intros (? & ? & ? & ? & E & _). discriminate E.
    + reflexivity.
  - eapply L; [gap_at [LTok IDENT 0 1; LTok ASSIGN 2 4; LTok IDENT 5 6; LTok PIPE 7 9] 10 11|reflexivity].
  - do 3 eexists. split; [|cbn; do 8 right; left; reflexivity].
    eexists. split; [right; left; reflexivity|].
    eapply V_below; [apply not_asked; reflexivity| |constructor]. apply P_params.
  - eapply L; [gap_at [LTok IDENT 0 1; LTok ASSIGN 2 4; LTok IDENT 5 6; LTok PIPE 7 9; LTok IDENT 10 11;
      LTok L_PAREN 11 12; LTok R_PAREN 12 13; LTok FUNCTION_KW 14 22; LTok L_PAREN 22 23] 24 25|reflexivity].
  - do 4 eexists. split; [|cbn; do 11 right; left; reflexivity].
    eexists. split; [right; left; reflexivity|].
    eapply V_below; [apply not_asked; reflexivity| |constructor]. apply P_function_body.
  - gap_at [LTok IDENT 0 1; LTok ASSIGN 2 4; LTok IDENT 5 6; LTok PIPE 7 9; LTok IDENT 10 11;
      LTok L_PAREN 11 12; LTok R_PAREN 12 13; LTok FUNCTION_KW 14 22; LTok L_PAREN 22 23;
      LTok IDENT 24 25; LTok R_PAREN 25 26; LTok L_CURLY 27 28; LTok IDENT 29 30] 32 33.
Qed.

(** Properties of the formatter: where the comments of C53-C55 are in the
    output.  Parameters as in SourceProps.v. *)
From Coq Require Import List Arith Bool NArith Lia Permutation String.
From Verif Require Import Text LineEndingModel SettingsModel SyntaxKind DirectiveModel ParseModel ParseSpec
  ParseProps FmtTree IrModel TableModel FmtModel FmtSpec FmtPathSpec FmtLayout FmtProps FmtMarkProps CommentsModel
  CommentsSpec AstModel FactorySpec SourceSpec PlaceSpec DressSpec FmtTidyProofs FrontProofs SourceProps PlaceProps PlaceSourceProofs BodySpec
  BodyProofs BodyProps BesideSpec BesideProofs BesideProps ShownSpec ShownSourceProofs ShownCoverProofs.
Import ListNotations.

(** * C55: The comments of a node, in the output *)

(** A comment of the source that leads a node is above its text, with only
    comments between; one that trails it is behind its text, on the line where
    it ends or below, with no other token between. *)
Theorem c55_comments_above rf src t r o pc out p e l :
  source_root rf src t = Some r -> cell_printer pc -> prints (root_doc o pc r) out ->
  laid_out o r p e -> holds false (n_lead (notes_of e)) l -> l <> [] -> shown_above o p e l out.
Proof. exact (fun F Cp P La H N => source_above o pc Cp rf src t r F out P false p e l La H N (or_introl eq_refl)). Qed.
Print Assumptions c55_comments_above.
Theorem c55_comments_behind rf src t r o pc out p e l :
  source_root rf src t = Some r -> cell_printer pc -> prints (root_doc o pc r) out ->
  laid_out o r p e -> holds false (n_trail (notes_of e)) l -> l <> [] -> shown_behind o p e l out.
Proof. exact (fun F Cp P La H N => source_behind o pc Cp rf src t r F out P false p e l La H N (or_introl eq_refl)). Qed.
Print Assumptions c55_comments_behind.
(** No node is left out, unless it is copied, in a table or in [{{ }}]. *)
Theorem c55_every_node rf src t r o pc out g x :
  source_root rf src t = Some r -> prints (root_doc o pc r) out ->
  In (g, x) (root_nodes r) -> sort_of x <> SoElse -> (hole x = true -> n_lead (notes_of x) <> []) ->
  (exists p, laid_out o r p x) \/ hidden o r x.
Proof. exact (fun F P => every_node_laid o pc r (source_front_shaped rf src t r F) out P g x). Qed.
Print Assumptions c55_every_node.

(** Among operands, arguments and parameters: those at the end of a line are
    behind what was on their left, those on lines of their own above what was on
    their right. *)
Theorem c55_beside_shown rf src t r o pc out G left right :
  well_parsed src t -> conforms t = true -> source_root rf src t = Some r -> cell_printer pc ->
  prints (root_doc o pc r) out ->
  beside r G left right -> gap_clean src t G -> shared_shown o r left right (gap_comments src t G) out.
Proof. exact (fun W C F Cp P => beside_shown o pc Cp rf src t r W C F out P G left right). Qed.
Print Assumptions c55_beside_shown.
Theorem c55_holes_shown rf src t r o pc out g n k rc a h b :
  well_parsed src t -> conforms t = true -> source_root rf src t = Some r -> cell_printer pc ->
  prints (root_doc o pc r) out ->
  In (g, EArgs n k rc (a ++ h :: b)) (root_nodes r) -> hole h = true ->
  gap_clean src t (g + 1 + wide a + List.length a) ->
  hole_shown o r a h (all_comments (gap_comments src t (g + 1 + wide a + List.length a))) out.
Proof. exact (fun W C F Cp P => holes_shown o pc Cp rf src t r W C F out P g n k rc a h b). Qed.
Print Assumptions c55_holes_shown.
Theorem c55_behind_holes_shown rf src t r o pc out g n k rc a h e b :
  well_parsed src t -> conforms t = true -> source_root rf src t = Some r -> cell_printer pc ->
  prints (root_doc o pc r) out ->
  In (g, EArgs n k rc (a ++ h :: e :: b)) (root_nodes r) -> hole h = true -> hole e = false ->
  gap_clean src t (g + 2 + wide a + List.length a) ->
  let l := all_comments (gap_comments src t (g + 2 + wide a + List.length a)) in
  forall p, laid_out o r p e -> l <> [] -> shown_above o p e l out.
Proof. exact (fun W C F Cp P => behind_holes_shown o pc Cp rf src t r W C F out P g n k rc a h e b). Qed.
Print Assumptions c55_behind_holes_shown.
Theorem c55_names_shown rf src t r o pc out g n x y k :
  well_parsed src t -> conforms t = true -> source_root rf src t = Some r -> cell_printer pc ->
  prints (root_doc o pc r) out ->
  In (g, EArg n (Some x) (Some y) k) (root_nodes r) -> gap_clean src t (g + wide [x]) ->
  let l := all_comments (gap_comments src t (g + wide [x])) in
  forall p, laid_out o r p x -> l <> [] -> shown_above o p x l out.
Proof. exact (fun W C F Cp P => names_shown o pc Cp rf src t r W C F out P g n x y k). Qed.
Print Assumptions c55_names_shown.
Theorem c55_clauses_shown rf src t r o pc out g n x :
  well_parsed src t -> conforms t = true -> source_root rf src t = Some r -> cell_printer pc ->
  prints (root_doc o pc r) out ->
  In (g, ENameClause n x) (root_nodes r) -> gap_clean src t (g + wide [x]) ->
  let l := all_comments (gap_comments src t (g + wide [x])) in
  forall p, laid_out o r p x -> l <> [] -> shown_above o p x l out.
Proof. exact (fun W C F Cp P => clauses_shown o pc Cp rf src t r W C F out P g n x). Qed.
Print Assumptions c55_clauses_shown.
(** In brackets without arguments or parameters they stay between the
    brackets. *)
Theorem c55_empty_arguments_shown rf src t r o pc out g n k rc p :
  well_parsed src t -> conforms t = true -> source_root rf src t = Some r -> cell_printer pc ->
  prints (root_doc o pc r) out ->
  In (g, EArgs n k rc []) (root_nodes r) -> gap_clean src t (g + 1) ->
  in_file o r p (EArgs n k rc []) -> ~ skip_asked o p (EArgs n k rc []) ->
  shown_inside (l_token k) (r_token k) (all_comments (gap_comments src t (g + 1))) out.
Proof. exact (fun W C F Cp P => empty_arguments_shown o pc rf src t r W C F out P g n k rc p). Qed.
Print Assumptions c55_empty_arguments_shown.
Theorem c55_empty_parameters_shown rf src t r o pc out g n p :
  well_parsed src t -> conforms t = true -> source_root rf src t = Some r -> cell_printer pc ->
  prints (root_doc o pc r) out ->
  In (g, EParams n []) (root_nodes r) -> gap_clean src t (g + 1) ->
  in_file o r p (EParams n []) -> ~ skip_asked o p (EParams n []) ->
  shown_inside tLPAREN tRPAREN (all_comments (gap_comments src t (g + 1))) out.
Proof. exact (fun W C F Cp P => empty_parameters_shown o pc rf src t r W C F out P g n p). Qed.
Print Assumptions c55_empty_parameters_shown.

(** * C54 *)

(** At the start of any body, with braces or without. *)
Theorem c54_starts_shown rf src t r o pc out G b :
  well_parsed src t -> conforms t = true -> source_root rf src t = Some r -> cell_printer pc ->
  prints (root_doc o pc r) out ->
  before_body r G b -> gap_clean src t G -> start_shown o r b (all_comments (gap_comments src t G)) out.
Proof. exact (fun W C F Cp P => starts_shown o pc Cp rf src t r W C F out P G b). Qed.
Print Assumptions c54_starts_shown.
(** Above any loop or function for those in its header. *)
Theorem c54_all_headers_shown rf src t r o pc out G e p :
  well_parsed src t -> conforms t = true -> source_root rf src t = Some r -> cell_printer pc ->
  prints (root_doc o pc r) out ->
  in_header r G e -> gap_clean src t G -> laid_out o r p e -> ~ skip_asked o p e ->
  all_comments (gap_comments src t G) <> [] -> shown_above o p e (all_comments (gap_comments src t G)) out.
Proof. exact (fun W C F Cp P => all_headers_shown o pc Cp rf src t r W C F out P G e p). Qed.
Print Assumptions c54_all_headers_shown.
(** Above the condition of an [if], or behind it. *)
Theorem c54_conditions_shown rf src t r o pc out g n c th el p :
  well_parsed src t -> conforms t = true -> source_root rf src t = Some r -> cell_printer pc ->
  prints (root_doc o pc r) out ->
  In (g, EIf n c th el) (root_nodes r) -> laid_out o r p c ->
  (forall d, In d [1; 2] -> gap_clean src t (g + d) ->
     all_comments (gap_comments src t (g + d)) <> [] ->
     shown_above o p c (all_comments (gap_comments src t (g + d))) out) /\
  (gap_clean src t (g + 2 + wide [c]) -> all_comments (gap_comments src t (g + 2 + wide [c])) <> [] ->
     shown_behind o p c (all_comments (gap_comments src t (g + 2 + wide [c]))) out).
Proof. exact (fun W C F Cp P => conditions_shown o pc Cp rf src t r W C F out P g n c th el p). Qed.
Print Assumptions c54_conditions_shown.
(** Around [else]: at the start of the first body or of the second. *)
Theorem c54_before_else_shown rf src t r o pc out g n c th n' nl a :
  well_parsed src t -> conforms t = true -> source_root rf src t = Some r -> cell_printer pc ->
  prints (root_doc o pc r) out ->
  In (g, EIf n c th (Some (EElse n' nl a))) (root_nodes r) ->
  gap_clean src t (g + 3 + wide [c; th]) ->
  start_shown o r th (end_of_line (gap_comments src t (g + 3 + wide [c; th]))) out /\
  alternative_shown o r a (own_line (gap_comments src t (g + 3 + wide [c; th]))) out.
Proof. exact (fun W C F Cp P => before_else_shown o pc Cp rf src t r W C F out P g n c th n' nl a). Qed.
Print Assumptions c54_before_else_shown.
Theorem c54_after_else_shown rf src t r o pc out g n nl a :
  well_parsed src t -> conforms t = true -> source_root rf src t = Some r -> cell_printer pc ->
  prints (root_doc o pc r) out ->
  In (g, EElse n nl a) (root_nodes r) -> gap_clean src t (g + 1) ->
  alternative_shown o r a (all_comments (gap_comments src t (g + 1))) out.
Proof. exact (fun W C F Cp P => after_else_shown o pc Cp rf src t r W C F out P g n nl a). Qed.
Print Assumptions c54_after_else_shown.

(** * C53: In parentheses and empty braces *)
Theorem c53_parens_shown rf src t r o pc out g n b p :
  well_parsed src t -> conforms t = true -> source_root rf src t = Some r -> cell_printer pc ->
  prints (root_doc o pc r) out ->
  In (g, EParen n b) (root_nodes r) -> laid_out o r p b ->
  (gap_clean src t (g + 1) -> all_comments (gap_comments src t (g + 1)) <> [] ->
     shown_above o p b (all_comments (gap_comments src t (g + 1))) out) /\
  (gap_clean src t (g + 1 + wide [b]) -> all_comments (gap_comments src t (g + 1 + wide [b])) <> [] ->
     shown_behind o p b (all_comments (gap_comments src t (g + 1 + wide [b]))) out).
Proof. exact (fun W C F Cp P => parens_shown o pc Cp rf src t r W F out P g n b p). Qed.
Print Assumptions c53_parens_shown.
Theorem c53_empty_braces_shown rf src t r o pc out g n p :
  well_parsed src t -> conforms t = true -> source_root rf src t = Some r -> cell_printer pc ->
  prints (root_doc o pc r) out ->
  In (g, EBraced n []) (root_nodes r) -> gap_clean src t (g + 1) ->
  in_file o r p (EBraced n []) -> ~ skip_asked o p (EBraced n []) ->
  shown_inside tLCURLY tRCURLY (all_comments (gap_comments src t (g + 1))) out.
Proof. exact (fun W C F Cp P => empty_braces_shown o pc rf src t r W F out P g n p). Qed.
Print Assumptions c53_empty_braces_shown.

(** A chain with a comment behind the inner one, a call, a condition and a call
    without arguments. *)
Definition shown_src :=
  $"x + y # a" ++ LF :: $"+ z" ++ LF :: $"f(u, # b" ++ LF :: $"# c" ++ LF :: $"v)" ++ LF ::
  $"if (w # d" ++ LF :: $") # e" ++ LF :: $"p" ++ LF :: $"g( # h" ++ LF :: $")".
Definition shown_tree :=
  TS R_ROOT F_other 0 56 [TS R_BINARY_EXPRESSION F_other 0 13 [TS R_BINARY_EXPRESSION F_other 0 5
  [ex_tk R_IDENTIFIER 0 1; ex_tk PLUS 2 3; ex_tk R_IDENTIFIER 4 5]; ex_tk COMMENT 6 9; ex_tk PLUS 10
  11; ex_tk R_IDENTIFIER 12 13]; TS R_CALL F_other 14 29 [ex_tk R_IDENTIFIER 14 15; TS R_UNMAPPED
  F_arguments 15 29 [ex_tk L_PAREN 15 16; TS R_ARGUMENT F_other 16 17 [ex_tk R_IDENTIFIER 16 17];
  ex_tk COMMA 17 18; ex_tk COMMENT 19 22; ex_tk COMMENT 23 26; TS R_ARGUMENT F_other 27 28 [ex_tk
  R_IDENTIFIER 27 28]; ex_tk R_PAREN 28 29]]; TS R_IF_STATEMENT F_other 30 47 [ex_tk IF_KW 30 32;
  ex_tk L_PAREN 33 34; ex_tk R_IDENTIFIER 34 35; ex_tk COMMENT 36 39; ex_tk R_PAREN 40 41; ex_tk
  COMMENT 42 45; ex_tk R_IDENTIFIER 46 47]; TS R_CALL F_other 48 56 [ex_tk R_IDENTIFIER 48 49; TS
  R_UNMAPPED F_arguments 49 56 [ex_tk L_PAREN 49 50; ex_tk COMMENT 51 54; ex_tk R_PAREN 55 56]]].
Definition shown_out :=
  $"x +" ++ LF :: $"y + # a" ++ LF :: $"z" ++ LF :: $"f(" ++ LF :: $"u, # b" ++ LF :: $"# c" ++ LF ::
  $"v" ++ LF :: $")" ++ LF :: $"if (" ++ LF :: $"w # d" ++ LF :: $") {" ++ LF :: $"# e" ++ LF :: $"p" ++
  LF :: $"}" ++ LF :: $"g(" ++ LF :: $"# h" ++ LF :: $")" ++ [LF].
Example shown_example :
  well_parsed shown_src shown_tree /\ conforms shown_tree = true /\
  exists r out, source_root false shown_src shown_tree = Some r /\
    prints (root_doc (opts AArrow) wide_cell r) out /\ ptext out = shown_out /\
    (exists xy z p, beside r 3 (Some xy) (Some z) /\ etokens xy = [tk IDENT $"x"; tk PLUS $"+"; tk IDENT $"y"] /\
       laid_out (opts AArrow) r p xy) /\
    gap_comments shown_src shown_tree 3 = [($"# a", false)] /\ gap_clean shown_src shown_tree 3 /\
    (exists u v n, In (6, EArgs n KCall false [u; v]) (root_nodes r) /\ beside r 9 (Some u) (Some v) /\ laid_out (opts AArrow) r p_item u /\ laid_out (opts AArrow) r p_item v) /\
    gap_comments shown_src shown_tree 9 = [($"# b", false); ($"# c", true)] /\ gap_clean shown_src shown_tree 9 /\
    (exists n w b p p', In (11, EIf n w b None) (root_nodes r) /\ wide [w] = 1 /\
       laid_out (opts AArrow) r p w /\ laid_out (opts AArrow) r p' b) /\
    gap_comments shown_src shown_tree 14 = [($"# d", false)] /\ gap_clean shown_src shown_tree 14 /\
    gap_comments shown_src shown_tree 15 = [($"# e", false)] /\ gap_clean shown_src shown_tree 15 /\
    (exists n p, In (17, EArgs n KCall false []) (root_nodes r) /\ in_file (opts AArrow) r p (EArgs n KCall false []) /\
       ~ skip_asked (opts AArrow) p (EArgs n KCall false [])) /\
    gap_comments shown_src shown_tree 18 = [($"# h", false)] /\ gap_clean shown_src shown_tree 18.
Proof.
  split; [vm_compute; repeat split|]. split; [reflexivity|].
  do 2 eexists. split; [vm_compute; reflexivity|].
  split; [apply wide_root_prints; vm_compute; reflexivity|]. split; [vm_compute; reflexivity|].
  split.
  { do 3 eexists. split; [refine (beside_binary _ 0 _ _ _ _ 3 _ _); [node 0|left; reflexivity]|].
    split; [reflexivity|]. eapply laid_chain.
    - eexists. split; [left; reflexivity|constructor].
    - apply not_asked; reflexivity.
    - reflexivity.
    - apply IC_here. reflexivity. }
  do 2 (split; [first [clean | vm_compute; reflexivity]|]).
  split.
  { do 3 eexists. split; [node 7|].
    split; [match goal with |- beside _ _ (Some ?x) (Some ?y) => refine (before_argument _ 6 _ _ _ [x] y _ _ _ _) end; [node 7|reflexivity|reflexivity]|].
    split; (eapply laid_argument; [eexists; split; [right; left; reflexivity|
      eapply V_below; [apply not_asked; reflexivity|eapply (P_args _ _ _ _ _ false), not_table; reflexivity|constructor]]
      |apply not_asked; reflexivity|intros [Q _]; discriminate Q| |intros Q; discriminate Q]);
      [left; reflexivity|right; left; reflexivity]. }
  do 2 (split; [first [clean | vm_compute; reflexivity]|]).
  split.
  { do 5 eexists. split; [node 12|]. split; [reflexivity|].
    split; (apply laid_node; [eexists; split; [do 2 right; left; reflexivity|eapply V_below; [apply not_asked; reflexivity| |]]|discriminate]);
      [apply P_cond|constructor|apply P_then|constructor]. }
  do 4 (split; [first [clean | vm_compute; reflexivity]|]).
  split.
  { do 2 eexists. split; [node 17|]. split; [|apply not_asked; reflexivity].
    eexists; split; [do 3 right; left; reflexivity|].
    eapply V_below; [apply not_asked; reflexivity|eapply (P_args _ _ _ _ _ false), not_table; reflexivity|constructor]. }
  split; [first [clean | vm_compute; reflexivity]|]. clean.
Qed.

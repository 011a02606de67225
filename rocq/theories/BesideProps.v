(** Properties of the formatter: C55, the comments among operands, arguments and
    parameters.  Parameters as in SourceProps.v. *)
From Coq Require Import List Arith Bool NArith Lia Permutation String.
From Verif Require Import Text LineEndingModel SettingsModel SyntaxKind DirectiveModel ParseModel ParseSpec
  ParseProps FmtTree IrModel TableModel FmtModel FmtSpec FmtPathSpec FmtLayout FmtProps FmtMarkProps CommentsModel
  CommentsSpec AstModel FactorySpec SourceSpec PlaceSpec DressSpec SourceProps PlaceProps BodySpec BodyProps
  BesideSpec BesideProofs BesideCoverProofs.
Import ListNotations.

(** * C55: Comments among operands, arguments and parameters *)

(** A comment at the end of a line stays with the operand, argument or
    parameter on its left; one on a line of its own with the one on its right.
    Next to a bracket there is one only. *)
Theorem c55_source_beside rf src t r G left right :
  well_parsed src t -> conforms t = true -> source_root rf src t = Some r ->
  beside r G left right -> gap_clean src t G -> shared left right (gap_comments src t G).
Proof. exact (fun W C F => beside_holds rf src t r W C F G left right). Qed.
Print Assumptions c55_source_beside.

(** Where an argument is left out, the comments stay with the argument before
    it; with the comma, if there is none. *)
Theorem c55_source_holes rf src t r g n k rc a h b :
  well_parsed src t -> conforms t = true -> source_root rf src t = Some r ->
  In (g, EArgs n k rc (a ++ h :: b)) (root_nodes r) -> hole h = true ->
  gap_clean src t (g + 1 + wide a + List.length a) ->
  holds false (hole_notes a h) (all_comments (gap_comments src t (g + 1 + wide a + List.length a))).
Proof. exact (fun W C F => holes_hold rf src t r W C F g n k rc a h b). Qed.
Print Assumptions c55_source_holes.
(** Behind its comma they stay with the argument that follows. *)
Theorem c55_source_behind_holes rf src t r g n k rc a h e b :
  well_parsed src t -> conforms t = true -> source_root rf src t = Some r ->
  In (g, EArgs n k rc (a ++ h :: e :: b)) (root_nodes r) -> hole h = true -> hole e = false ->
  gap_clean src t (g + 2 + wide a + List.length a) ->
  holds false (n_lead (notes_of e)) (all_comments (gap_comments src t (g + 2 + wide a + List.length a))).
Proof. exact (fun W C F => behind_holes_hold rf src t r W C F g n k rc a h e b). Qed.
Print Assumptions c55_source_behind_holes.

(** The comments between the name of an argument and its value go in front of
    the name. *)
Theorem c55_source_names rf src t r g n x y k :
  well_parsed src t -> conforms t = true -> source_root rf src t = Some r ->
  In (g, EArg n (Some x) (Some y) k) (root_nodes r) -> gap_clean src t (g + wide [x]) ->
  holds false (n_lead (notes_of x)) (all_comments (gap_comments src t (g + wide [x]))).
Proof. exact (fun W C F => names_hold rf src t r W C F g n x y k). Qed.
Print Assumptions c55_source_names.
Theorem c55_source_clauses rf src t r g n x :
  well_parsed src t -> conforms t = true -> source_root rf src t = Some r ->
  In (g, ENameClause n x) (root_nodes r) -> gap_clean src t (g + wide [x]) ->
  holds false (n_lead (notes_of x)) (all_comments (gap_comments src t (g + wide [x]))).
Proof. exact (fun W C F => clauses_hold rf src t r W C F g n x). Qed.
Print Assumptions c55_source_clauses.

(** Without arguments or parameters the comments stay inside the brackets. *)
Theorem c55_source_empty rf src t r g n e :
  well_parsed src t -> conforms t = true -> source_root rf src t = Some r ->
  In (g, e) (root_nodes r) -> (exists k rc, e = EArgs n k rc []) \/ e = EParams n [] ->
  gap_clean src t (g + 1) -> holds true (n_dang n) (all_comments (gap_comments src t (g + 1))).
Proof. exact (fun W C F => empty_holds rf src t r W C F g n e). Qed.
Print Assumptions c55_source_empty.

(** No place in the file is left out: each gap between two tokens is one of
    C53, C54 or C55, or inside a string. *)
Theorem c55_every_gap rf src t r G :
  well_parsed src t -> conforms t = true -> source_root rf src t = Some r ->
  bom_tokens r <= G <= bom_tokens r + wide (r_exprs r) -> placed_gap r G.
Proof. exact (fun W C F => every_gap_placed rf src t r W C F G). Qed.
Print Assumptions c55_every_gap.

(** Calls with comments before, between and behind arguments, in a named one, at
    those left out and without any; operands and parameters. *)
Definition beside_src :=
  $"f( # a" ++ LF :: $"x, # b" ++ LF :: $"# c" ++ LF :: $"y # d" ++ LF :: $"= # e" ++ LF ::
  $"1, , # f" ++ LF :: $"z)" ++ LF :: $"g(u, # h" ++ LF :: $",)" ++ LF :: $"p + # i" ++ LF :: $"# j"
  ++ LF :: $"q" ++ LF :: $"h( # k" ++ LF :: $")" ++ LF :: $"function(s # l" ++ LF :: $", t = # m" ++
  LF :: $"2) 3".
Definition beside_tree :=
  TS R_ROOT F_other 0 106 [TS R_CALL F_other 0 41 [ex_tk R_IDENTIFIER 0 1; TS R_UNMAPPED F_arguments
  1 41 [ex_tk L_PAREN 1 2; ex_tk COMMENT 3 6; TS R_ARGUMENT F_other 7 8 [ex_tk R_IDENTIFIER 7 8];
  ex_tk COMMA 8 9; ex_tk COMMENT 10 13; ex_tk COMMENT 14 17; TS R_ARGUMENT F_other 18 31 [TS
  R_IDENTIFIER F_name 18 19 []; ex_tk COMMENT 20 23; ex_tk EQUAL 24 25; ex_tk COMMENT 26 29; ex_tk
  R_DOUBLE_VALUE 30 31]; ex_tk COMMA 31 32; ex_tk COMMA 33 34; ex_tk COMMENT 35 38; TS R_ARGUMENT
  F_other 39 40 [ex_tk R_IDENTIFIER 39 40]; ex_tk R_PAREN 40 41]]; TS R_CALL F_other 42 53 [ex_tk
  R_IDENTIFIER 42 43; TS R_UNMAPPED F_arguments 43 53 [ex_tk L_PAREN 43 44; TS R_ARGUMENT F_other 44
  45 [ex_tk R_IDENTIFIER 44 45]; ex_tk COMMA 45 46; ex_tk COMMENT 47 50; ex_tk COMMA 51 52; ex_tk
  R_PAREN 52 53]]; TS R_BINARY_EXPRESSION F_other 54 67 [ex_tk R_IDENTIFIER 54 55; ex_tk PLUS 56 57;
  ex_tk COMMENT 58 61; ex_tk COMMENT 62 65; ex_tk R_IDENTIFIER 66 67]; TS R_CALL F_other 68 76
  [ex_tk R_IDENTIFIER 68 69; TS R_UNMAPPED F_arguments 69 76 [ex_tk L_PAREN 69 70; ex_tk COMMENT 71
  74; ex_tk R_PAREN 75 76]]; TS R_FUNCTION_DEFINITION F_other 77 106 [ex_tk FUNCTION_KW 77 85; TS
  R_PARAMETERS F_other 85 104 [ex_tk L_PAREN 85 86; TS R_PARAMETER F_other 86 87 [ex_tk R_IDENTIFIER
  86 87]; ex_tk COMMENT 88 91; ex_tk COMMA 92 93; TS R_PARAMETER F_other 94 103 [ex_tk R_IDENTIFIER
  94 95; ex_tk EQUAL 96 97; ex_tk COMMENT 98 101; ex_tk R_DOUBLE_VALUE 102 103]; ex_tk R_PAREN 103
  104]; ex_tk R_DOUBLE_VALUE 105 106]].
Definition beside_out :=
  $"f(" ++ LF :: $"# a" ++ LF :: $"x, # b" ++ LF :: $"# c" ++ LF :: $"# e" ++ LF :: $"# d" ++ LF ::
  $"y = 1," ++ LF :: $"," ++ LF :: $"# f" ++ LF :: $"z" ++ LF :: $")" ++ LF :: $"g(" ++ LF ::
  $"u, # h" ++ LF :: $"," ++ LF :: $")" ++ LF :: $"p + # i" ++ LF :: $"# j" ++ LF :: $"q" ++ LF ::
  $"h(" ++ LF :: $"# k" ++ LF :: $")" ++ LF :: $"function(" ++ LF :: $"s, # l" ++ LF :: $"t = # m" ++
  LF :: $"2" ++ LF :: $") {" ++ LF :: $"3" ++ LF :: $"}" ++ [LF].
Lemma moved r G G' x y : beside r G x y -> G = G' -> beside r G' x y.
Proof. intros H <-. exact H. Qed.
Example beside_example :
  well_parsed beside_src beside_tree /\ conforms beside_tree = true /\
  exists r out, source_root false beside_src beside_tree = Some r /\
    prints (root_doc (opts AArrow) wide_cell r) out /\ ptext out = beside_out /\
    (exists x y h z n k rc, In (1, EArgs n k rc ([x; y] ++ h :: z :: [])) (root_nodes r) /\
       beside r 2 None (Some x) /\ beside r 4 (Some x) (Some y) /\ hole h = true /\ hole z = false /\
       wide [x; y] = 4) /\
    gap_comments beside_src beside_tree 2 = [($"# a", false)] /\ gap_clean beside_src beside_tree 2 /\
    gap_comments beside_src beside_tree 4 = [($"# b", false); ($"# c", true)] /\ gap_clean beside_src beside_tree 4 /\
    (exists n m nm y k, In (4, EArg n (Some (ENameClause m nm)) (Some y) k) (root_nodes r) /\
       In (4, ENameClause m nm) (root_nodes r) /\ wide [nm] = 1 /\ wide [ENameClause m nm] = 2) /\
    gap_comments beside_src beside_tree 5 = [($"# d", false)] /\ gap_clean beside_src beside_tree 5 /\
    gap_comments beside_src beside_tree 6 = [($"# e", false)] /\ gap_clean beside_src beside_tree 6 /\
    gap_comments beside_src beside_tree 9 = [($"# f", false)] /\ gap_clean beside_src beside_tree 9 /\
    (exists u h h' n k rc, In (12, EArgs n k rc ([u] ++ h :: [h'])) (root_nodes r) /\ hole h = true /\
       wide [u] = 1 /\ hole_notes [u] h = n_trail (notes_of u)) /\
    gap_comments beside_src beside_tree 15 = [($"# h", false)] /\ gap_clean beside_src beside_tree 15 /\
    (exists p q, beside r 19 (Some p) (Some q)) /\
    gap_comments beside_src beside_tree 19 = [($"# i", false); ($"# j", true)] /\ gap_clean beside_src beside_tree 19 /\
    (exists n k rc, In (21, EArgs n k rc []) (root_nodes r)) /\
    gap_comments beside_src beside_tree 22 = [($"# k", false)] /\ gap_clean beside_src beside_tree 22 /\
    (exists s' t', beside r 26 (Some s') (Some t')) /\
    gap_comments beside_src beside_tree 26 = [($"# l", false)] /\ gap_clean beside_src beside_tree 26 /\
    (exists v, beside r 29 None (Some v)) /\
    gap_comments beside_src beside_tree 29 = [($"# m", false)] /\ gap_clean beside_src beside_tree 29 /\
    bom_tokens r = 0 /\ wide (r_exprs r) = 32.
Proof.
  split; [vm_compute; repeat split|]. split; [reflexivity|].
  do 2 eexists. split; [vm_compute; reflexivity|].
  split; [apply wide_root_prints; vm_compute; reflexivity|]. split; [vm_compute; reflexivity|].
  split.
  { do 7 eexists. split; [node 2|].
    split; [refine (before_argument _ 1 _ _ _ [] _ _ _ _ _); [node 2|reflexivity|exact Logic.I]|].
    split; [match goal with |- beside _ _ (Some ?x) (Some ?y) => refine (before_argument _ 1 _ _ _ [x] y _ _ _ _) end; [node 2|reflexivity|reflexivity]|]. repeat split. }
  do 4 (split; [first [clean | vm_compute; reflexivity]|]).
  split; [do 5 eexists; split; [node 5|split; [node 6|split; reflexivity]]|].
  do 6 (split; [first [clean | vm_compute; reflexivity]|]).
  split; [do 6 eexists; split; [node 14|repeat split]|].
  do 2 (split; [first [clean | vm_compute; reflexivity]|]).
  split; [do 2 eexists; refine (beside_binary _ 17 _ _ _ _ 2 _ _); [node 19|right; left; reflexivity]|].
  do 2 (split; [first [clean | vm_compute; reflexivity]|]).
  split; [do 3 eexists; node 24|].
  do 2 (split; [first [clean | vm_compute; reflexivity]|]).
  split; [do 2 eexists; eapply moved; [refine (after_parameter _ 24 _ [] _ [_] _); node 26|reflexivity]|].
  do 2 (split; [first [clean | vm_compute; reflexivity]|]).
  split; [eexists; refine (beside_default _ 28 _ _ _); node 31|].
  do 2 (split; [first [clean | vm_compute; reflexivity]|]).
  split; reflexivity.
Qed.

(** The order of the comments need not be that of the source: [# d] and [# e]
    in [f(y # d], [= # e], [1)] change places. *)
Theorem c55_order_refuted :
  exists src t r out, well_parsed src t /\ conforms t = true /\ source_root false src t = Some r /\
    prints (root_doc (opts AArrow) wide_cell r) out /\
    pcomments out <> flat_map (fun G => all_comments (gap_comments src t G)) (seq 0 (S (wide (r_exprs r)))).
Proof.
  exists beside_src, beside_tree. do 2 eexists. split; [vm_compute; repeat split|]. split; [reflexivity|].
  split; [vm_compute; reflexivity|]. split; [apply wide_root_prints; vm_compute; reflexivity|].
  vm_compute. discriminate.
Qed.
Print Assumptions c55_order_refuted.

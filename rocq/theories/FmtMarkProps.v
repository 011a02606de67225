(** Properties of the formatter: C46 and C47.  Parameters as in FmtProps.v. *)
From Coq Require Import List Arith Bool NArith Lia String Sorted.
From Verif Require Import Text LineEndingModel SettingsModel SyntaxKind DirectiveModel FmtTree
  IrModel TableModel FmtModel FmtSpec FmtPathSpec FmtProofs FmtPathProofs FmtMarkProofs
  FmtOffProofs FmtLayout FmtProps.
Import ListNotations.

(** * C46: Persistent line breaks are kept *)

(** Arguments [a :: rest] after arguments [hs] that are left out.  Every
    argument begins a line, and so does the closing delimiter. *)
Theorem c46_arguments o pc r out p n k rc hs a rest :
  cell_printer pc -> o_persistent_line_breaks o = PRespect ->
  root_shaped r -> in_file o r p (EArgs n k rc (hs ++ a :: rest)) ->
  ~ skip_asked o p (EArgs n k rc (hs ++ a :: rest)) -> (q_table p = true -> k <> KCall) ->
  Forall hole hs -> ~ hole a -> ~ titled_block k (hs ++ a :: rest) -> breaks_first hs a ->
  prints (root_doc o pc r) out ->
  exists pre nl ms post l',
    line_marks out = pre ++ (l_token k, nl) :: map (fun _ => (tCOMMA, false)) hs ++ ms ++
      (r_token k, true) :: post /\
    Forall2 (tidy o p_item) (a :: rest) l' /\ one_per_line (with_commas (map etokens l')) ms.
Proof. exact (fun Cp Per => args_lines o pc Cp Per r out p n k rc hs a rest). Qed.
Print Assumptions c46_arguments.

(** Parameters. *)
Theorem c46_parameters o pc r out p n x l :
  cell_printer pc -> o_persistent_line_breaks o = PRespect ->
  root_shaped r -> in_file o r p (EParams n (x :: l)) -> ~ skip_asked o p (EParams n (x :: l)) ->
  n_newline (notes_of x) = true -> prints (root_doc o pc r) out ->
  exists pre nl ms post l',
    line_marks out = pre ++ (tLPAREN, nl) :: ms ++ (tRPAREN, true) :: post /\
    Forall2 (tidy o p_plain) (x :: l) l' /\ one_per_line (with_commas (map etokens l')) ms.
Proof. exact (fun Cp Per => params_lines o pc Cp Per r out p n x l). Qed.
Print Assumptions c46_parameters.

(** Pipelines and operator chains. *)
Theorem c46_chains o pc r out p e h t :
  cell_printer pc -> o_persistent_line_breaks o = PRespect ->
  root_shaped r -> in_file o r p e -> ~ skip_asked o p e -> chain e h t ->
  match t with (_, x) :: _ => n_newline (notes_of x) = true | [] => False end ->
  prints (root_doc o pc r) out ->
  exists pre mh mt post h', line_marks out = pre ++ mh ++ mt ++ post /\
    tidy o p_item h h' /\ map fst mh = etokens h' /\ tail_marks (on_new_line o) t mt.
Proof. exact (fun Cp Per => chain_lines o pc Cp Per r out p e h t). Qed.
Print Assumptions c46_chains.

(** Assignments and formulas. *)
Theorem c46_assignments o pc r out p n l op x :
  cell_printer pc -> o_persistent_line_breaks o = PRespect ->
  root_shaped r -> in_file o r p (EBinary n l op x) -> ~ skip_asked o p (EBinary n l op x) ->
  In (t_kind op) [EQUAL; ASSIGN; SUPER_ASSIGN; TILDE] -> n_newline (notes_of x) = true ->
  prints (root_doc o pc r) out ->
  exists pre op' nl ms post table x', line_marks out = pre ++ (op', nl) :: ms ++ post /\
    restyled (o_assignment_style o) (q_eq p) op op' /\
    tidy o (p_operand (q_eq p) op table) x x' /\ map fst ms = etokens x' /\ begins_line ms.
Proof. exact (fun Cp Per => assignment_lines o pc Cp Per r out p n l op x). Qed.
Print Assumptions c46_assignments.

(** With the option off: two files that differ in nothing but single line
    breaks, other than those before function bodies and branches, get the same
    document, so that width, comments and forced breaks decide alike.  Files
    without skip and table directives and calls named by those settings. *)
Theorem c46_off o pc r r' out :
  o_persistent_line_breaks o = PIgnore ->
  Forall (everywhere (undirected o)) (r_exprs r) ->
  Forall (everywhere (undirected o)) (r_exprs r') ->
  unbroken_root r = unbroken_root r' ->
  (prints (root_doc o pc r) out <-> prints (root_doc o pc r') out).
Proof. intros P U U' E. rewrite (off_same o pc P r r' U U' E). reflexivity. Qed.
Print Assumptions c46_off.

(** One of each in one file, with the line break [b] or without. *)
Definition vn (b : bool) (s : string) : expr :=
  ident (if b then on_line 1 nn else nn) s.
Definition argn (b : bool) (s : string) : expr :=
  EArg (if b then on_line 1 nn else nn) None (Some (vn b s)) 0.
Definition parn (b : bool) (s : string) : expr :=
  EParam (if b then on_line 1 nn else nn) (vn b s) None.
Definition brk_args (b : bool) : expr :=
  EArgs nn KSubset false [EArg nn None None 0; argn b "a"; argn false "b"].
Definition brk_params (b : bool) : expr := EParams nn [parn b "x"; parn false "y"].
Definition brk_chain (b : bool) : expr :=
  EBinary (on_line 1 nn) (bin (v "d") PIPE "|>" (vn b "g")) (tk PLUS $"+") (v "h").
Definition brk_assign (b : bool) : expr :=
  EBinary (on_line 1 nn) (v "y") (tk ASSIGN $"<-") (vn b "z").
Definition brk_program (b : bool) : root :=
  file [ ECall nn (v "f") (brk_args b);
         EFunction (on_line 1 nn) (tk FUNCTION_KW $"function") (brk_params b) (v "x");
         brk_chain b; brk_assign b ].
Lemma not_asked o p e : n_lead (notes_of e) = [] -> o_skip o = None -> ~ skip_asked o p e.
Proof.
  intros E S [[_ [c [I _]]]|[n [f [a [_ [_ [l [name [H _]]]]]]]]]; [rewrite E in I; exact I|congruence].
Qed.
Lemma not_table o p n f :
  n_lead n = [] -> o_table o = None -> q_table p = false ->
  (false = true <-> table_asked o p n f).
Proof.
  intros E S T. split; [discriminate|].
  intros [H|[[_ [c [I _]]]|[l [name [H _]]]]]; [congruence|rewrite E in I; destruct I|congruence].
Qed.
Definition args_pos : pos := mkpos false false false false.
Example c46_program :
  root_shaped (brk_program true) /\
  (in_file (opts AArrow) (brk_program true) args_pos (brk_args true) /\
   ~ skip_asked (opts AArrow) args_pos (brk_args true) /\ q_table args_pos = false /\
   Forall hole [EArg nn None None 0] /\ ~ hole (argn true "a") /\
   ~ titled_block KSubset [EArg nn None None 0; argn true "a"; argn false "b"] /\
   breaks_first [EArg nn None None 0] (argn true "a")) /\
  (in_file (opts AArrow) (brk_program true) p_plain (brk_params true) /\
   ~ skip_asked (opts AArrow) p_plain (brk_params true)) /\
  (in_file (opts AArrow) (brk_program true) (p_stmt true) (brk_chain true) /\
   ~ skip_asked (opts AArrow) (p_stmt true) (brk_chain true) /\
   chain (brk_chain true) (v "d") [(tk PIPE $"|>", vn true "g"); (tk PLUS $"+", v "h")]) /\
  (in_file (opts AArrow) (brk_program true) (p_stmt true) (brk_assign true) /\
   ~ skip_asked (opts AArrow) (p_stmt true) (brk_assign true)) /\
  exists out, prints (root_doc (opts AArrow) wide_cell (brk_program true)) out /\
    ptext out = $"f[," ++ LF :: $"a," ++ LF :: $"b" ++ LF :: $"]" ++ LF ::
      $"function(" ++ LF :: $"x," ++ LF :: $"y" ++ LF :: $") {" ++ LF :: $"x" ++ LF :: $"}" ++ LF ::
      $"d |>" ++ LF :: $"g +" ++ LF :: $"h" ++ LF ::
      $"y <-" ++ LF :: $"z" ++ [LF].
Proof.
  split; [vm_compute; repeat split; discriminate|].
  split; [|split; [|split; [|split]]].
  - split; [|split; [apply not_asked; reflexivity|split; [reflexivity|]]].
    + exists (ECall nn (v "f") (brk_args true)). split; [left; reflexivity|].
      eapply V_below; [apply not_asked; reflexivity| |constructor].
      apply (P_args _ _ _ _ _ false). apply not_table; reflexivity.
    + split; [constructor; [eexists _, _; repeat split|constructor]|].
      split; [intros [? [? [E _]]]; discriminate E|].
      split; [intros [E _]; discriminate E|]. left. cbn. lia.
  - split; [|apply not_asked; reflexivity].
    eexists. split; [right; left; reflexivity|].
    eapply V_below; [apply not_asked; reflexivity|apply P_params|constructor].
  - split; [|split; [apply not_asked; reflexivity|]].
    + eexists. split; [do 2 right; left; reflexivity|constructor].
    + apply (CH_more _ _ _ _ _ [_]); [reflexivity|]. constructor; [reflexivity|].
      intros [? [? [? [? [C _]]]]]. discriminate C.
  - split; [|apply not_asked; reflexivity].
    eexists. split; [do 3 right; left; reflexivity|constructor].
  - eexists. split; [apply wide_root_prints; vm_compute; reflexivity|]. vm_compute. reflexivity.
Qed.

(** The same with the option off, with and without the line breaks. *)
Definition off_opts : format_options :=
  {| o_indent_style := ISpace; o_indent_width := 2%N; o_line_ending := Lf;
     o_line_width := 80%N; o_persistent_line_breaks := PIgnore; o_assignment_style := AArrow;
     o_skip := None; o_table := None |}.
Example c46_off_program :
  Forall (everywhere (undirected off_opts)) (r_exprs (brk_program true)) /\
  Forall (everywhere (undirected off_opts)) (r_exprs (brk_program false)) /\
  unbroken_root (brk_program true) = unbroken_root (brk_program false) /\
  brk_program true <> brk_program false /\
  exists out, prints (root_doc off_opts wide_cell (brk_program true)) out /\
    ptext out = $"f[, a, b]" ++ LF :: $"function(x, y) x" ++ LF :: $"d |> g + h" ++ LF ::
      $"y <- z" ++ [LF].
Proof.
  split; [|split; [|split; [reflexivity|split; [discriminate|]]]].
  - do 4 (constructor; [by_undirected|]). constructor.
  - do 4 (constructor; [by_undirected|]). constructor.
  - eexists. split; [apply wide_root_prints; vm_compute; reflexivity|]. vm_compute. reflexivity.
Qed.

(** The exception that [c46_arguments] makes is needed: a call like
    [test_that("title", { ... })] loses the line break. *)
Definition titled_args : expr :=
  EArgs nn KCall false
    [ EArg (on_line 1 nn) None (Some (ELeaf (on_line 1 nn) R_STRING_VALUE
                                        [tk STRING_OPEN $"'"; tk STRING_CONTENT $"title"; tk STRING_CLOSE $"'"])) 0;
      EArg nn None (Some (EBraced nn [vn true "a"])) 0 ].
Definition titled_program : root := file [ECall nn (v "test_that") titled_args].
Theorem c46_titled_block_refuted :
  exists r out, root_shaped r /\ in_file (opts AArrow) r args_pos titled_args /\
    (exists a l, titled_args = EArgs nn KCall false (a :: l) /\ ~ hole a /\ breaks_first [] a) /\
    prints (root_doc (opts AArrow) wide_cell r) out /\
    ptext out = $"test_that('title', {" ++ LF :: $"a" ++ LF :: $"})" ++ [LF].
Proof.
  exists titled_program. eexists. split; [vm_compute; repeat split; discriminate|]. split; [|split].
  - eexists. split; [left; reflexivity|].
    eapply V_below; [apply not_asked; reflexivity| |constructor].
    apply (P_args _ _ _ _ _ false). apply not_table; reflexivity.
  - eexists _, _. split; [reflexivity|]. split; [intros [? [? [E _]]]; discriminate E|].
    left. cbn. lia.
  - split; [apply wide_root_prints; vm_compute; reflexivity|]. vm_compute. reflexivity.
Qed.
Print Assumptions c46_titled_block_refuted.

(** * C47: Operator chains keep operand order and grouping *)

(** A chain is printed as it stands in the source: the operand to the left,
    then each operator with its right hand side.  Either every right hand side
    begins a line, or none does but for blank lines and comments before it.
    Operators that are not in the same left-nested chain are not part of this:
    they are inside [h] or one of the right hand sides. *)
Theorem c47_in_order o pc r out p e h t :
  cell_printer pc -> root_shaped r -> in_file o r p e -> ~ skip_asked o p e -> chain e h t ->
  prints (root_doc o pc r) out ->
  exists pre mh mt post h', line_marks out = pre ++ mh ++ mt ++ post /\
    tidy o p_item h h' /\ map fst mh = etokens h' /\
    (tail_marks (on_new_line o) t mt \/ tail_marks (on_same_line o) t mt).
Proof. exact (fun Cp => chain_shape o pc Cp r out p e h t). Qed.
Print Assumptions c47_in_order.

(** Along a chain the operators bind ever less tightly, and what stands to the
    right of an operator without parentheses binds more tightly than it: so
    reading from left to right is the order of execution. *)
Theorem c47_reading_order e h t :
  chain e h t -> everywhere read_by_precedence e ->
  StronglySorted (fun a b => precedence (t_kind (fst b)) <= precedence (t_kind (fst a))) t /\
  Forall (fun x => forall n a op b, snd x = EBinary n a op b -> chain_op (t_kind op) = true ->
            precedence (t_kind (fst x)) < precedence (t_kind op)) t.
Proof.
  exact (fun C W => match chain_precedence e h t C W with
                    | conj A (conj B _) => conj A B
                    end).
Qed.
Print Assumptions c47_reading_order.

(** Parentheses around a right hand side stay. *)
Theorem c47_parentheses o pc r out p e h t op n b :
  cell_printer pc -> root_shaped r -> in_file o r p e -> ~ skip_asked o p e -> chain e h t ->
  In (op, EParen n b) t -> prints (root_doc o pc r) out ->
  exists pre b' post, (tidy o p_body b b' \/ b' = b) /\
    ptokens out = pre ++ op :: tLPAREN :: etokens b' ++ tRPAREN :: post.
Proof. exact (fun Cp => chain_parens o pc Cp r out p e h t op n b). Qed.
Print Assumptions c47_parentheses.

(** [a %in% b * (c + d) - e / f]: one chain of three operators. *)
Definition long_chain : expr :=
  bin (bin (bin (v "a") SPECIAL "%in%" (v "b")) MULTIPLY "*"
         (EParen nn (bin (v "c") PLUS "+" (v "d"))))
    MINUS "-" (bin (v "e") DIVIDE "/" (v "f")).
Definition long_tail : list (token * expr) :=
  [ (tk SPECIAL $"%in%", v "b"); (tk MULTIPLY $"*", EParen nn (bin (v "c") PLUS "+" (v "d")));
    (tk MINUS $"-", bin (v "e") DIVIDE "/" (v "f")) ].
Example c47_long_chain :
  root_shaped (file [long_chain]) /\
  in_file (opts AArrow) (file [long_chain]) (p_stmt true) long_chain /\
  ~ skip_asked (opts AArrow) (p_stmt true) long_chain /\
  chain long_chain (v "a") long_tail /\
  everywhere read_by_precedence long_chain /\
  exists out, prints (root_doc (opts AArrow) wide_cell (file [long_chain])) out /\
    ptext out = $"a %in% b * (c + d) - e / f" ++ [LF].
Proof.
  split; [vm_compute; repeat split; discriminate|].
  split; [eexists; split; [left; reflexivity|constructor]|].
  split; [apply not_asked; reflexivity|]. split; [|split].
  - apply (CH_more _ _ _ _ _ [_; _]); [reflexivity|].
    apply (CH_more _ _ _ _ _ [_]); [reflexivity|].
    constructor; [reflexivity|]. intros [? [? [? [? [C _]]]]]. discriminate C.
  - cbn. repeat split; intros; try exact I;
      repeat match goal with
             | H : _ = EBinary _ _ _ _ |- _ =>
               first [discriminate H | injection H as <- <- <- <-]
             end; cbn; lia.
  - eexists. split; [apply wide_root_prints; vm_compute; reflexivity|]. vm_compute. reflexivity.
Qed.

(** That operators of a different precedence are never merged is false:
    in [a *⏎ b + c] the line break asked for after [*] also comes after [+]. *)
Definition merged_chain : expr :=
  bin (bin (v "a") MULTIPLY "*" (vn true "b")) PLUS "+" (v "c").
Theorem c47_same_precedence_refuted :
  exists r out, root_shaped r /\ r_exprs r = [merged_chain] /\
    precedence MULTIPLY <> precedence PLUS /\ everywhere read_by_precedence merged_chain /\
    n_newline (notes_of (v "c")) = false /\
    prints (root_doc (opts AArrow) wide_cell r) out /\
    ptext out = $"a *" ++ LF :: $"b +" ++ LF :: $"c" ++ [LF].
Proof.
  exists (file [merged_chain]). eexists. split; [vm_compute; repeat split; discriminate|].
  split; [reflexivity|]. split; [discriminate|]. split; [|split; [reflexivity|]].
  - cbn. repeat split; intros; try exact I;
      repeat match goal with
             | H : _ = EBinary _ _ _ _ |- _ =>
               first [discriminate H | injection H as <- <- <- <-]
             end; cbn; lia.
  - split; [apply wide_root_prints; vm_compute; reflexivity|]. vm_compute. reflexivity.
Qed.
Print Assumptions c47_same_precedence_refuted.

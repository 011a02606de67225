(** Properties of the formatter: C37, C38, C40, C41.

    [o]: the options; [pc]: the printer of table cells, which picks one of the
    layouts of a cell; [out]: the printed file, for any choice of which groups
    break.  [shaped]: the tree is one that r.ungram allows. *)
From Coq Require Import List Arith Bool NArith Lia Permutation String.
From Verif Require Import Text LineEndingModel SettingsModel SyntaxKind DirectiveModel FmtTree
  IrModel TableModel FmtModel FmtSpec FmtProofs FmtTidyProofs FmtRootProofs FmtFactProofs
  FmtLayout.
Import ListNotations.

Lemma wide_cell_ok : cell_printer wide_cell.
Proof.
  intros d ps. unfold wide_cell. destruct (wide Expanded d) as [os|] eqn:E; [|discriminate].
  intros H. injection H as <-. exists os. split; [apply wide_lay, E|reflexivity].
Qed.
Lemma wide_root_prints o r out :
  wide_root o r = Some out -> prints (root_doc o wide_cell r) out.
Proof. exact (wide_cell_ok _ _). Qed.

(** Every line-breaking decision yields a tidied form of the program. *)
Lemma tidied o pc r out :
  cell_printer pc -> root_shaped r -> prints (root_doc o pc r) out ->
  exists es', file_tidied o r es' out /\
    (root_placed o r -> Permutation (pcomments out) (root_comments r) /\ comments_closed out).
Proof.
  intros Cp Sh H. destruct (root_shows o pc Cp r out Sh H) as [b [es [H1 [H2 [H3 H4]]]]].
  exists es. split; [split; [exact H2|exists b; split; assumption]|exact H4].
Qed.

(** Closing the hypotheses of the examples. *)
Ltac by_placed :=
  cbn -[asked table_asked]; repeat (split || intro);
  try reflexivity; try discriminate; try congruence.
Ltac by_undirected :=
  cbn -[parse_comment_directive listed]; repeat split; try contradiction;
  intros [? [? [? _]]]; discriminate.

(** * C37: Formatting never drops, adds or reorders code *)

(** The tokens printed are those of the source, up to braces put around
    non-empty stretches of code and assignment operators in the configured
    style (and line endings inside strings).  Semicolons are not in the tree. *)
Lemma tokens_kept o pc r out :
  cell_printer pc -> root_shaped r -> prints (root_doc o pc r) out ->
  retok (o_assignment_style o) (root_tokens r) (ptokens out).
Proof.
  intros Cp Sh H. destruct (tidied o pc r out Cp Sh H) as [es [[Fe [b [Fb ->]]] _]].
  unfold root_tokens. apply RT_app.
  - clear - Fb. induction Fb; [constructor|].
    apply (RT_app _ [x] [y] l l'); [apply RT_keep; assumption|assumption].
  - clear - Fe Sh. unfold root_shaped in Sh. induction Fe as [|x y l l' T F IH]; [constructor|].
    destruct Sh as [[_ S] Sh]. cbn [map List.concat].
    apply RT_app; [exact (tidy_Tok o _ _ _ T S)|exact (IH Sh)].
Qed.
Theorem c37_tokens_kept o pc r out :
  cell_printer pc -> root_shaped r -> prints (root_doc o pc r) out ->
  retok (o_assignment_style o) (root_tokens r) (ptokens out).
Proof. exact (tokens_kept o pc r out). Qed.
Print Assumptions c37_tokens_kept.

(** Without the tokens that formatting may add or restyle, nothing changes at
    all. *)
Definition fixed_token (t : token) : bool :=
  negb (kind_eqb (t_kind t) L_CURLY || kind_eqb (t_kind t) R_CURLY
        || kind_eqb (t_kind t) EQUAL || kind_eqb (t_kind t) ASSIGN).
Lemma retok_fixed_tokens st x y : retok st x y ->
  Forall2 (fun t t' => t' = t \/ same_token t t') (filter fixed_token x) (filter fixed_token y).
Proof.
  induction 1.
  - constructor.
  - cbn [filter]. destruct (fixed_token t); constructor; [left; reflexivity|constructor].
  - cbn [filter]. assert (E : fixed_token t' = fixed_token t).
    { unfold fixed_token. rewrite (same_token_kind _ _ H). reflexivity. }
    rewrite E. destruct (fixed_token t); constructor; [right; exact H|constructor].
  - cbn [filter]. unfold fixed_token at 1. rewrite H0. constructor.
  - cbn [filter]. unfold fixed_token at 1. rewrite H0. constructor.
  - change (tLCURLY :: x' ++ [tRCURLY]) with ([tLCURLY] ++ x' ++ [tRCURLY]).
    rewrite !filter_app. cbn [filter fixed_token]. cbn. rewrite app_nil_r. exact IHretok.
  - rewrite !filter_app. apply Forall2_app; assumption.
Qed.
Lemma fixed_tokens_kept o pc r out :
  cell_printer pc -> root_shaped r -> prints (root_doc o pc r) out ->
  Forall2 (fun t t' => t' = t \/ same_token t t')
    (filter fixed_token (root_tokens r)) (filter fixed_token (ptokens out)).
Proof. intros A B C. exact (retok_fixed_tokens _ _ _ (tokens_kept o pc r out A B C)). Qed.
Theorem c37_fixed_tokens_kept o pc r out :
  cell_printer pc -> root_shaped r -> prints (root_doc o pc r) out ->
  Forall2 (fun t t' => t' = t \/ same_token t t')
    (filter fixed_token (root_tokens r)) (filter fixed_token (ptokens out)).
Proof. exact (fixed_tokens_kept o pc r out). Qed.
Print Assumptions c37_fixed_tokens_kept.

(** A program with a loop, a call with arguments, an [else if]; the layout is
    the one on lines without end. *)
Definition some_program : root :=
  file [ bin (v "x") EQUAL "=" (n1 "1");
         EWhile nn (v "a")
           (call (v "f") [named "y" (v "z"); arg (bin (v "p") ASSIGN "<-" (n1 "2"))]);
         EIf (on_line 1 nn) (v "c") (v "t")
           (Some (EElse nn false (EIf nn (v "d") (v "u") (Some (EElse nn false (v "w")))))) ].
Example c37_some_program_shaped : root_shaped some_program.
Proof. vm_compute. repeat split; discriminate. Qed.
Example c37_some_program :
  exists out, prints (root_doc (opts AArrow) wide_cell some_program) out /\
    ptext out = $"x <- 1" ++ LF :: $"while (a) {" ++ LF :: $"f(y = z, p <- 2)" ++ LF :: $"}" ++
      LF :: $"if (c) {" ++ LF :: $"t" ++ LF :: $"} else if (d) {" ++ LF :: $"u" ++
      LF :: $"} else {" ++ LF :: $"w" ++ LF :: $"}" ++ [LF].
Proof.
  eexists. split; [apply wide_root_prints; vm_compute; reflexivity|]. vm_compute. reflexivity.
Qed.

(** * C38: Formatting never drops, duplicates or activates a comment *)

(** Every comment is printed exactly once, wherever it is attached, and only
    comments follow it on its line. *)
Lemma comments_kept o pc r out :
  cell_printer pc -> root_shaped r -> root_placed o r -> prints (root_doc o pc r) out ->
  Permutation (pcomments out) (root_comments r) /\ comments_closed out.
Proof.
  intros Cp Sh Pl H. destruct (tidied o pc r out Cp Sh H) as [es [_ C]].
  exact (C Pl).
Qed.
Theorem c38_comments_kept o pc r out :
  cell_printer pc -> root_shaped r -> root_placed o r -> prints (root_doc o pc r) out ->
  Permutation (pcomments out) (root_comments r) /\ comments_closed out.
Proof. exact (comments_kept o pc r out). Qed.
Print Assumptions c38_comments_kept.

(** Comments on an operator's operands, on an argument and in empty braces. *)
Definition commented_program : root :=
  file [ bin (ident (with_trail ["# c1"%string] nn) "a") PLUS "+" (ident (with_lead ["# c2"%string] nn) "b");
         call (v "f") [ EArg (with_lead ["# c3"%string] nn) None (Some (v "x")) 0; arg (v "y") ];
         EFunction nn (tk FUNCTION_KW $"function") (EParams (with_dang ["# c4"%string] nn) [])
           (EBraced (with_dang ["# c5"%string] nn) []) ].
Example c38_commented_program_ok :
  root_shaped commented_program /\ root_placed (opts AArrow) commented_program.
Proof.
  split; [vm_compute; repeat split; discriminate|].
  by_placed.
Qed.
Example c38_commented_program :
  exists out, prints (root_doc (opts AArrow) wide_cell commented_program) out /\
    pcomments out = map (fun s => $s) ["# c1"; "# c2"; "# c3"; "# c4"; "# c5"]%string.
Proof.
  eexists. split; [apply wide_root_prints; vm_compute; reflexivity|]. vm_compute. reflexivity.
Qed.

(** Two comments that stood on lines of their own can end up on one line, so
    that the second becomes part of the first. *)
Fixpoint own_line (ps : list piece) : Prop :=
  match ps with
  | [] => True
  | PWord (WComment _) :: r =>
    match r with [] | PNewline :: _ => True | _ => False end /\ own_line r
  | _ :: r => own_line r
  end.
Theorem c38_merged_comments_refuted :
  exists r out, root_shaped r /\ root_placed (opts AArrow) r /\
    prints (root_doc (opts AArrow) wide_cell r) out /\ ~ own_line out /\
    ptext out = $"(a^b) # c1 # c2" ++ [LF].
Proof.
  exists (file [ EParen nn (EBinary (with_trail ["# c2"%string] nn)
            (ident (with_trail ["# c1"%string] nn) "a") (tk EXPONENTIATE $"^") (v "b")) ]).
  eexists. split; [vm_compute; repeat split; discriminate|].
  split; [by_placed|].
  split; [apply wide_root_prints; vm_compute; reflexivity|].
  split; [vm_compute; tauto|]. vm_compute. reflexivity.
Qed.
Print Assumptions c38_merged_comments_refuted.

(** In a table a comment inside a cell swallows the rest of the row. *)
Definition table_opts : format_options :=
  {| o_indent_style := ISpace; o_indent_width := 2%N; o_line_ending := Lf;
     o_line_width := 80%N; o_persistent_line_breaks := PRespect; o_assignment_style := AArrow;
     o_skip := None; o_table := Some [$"tribble"] |}.
Theorem c38_table_refuted :
  exists r out, root_shaped r /\
    prints (root_doc table_opts wide_cell r) out /\ ~ comments_closed out /\
    ptext out = $"tribble(" ++ LF :: $"1 + 2 # c , 3" ++ LF :: $")" ++ [LF].
Proof.
  exists (file [ call (v "tribble")
    [ arg (bin (number (with_trail ["# c"%string] nn) "1") PLUS "+" (n1 "2")); arg (n1 "3") ] ]).
  eexists. split; [vm_compute; repeat split; discriminate|].
  split; [apply wide_root_prints; vm_compute; reflexivity|].
  split; [vm_compute; tauto|]. vm_compute. reflexivity.
Qed.
Print Assumptions c38_table_refuted.

(** * C40: Autobraces are balanced and never change which body belongs to
    which construct *)

(** The tokens printed are those of a program that differs from the source
    by tidying alone: braces only around one complete body, never around a
    braced one, always around a loop's, alike on all branches of an if
    statement ([tidy]). *)
Lemma output_tidied o pc r out :
  cell_printer pc -> root_shaped r -> prints (root_doc o pc r) out ->
  exists es', file_tidied o r es' out.
Proof.
  intros A B C. destruct (tidied o pc r out A B C) as [es [H _]]. eauto.
Qed.
Theorem c40_output_tidied o pc r out :
  cell_printer pc -> root_shaped r -> prints (root_doc o pc r) out ->
  exists es', file_tidied o r es' out.
Proof. exact (output_tidied o pc r out). Qed.
Print Assumptions c40_output_tidied.

(** Without directives: in the output all loops have braced bodies, the
    branches of an if statement are braced all or none, and all of them where
    the value of the if statement is not used. *)
Lemma output_braced o pc r out :
  cell_printer pc -> root_shaped r -> all_of (everywhere (undirected o)) (r_exprs r) ->
  prints (root_doc o pc r) out ->
  exists es', file_tidied o r es' out /\
    all_of (everywhere (fun e => loop_braced e /\ branches_alike e /\ block_braced e)) es' /\
    effects_braced true es'.
Proof.
  intros A B U C. destruct (tidied o pc r out A B C) as [es [[H2 Hb] _]].
  exists es. split; [split; assumption|]. clear - H2 U.
  induction H2 as [|x y l l' T F IH]; [split; exact I|]. destruct U as [Ux U].
  destruct (tidy_Nice o _ _ _ T eq_refl Ux) as [N [E _]]. destruct (IH U) as [I1 I2].
  split; [split; assumption|]. split; [intros _; exact (E eq_refl)|exact I2].
Qed.
Theorem c40_output_braced o pc r out :
  cell_printer pc -> root_shaped r -> all_of (everywhere (undirected o)) (r_exprs r) ->
  prints (root_doc o pc r) out ->
  exists es', file_tidied o r es' out /\
    all_of (everywhere (fun e => loop_braced e /\ branches_alike e /\ block_braced e)) es' /\
    effects_braced true es'.
Proof. exact (output_braced o pc r out). Qed.
Print Assumptions c40_output_braced.

Example c40_some_program_undirected :
  all_of (everywhere (undirected (opts AArrow))) (r_exprs some_program).
Proof. by_undirected. Qed.

(** Only braces: with preserved assignments the tokens printed are those of
    the source and pairs of braces. *)
Inductive braces_added : list token -> list token -> Prop :=
| BA_nil : braces_added [] []
| BA_copy t : braces_added [t] [t]
| BA_keep t t' : same_token t t' -> braces_added [t] [t']
| BA_braces x x' :
    x <> [] -> braces_added x x' -> braces_added x (tLCURLY :: x' ++ [tRCURLY])
| BA_app x x' y y' :
    braces_added x x' -> braces_added y y' -> braces_added (x ++ y) (x' ++ y').
Lemma retok_preserve x y : retok APreserve x y -> braces_added x y.
Proof. induction 1; try discriminate; econstructor; eassumption. Qed.

(** * C41: Assignment restyling is valid R and keeps the program's structure *)

(** Wherever an assignment is written with [=] in the output, R's grammar
    accepts it there, if that is so in the source. *)
Lemma equal_accepted o pc r out :
  cell_printer pc -> root_shaped r -> all_of (eq_ok true) (r_exprs r) ->
  (o_assignment_style o = AArrow -> all_of (everywhere plain_assignment) (r_exprs r)) ->
  prints (root_doc o pc r) out ->
  exists es', file_tidied o r es' out /\ all_of (eq_ok true) es'.
Proof.
  intros A B E P C. destruct (tidied o pc r out A B C) as [es [[H2 Hb] _]].
  exists es. split; [split; assumption|]. clear - H2 E P.
  induction H2 as [|x y l l' T F IH]; [exact I|]. destruct E as [E1 E2].
  split; [|apply IH; [exact E2|intros S; exact (proj2 (P S))]].
  exact (tidy_eq_ok o (p_stmt true) x y (fun S => proj1 (P S)) T E1).
Qed.
Theorem c41_equal_accepted o pc r out :
  cell_printer pc -> root_shaped r -> all_of (eq_ok true) (r_exprs r) ->
  (o_assignment_style o = AArrow -> all_of (everywhere plain_assignment) (r_exprs r)) ->
  prints (root_doc o pc r) out ->
  exists es', file_tidied o r es' out /\ all_of (eq_ok true) es'.
Proof. exact (equal_accepted o pc r out). Qed.
Print Assumptions c41_equal_accepted.

(** With style arrow no assignment with [=] is left (outside skipped code). *)
Lemma no_equal_left o pc r out :
  cell_printer pc -> root_shaped r -> all_of (everywhere (undirected o)) (r_exprs r) ->
  o_assignment_style o = AArrow -> prints (root_doc o pc r) out ->
  exists es', file_tidied o r es' out /\ all_of (everywhere no_equal) es'.
Proof.
  intros A B U S C. destruct (tidied o pc r out A B C) as [es [[H2 Hb] _]].
  exists es. split; [split; assumption|]. clear - H2 U S.
  induction H2 as [|x y l l' T F IH]; [exact I|]. destruct U as [E1 E2].
  split; [exact (tidy_no_equal o _ x y S T eq_refl E1)|exact (IH E2)].
Qed.
Theorem c41_no_equal_left o pc r out :
  cell_printer pc -> root_shaped r -> all_of (everywhere (undirected o)) (r_exprs r) ->
  o_assignment_style o = AArrow -> prints (root_doc o pc r) out ->
  exists es', file_tidied o r es' out /\ all_of (everywhere no_equal) es'.
Proof. exact (no_equal_left o pc r out). Qed.
Print Assumptions c41_no_equal_left.

(** With style preserve no operator changes: only braces are added. *)
Lemma preserve_keeps o pc r out :
  cell_printer pc -> root_shaped r -> o_assignment_style o = APreserve ->
  prints (root_doc o pc r) out -> braces_added (root_tokens r) (ptokens out).
Proof.
  intros A B S C. apply retok_preserve. rewrite <- S. exact (tokens_kept o pc r out A B C).
Qed.
Theorem c41_preserve_keeps o pc r out :
  cell_printer pc -> root_shaped r -> o_assignment_style o = APreserve ->
  prints (root_doc o pc r) out -> braces_added (root_tokens r) (ptokens out).
Proof. exact (preserve_keeps o pc r out). Qed.
Print Assumptions c41_preserve_keeps.

Example c41_some_program :
  all_of (eq_ok true) (r_exprs some_program) /\
  all_of (everywhere plain_assignment) (r_exprs some_program) /\
  exists out, prints (root_doc (opts AEqual) wide_cell some_program) out /\
    firstn 18 (ptext out) = $"x = 1" ++ LF :: $"while (a) {" ++ [LF].
Proof.
  split; [vm_compute; repeat split; discriminate|].
  split; [cbn -[parse_comment_directive]; repeat split; contradiction|].
  eexists. split; [apply wide_root_prints; vm_compute; reflexivity|]. vm_compute. reflexivity.
Qed.

(** [x <- y = 1] is [(x <- y) = 1] to R; both styles make it something else:
    [x <- (y <- 1)] and [x = (y = 1)]. *)
Theorem c41_mixed_refuted :
  exists r, root_shaped r /\ all_of (eq_ok true) (r_exprs r) /\
    r_exprs r = [bin (bin (v "x") ASSIGN "<-" (v "y")) EQUAL "=" (n1 "1")] /\
    (exists out, prints (root_doc (opts AArrow) wide_cell r) out /\
       ptext out = $"x <- y <- 1" ++ [LF]) /\
    (exists out, prints (root_doc (opts AEqual) wide_cell r) out /\
       ptext out = $"x = y = 1" ++ [LF]).
Proof.
  eexists (file _). split; [|split; [|split; [reflexivity|split]]].
  - vm_compute. repeat split; discriminate.
  - vm_compute. repeat split; discriminate.
  - eexists. split; [apply wide_root_prints; vm_compute; reflexivity|]. vm_compute. reflexivity.
  - eexists. split; [apply wide_root_prints; vm_compute; reflexivity|]. vm_compute. reflexivity.
Qed.
Print Assumptions c41_mixed_refuted.

(** A skipped assignment below a restyled one: [x =] and below it a
    skipped [y = 1] becomes [x <- # fmt: skip y = 1], another grouping
    (see GrammarProps.v). *)
Theorem c41_skipped_refuted :
  exists r out, root_shaped r /\ all_of (eq_ok true) (r_exprs r) /\
    prints (root_doc (opts AArrow) wide_cell r) out /\
    ptext out = $"x <-" ++ LF :: $"# fmt: skip" ++ LF :: $"y = 1" ++ [LF].
Proof.
  exists (file [ bin (v "x") EQUAL "="
    (EBinary (with_lead ["# fmt: skip"%string] (with_src "y = 1" (on_line 1 nn)))
       (v "y") (tk EQUAL $"=") (n1 "1")) ]).
  eexists. split; [vm_compute; repeat split; discriminate|].
  split; [vm_compute; repeat split; discriminate|].
  split; [apply wide_root_prints; vm_compute; reflexivity|]. vm_compute. reflexivity.
Qed.
Print Assumptions c41_skipped_refuted.

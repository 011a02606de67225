(** C45: tables. *)
From Coq Require Import List Arith Bool NArith Lia String.
From Verif Require Import Text LineEndingModel SettingsModel SyntaxKind DirectiveModel FmtTree
  IrModel TableModel FmtModel FmtSpec FmtPathSpec FmtTableSpec FmtLayout FmtProps FmtMarkProps
  FmtCellProofs.
Import ListNotations.

(** * C45: Table formatting keeps rows and columns *)

(** The lines of the source are the rows of the table, in order and with all
    their cells; in every column the commas line up, numbers by their decimal
    points and the rest by their beginnings.  Otherwise nothing is changed. *)
Theorem c45_table_or_copy o pc r out args cells named :
  cell_printer pc -> root_shaped r -> prints (root_doc o pc r) out -> stored (o_table o) ->
  table_call o r args cells named -> cell_shapes (followed (some named) cells) ->
  copied_in args out \/
  exists rs, lines_of (followed (some named) cells) rs /\ table_in o rs out.
Proof. exact (fun Cp => table_or_copy o pc Cp r out args cells named). Qed.
Print Assumptions c45_table_or_copy.

(** It is a table if every cell fits on one line. *)
Theorem c45_fitting_table o pc r out args cells named :
  cell_printer pc -> cells_answered pc -> root_shaped r -> prints (root_doc o pc r) out ->
  stored (o_table o) -> table_call o r args cells named ->
  cell_shapes (followed (some named) cells) -> Forall (fitting_cell o) cells ->
  exists rs, lines_of (followed (some named) cells) rs /\ table_in o rs out.
Proof. exact (fun Cp => table_fits o pc Cp r out args cells named). Qed.
Print Assumptions c45_fitting_table.

(** One cell that cannot be written on one line turns the table off. *)
Theorem c45_breaking_cell_copies o pc r out args cells named :
  cell_printer pc -> root_shaped r -> prints (root_doc o pc r) out -> stored (o_table o) ->
  table_call o r args cells named -> Exists (breaking_cell o) cells -> copied_in args out.
Proof. exact (fun Cp => table_breaks o pc Cp r out args cells named). Qed.
Print Assumptions c45_breaking_cell_copies.

(** The printer of the concrete cases answers. *)
Lemma wide_answers : cells_answered wide_cell.
Proof.
  assert (W : forall d m, without_error d -> wide m d <> None).
  { induction d; intros m0 H; cbn [wide without_error] in *; try discriminate; try tauto; auto.
    - destruct H as [A B]. specialize (IHd1 m0 A). specialize (IHd2 m0 B).
      destruct (wide m0 d1), (wide m0 d2); congruence.
    - destruct m; discriminate.
    - destruct m0; [discriminate|auto].
    - apply IHd1, H. }
  intros d H. unfold wide_cell. specialize (W d Expanded H). destruct (wide Expanded d); congruence.
Qed.

(** A table of two columns:
<<
tribble(
  ~x, ~y,
  1, "a b",
  -10.25, f(z), # end
  , c,

  3L,
  .n = 1
)
>> *)
Definition src (s : string) : notes := with_src s nn.
Definition cell (lines : nat) (x : expr) : expr := EArg (on_line lines nn) None (Some x) 0.
Definition tilde (s : string) : expr := EUnary (src "~") (tk TILDE $"~") (ident (src s) s).
Definition str (s : string) : expr := ELeaf (src s) R_STRING_VALUE
    [tk STRING_OPEN $""""; tk STRING_CONTENT $s; tk STRING_CLOSE $""""].
Definition dbl (s : string) : expr := ELeaf (src s) R_DOUBLE_VALUE [tk R_DOUBLE_LITERAL $s].
Definition int (s : string) : expr := ELeaf (src s) R_INTEGER_VALUE [tk R_INTEGER_LITERAL $s].
Definition table_cells : list expr :=
  [ cell 1 (tilde "x"); cell 0 (tilde "y");
    cell 1 (dbl "1"); cell 0 (str "a b");
    cell 1 (EUnary (src "-10.25") (tk MINUS $"-") (dbl "10.25"));
    EArg (with_trail ["# end"%string] nn) None
      (Some (ECall (src "f(z)") (ident (src "f") "f")
               (EArgs (src "(z)") KCall false [EArg (src "z") None (Some (ident (src "z") "z")) 0]))) 0;
    EArg nn None None 1; cell 0 (ident (src "c") "c");
    cell 2 (int "3L") ].
Definition table_args0 : expr :=
  EArgs nn KCall false (table_cells ++ [EArg (on_line 1 nn) (Some (ENameClause nn (v ".n"))) (Some (n1 "1")) 0]).
Definition table_file : root := file [ECall nn (v "tribble") table_args0].
Ltac by_ascii :=
  cbn; repeat (apply Forall_cons; [split; [discriminate|split; [discriminate|
    cbn; repeat (apply Forall_cons; [lia|]); apply Forall_nil]]|]); apply Forall_nil.
Ltac no_number :=
  let N := fresh in intros N; exfalso; destruct N as [? [? [? [? [E N]]]]]; injection E as <- <- <-;
  inversion N as [? ? L|]; subst; inversion L.
Ltac by_cell :=
  split; [reflexivity|split; [left; reflexivity|]];
  first [exact I |
    split; [reflexivity|split; [split; [cbn; repeat split; discriminate|
      cbn; repeat (apply Forall_cons; [discriminate|]); apply Forall_nil]
    |first [intros _; by_ascii | no_number]]]].
Ltac by_fitting :=
  first [exact I |
    cbn -[flat_token listed]; repeat split; try lia;
    try (repeat (apply Forall_cons; [cbn; lia|]); apply Forall_nil);
    try (intros [l [nm [E [C M]]]]; first [discriminate E |
      injection E as <-; inversion C; subst; destruct M as [M|[]]; discriminate M]);
    try (repeat (apply Forall_cons; [vm_compute; intuition discriminate|]); apply Forall_nil);
    try (vm_compute; intuition discriminate)].
Lemma table_file_call :
  table_call table_opts table_file table_args0 table_cells
    [EArg (on_line 1 nn) (Some (ENameClause nn (v ".n"))) (Some (n1 "1")) 0].
Proof.
  eexists (p_stmt true), _, _, _, _, _. split; [reflexivity|].
  split; [eexists; split; [left; reflexivity|constructor]|].
  split; [|split; [|split; [|split; [discriminate|]]]].
  - apply not_asked; reflexivity.
  - right. right. exists [$"tribble"], $"tribble". split; [reflexivity|]. split; [apply calls_name|].
    left. reflexivity.
  - split; [reflexivity|]. split; [|eexists _, _, _, _; reflexivity].
    repeat (constructor; [eexists _, _, _; reflexivity|]). constructor.
  - intros [a [E _]]. discriminate E.
Qed.
Example c45_table :
  cell_printer wide_cell /\ cells_answered wide_cell /\ root_shaped table_file /\
  stored (o_table table_opts) /\
  table_call table_opts table_file table_args0 table_cells
    [EArg (on_line 1 nn) (Some (ENameClause nn (v ".n"))) (Some (n1 "1")) 0] /\
  cell_shapes (followed true table_cells) /\ Forall (fitting_cell table_opts) table_cells /\
  exists out, prints (root_doc table_opts wide_cell table_file) out /\
    ptext out = $"tribble(" ++ LF :: $"~x     , ~y    ," ++ LF ::
                $"  1    , ""a b"" ," ++ LF :: $"-10.25 , f(z)  , # end" ++ LF ::
                $"       , c     ," ++ LF :: LF :: $"  3L   ," ++ LF :: $".n = 1" ++ LF :: $")" ++ [LF].
Proof.
  split; [exact wide_cell_ok|]. split; [exact wide_answers|].
  split; [vm_compute; repeat split; discriminate|].
  split; [exists (Some [$"tribble"]); vm_compute; reflexivity|].
  split; [exact table_file_call|]. split; [|split].
  - split; [by_cell|]. repeat (apply Forall_cons; [by_cell|]). apply Forall_nil.
  - repeat (apply Forall_cons; [by_fitting|]). apply Forall_nil.
  - eexists. split; [apply wide_root_prints; vm_compute; reflexivity|]. vm_compute. reflexivity.
Qed.

(** [tribble(~x,⏎{⏎1⏎})] stays as it is. *)
Definition braced_cell : expr := cell 1 (EBraced (src "{1}") [dbl "1"]).
Definition braced_args : expr := EArgs (with_src "( ~x, {1})" nn) KCall false [cell 0 (tilde "x"); braced_cell].
Definition braced_file : root := file [ECall nn (v "tribble") braced_args].
Example c45_braced :
  root_shaped braced_file /\
  table_call table_opts braced_file braced_args [cell 0 (tilde "x"); braced_cell] [] /\
  Exists (breaking_cell table_opts) [cell 0 (tilde "x"); braced_cell] /\
  exists out, prints (root_doc table_opts wide_cell braced_file) out /\
    ptext out = $"tribble( ~x, {1})" ++ [LF].
Proof.
  split; [vm_compute; repeat split; discriminate|]. split; [|split].
  - eexists (p_stmt true), _, _, _, _, _. split; [reflexivity|].
    split; [eexists; split; [left; reflexivity|constructor]|].
    split; [|split; [|split; [|split; [discriminate|]]]].
    + apply not_asked; reflexivity.
    + right. right. exists [$"tribble"], $"tribble". split; [reflexivity|]. split; [apply calls_name|].
      left. reflexivity.
    + split; [symmetry; apply app_nil_r|]. split; [|exact I].
      repeat (constructor; [eexists _, _, _; reflexivity|]). constructor.
    + intros [a [E _]]. discriminate E.
  - apply Exists_cons_tl, Exists_cons_hd. eexists _, _, _. split; [reflexivity|].
    eexists _, _. split; [constructor|]. split; [apply not_asked; reflexivity|].
    split; [discriminate|]. intros [? [? [? [? E]]]]. discriminate E.
  - eexists. split; [apply wide_root_prints; vm_compute; reflexivity|]. vm_compute. reflexivity.
Qed.

(** That numbers always line up is false: a comment before a number stands
    between it and its padding. *)
Definition noted_cells : list expr :=
  [ cell 1 (dbl "10"); EArg (with_lead ["# one"%string] (on_line 1 nn)) None (Some (dbl "1")) 0 ].
Definition noted_file : root :=
  file [ECall nn (v "tribble") (EArgs nn KCall false noted_cells)].
Theorem c45_commented_number_refuted :
  root_shaped noted_file /\
  table_call table_opts noted_file (EArgs nn KCall false noted_cells) noted_cells [] /\
  exists out, prints (root_doc table_opts wide_cell noted_file) out /\
    ptext out = $"tribble(" ++ LF :: $"10 ," ++ LF :: $" # one" ++ LF :: $"1" ++ LF :: $")" ++ [LF].
Proof.
  split; [vm_compute; repeat split; discriminate|]. split.
  - eexists (p_stmt true), _, _, _, _, _. split; [reflexivity|].
    split; [eexists; split; [left; reflexivity|constructor]|].
    split; [|split; [|split; [|split; [discriminate|]]]].
    + apply not_asked; reflexivity.
    + right. right. exists [$"tribble"], $"tribble". split; [reflexivity|]. split; [apply calls_name|].
      left. reflexivity.
    + split; [symmetry; apply app_nil_r|]. split; [|exact I].
      repeat (constructor; [eexists _, _, _; reflexivity|]). constructor.
    + intros [a [E _]]. discriminate E.
  - eexists. split; [apply wide_root_prints; vm_compute; reflexivity|]. vm_compute. reflexivity.
Qed.
Print Assumptions c45_commented_number_refuted.

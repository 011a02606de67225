(** Properties of the formatter: C39.

    [read out]: the tokens of the printed file, marked where R sees the end of
    an expression before them; [program es]: the tokens of the expressions
    [es], marked where a later expression of a list begins (FmtLineSpec.v). *)
From Coq Require Import List Arith Bool NArith String.
From Verif Require Import Text SettingsModel SyntaxKind DirectiveModel FmtTree IrModel TableModel
  FmtModel FmtSpec FmtLineSpec FmtProofs FmtLineRunProofs FmtLineProofs FmtLineFactProofs FmtLayout
  FmtProps.
Import ListNotations.

Lemma narrow_root_prints o r out :
  narrow_root o r = Some out -> prints (root_doc o wide_cell r) out.
Proof.
  unfold narrow_root. destruct (narrow Expanded _) as [os|] eqn:E; [|discriminate].
  intros H. injection H as <-. exists os. split; [apply narrow_lay, E|reflexivity].
Qed.

(** * C39: Formatted code still parses as the same program *)

(** Whatever the line breaks chosen, R ends expressions exactly between the
    expressions of a tidied form of the program. *)
Theorem c39_read_as_tidied o pc r out :
  cell_printer pc -> root_shaped r -> root_tame r -> prints (root_doc o pc r) out ->
  exists es', Forall2 (tidy o (p_stmt true)) (r_exprs r) es' /\ read out = program es'.
Proof. intros A. exact (root_reads o pc A r out). Qed.
Print Assumptions c39_read_as_tidied.

(** The output reads as the source does, up to braces put around stretches of
    code and assignment operators in the configured style. *)
Lemma reads_as_source o pc r out :
  cell_printer pc -> root_shaped r -> root_tame r -> prints (root_doc o pc r) out ->
  reread (o_assignment_style o) (program (r_exprs r)) (read out).
Proof.
  intros A B C D. destruct (root_reads o pc A r out B C D) as [es [F ->]].
  exact (program_reread o _ _ F B).
Qed.
Theorem c39_reads_as_source o pc r out :
  cell_printer pc -> root_shaped r -> root_tame r -> prints (root_doc o pc r) out ->
  reread (o_assignment_style o) (program (r_exprs r)) (read out).
Proof. exact (reads_as_source o pc r out). Qed.
Print Assumptions c39_reads_as_source.

(** Formatting neither splits nor joins expressions. *)
Lemma same_marks o pc r out :
  cell_printer pc -> root_shaped r -> root_tame r -> prints (root_doc o pc r) out ->
  marks (read out) = marks (program (r_exprs r)).
Proof. intros A B C D. exact (reread_marks o _ _ (reads_as_source o pc r out A B C D)). Qed.
Theorem c39_same_marks o pc r out :
  cell_printer pc -> root_shaped r -> root_tame r -> prints (root_doc o pc r) out ->
  marks (read out) = marks (program (r_exprs r)).
Proof. exact (same_marks o pc r out). Qed.
Print Assumptions c39_same_marks.

(** The marks are put on the program's own tokens. *)
Theorem c39_program_tokens es : map fst (program es) = List.concat (map etokens es).
Proof. exact (program_tokens es). Qed.
Print Assumptions c39_program_tokens.

(** A pipe, a loop, an if statement with comments, braces with two
    expressions and a call with a comment between its arguments; laid out as
    if nothing fitted on a line. *)
Definition broken_program : root :=
  file [ bin (v "x") ASSIGN "<-"
           (bin (bin (v "d") PIPE "|>" (call (v "f") [arg (v "y"); named "z" (n1 "2")])) PIPE "|>"
              (call (v "g") []));
         EWhile nn (bin (v "a") AND2 "&&" (v "b")) (EUnary nn (tk MINUS $"-") (v "q"));
         EBraced nn [v "s"; EIf (with_lead ["# c1"%string] nn) (v "c") (v "t")
                              (Some (EElse nn false (v "u"))); v "w"];
         call (v "h") [arg (ident (with_trail ["# c2"%string] nn) "k"); arg (v "l")] ].
Example c39_broken_program_ok : root_shaped broken_program /\ root_tame broken_program.
Proof. split; vm_compute; repeat split; try discriminate;
  right; repeat split.
Qed.
Example c39_broken_program :
  exists out, prints (root_doc (opts AArrow) wide_cell broken_program) out /\
    marks (read out) = 5 /\
    ptext out = $"x <- d |>" ++ LF :: $"f(" ++ LF :: $"y," ++ LF :: $"z = 2" ++ LF :: $") |>" ++
      LF :: $"g()" ++ LF :: $"while (" ++ LF :: $"a &&" ++ LF :: $"b" ++ LF :: $") {" ++
      LF :: $"-q" ++ LF :: $"}" ++ LF :: $"{" ++ LF :: $"s" ++ LF :: $"# c1" ++ LF :: $"if (" ++
      LF :: $"c" ++ LF :: $") {" ++ LF :: $"t" ++ LF :: $"} else {" ++ LF :: $"u" ++ LF :: $"}" ++
      LF :: $"w" ++ LF :: $"}" ++ LF :: $"h(" ++ LF :: $"k, # c2" ++ LF :: $"l" ++ LF :: $")" ++
      [LF].
Proof.
  eexists. split; [apply narrow_root_prints; vm_compute; reflexivity|].
  split; vm_compute; reflexivity.
Qed.
(** A line break before an operator is one that R takes for the end. *)
Example c39_read_breaks :
  map snd (read [PWord (WTok (tk IDENT $"x")); PNewline; PWord (WTok (tk PLUS $"+"));
                 PNewline; PWord (WTok (tk IDENT $"y")); PNewline])
  = [false; true; false].
Proof. vm_compute. reflexivity. Qed.

(** [root_tame] is needed.  A comment after a unary operator: [-# c], [x + y]
    on the next line; the operand is put on a line of its own, and the line
    break after it cuts off the rest of the expression. *)
Theorem c39_unary_refuted :
  exists r out, root_shaped r /\ prints (root_doc (opts AArrow) wide_cell r) out /\
    marks (program (r_exprs r)) = 0 /\ marks (read out) = 1 /\
    ptext out = $"-" ++ LF :: $"# c" ++ LF :: $"x" ++ LF :: $"+" ++ LF :: $"y" ++
      [LF].
Proof.
  exists (file [ bin (EUnary nn (tk MINUS $"-") (ident (on_line 1 (with_lead ["# c"%string] nn)) "x"))
                   PLUS "+" (v "y") ]).
  eexists. split; [vm_compute; repeat split; discriminate|].
  split; [apply wide_root_prints; vm_compute; reflexivity|].
  split; [reflexivity|]. split; vm_compute; reflexivity.
Qed.
Print Assumptions c39_unary_refuted.

(** Braces added around a body inside parentheses: [(function(x) f], [# c],
    [(x))] on three lines.  Inside the new braces the line break before [(x)]
    ends the expression [f]. *)
Theorem c39_added_braces_refuted :
  exists r out, root_shaped r /\ prints (root_doc (opts AArrow) wide_cell r) out /\
    marks (program (r_exprs r)) = 0 /\ marks (read out) = 1 /\
    ptext out = $"(function(x) {" ++ LF :: $"f# c" ++ LF :: $"(x)" ++ LF :: $"})" ++
      [LF].
Proof.
  exists (file [ EParen nn (EFunction nn (tk FUNCTION_KW $"function")
                   (EParams nn [EParam nn (v "x") None])
                   (ECall nn (v "f") (EArgs (on_line 1 (with_lead ["# c"%string] nn)) KCall false
                                        [arg (v "x")]))) ]).
  eexists. split; [vm_compute; repeat split; discriminate|].
  split; [apply wide_root_prints; vm_compute; reflexivity|].
  split; [reflexivity|]. split; vm_compute; reflexivity.
Qed.
Print Assumptions c39_added_braces_refuted.

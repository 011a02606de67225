(** Properties of the formatter: what R's grammar builds (C39, C41).

    [parses ts l]: R's grammar builds the trees [l] from the marked tokens
    [ts] (GrammarSpec.v). *)
From Coq Require Import List Arith Bool NArith String Lia.
From Verif Require Import Text SettingsModel SyntaxKind DirectiveModel FmtTree IrModel TableModel
  FmtModel FmtSpec FmtLineSpec FmtLineProofs FmtLayout FmtProps FmtLineProps
  GrammarSpec GrammarProofs GrammarTidyProofs.
Import ListNotations.

(** * C39: Formatted code still parses as the same program *)

(** The parser is a function of the tokens. *)
Theorem c39_one_parse ts l l' : parses ts l -> parses ts l' -> l = l'.
Proof. exact (parses_once ts l l'). Qed.
Print Assumptions c39_one_parse.

(** [file_grammatical] says of a tree that R's grammar builds it. *)
Theorem c39_grammatical_parses r :
  root_shaped r -> file_grammatical r ->
  parses (program (r_exprs r)) (map term_of (r_exprs r)).
Proof. exact (program_parses (r_exprs r)). Qed.
Print Assumptions c39_grammatical_parses.

(** R's grammar accepts the output, read as R reads it, and builds the program
    of the source, up to braces around bodies, the spelling of assignments and
    carriage returns in strings. *)
Lemma same_program_read o pc r out l :
  cell_printer pc -> root_shaped r -> root_tame r -> file_grammatical r ->
  all_of (restylable (o_assignment_style o)) (r_exprs r) -> prints (root_doc o pc r) out ->
  parses (program (r_exprs r)) l ->
  exists l', parses (read out) l' /\ same_program (o_assignment_style o) l l'.
Proof.
  intros A B C G R D P. destruct (root_reads o pc A r out B C D) as [es [F ->]].
  destruct (tidied_file o _ _ F B G R) as [H1 H2].
  rewrite (parses_once _ _ _ P (program_parses _ B G)). exists (map term_of es). split; assumption.
Qed.
Theorem c39_same_program o pc r out l :
  cell_printer pc -> root_shaped r -> root_tame r -> file_grammatical r ->
  all_of (restylable (o_assignment_style o)) (r_exprs r) -> prints (root_doc o pc r) out ->
  parses (program (r_exprs r)) l ->
  exists l', parses (read out) l' /\ same_program (o_assignment_style o) l l'.
Proof. exact (same_program_read o pc r out l). Qed.
Print Assumptions c39_same_program.

Lemma parses_by n ts l : (forall k, block (n + k) ts = Some (l, [])) -> parses ts l.
Proof.
  intros H. exists n. intros f L. replace f with (n + (f - n)) by lia. apply H.
Qed.

(** What the grammar makes of some tokens on one line. *)
Definition on_one_line (ts : list token) : input := map (fun t => (t, false)) ts.
Definition id (s : string) : token := tk IDENT ($s).
Definition at' (s : string) : term := Atom [id s].
Example c39_precedence :
  parses (on_one_line [id "a"; tk PLUS $"+"; id "b"; tk MULTIPLY $"*"; id "c"; tk MINUS $"-"; id "d"])
    [Infix (Infix (at' "a") (tk PLUS $"+") (Infix (at' "b") (tk MULTIPLY $"*") (at' "c")))
       (tk MINUS $"-") (at' "d")] /\
  parses (on_one_line [tk MINUS $"-"; id "a"; tk EXPONENTIATE $"^"; id "b"; tk EXPONENTIATE $"^"; id "c"])
    [Prefix (tk MINUS $"-") (Infix (at' "a") (tk EXPONENTIATE $"^")
       (Infix (at' "b") (tk EXPONENTIATE $"^") (at' "c")))] /\
  parses (on_one_line [tIF; tLPAREN; id "a"; tRPAREN; id "b"; tELSE; id "c"; tk PLUS $"+"; id "d"])
    [If (at' "a") (at' "b") (Some (Infix (at' "c") (tk PLUS $"+") (at' "d")))] /\
  parses (on_one_line [id "x"; tARROW; id "y"; tEQUAL; id "z"])
    [Infix (Infix (at' "x") tARROW (at' "y")) tEQUAL (at' "z")] /\
  parses (on_one_line [id "x"; tEQUAL; id "y"; tARROW; id "z"])
    [Infix (at' "x") tEQUAL (Infix (at' "y") tARROW (at' "z"))].
Proof. repeat split; apply (parses_by 40); intros k; vm_compute; reflexivity. Qed.
(** [a < b < c], [f(x) y] and [f(x = y = z)] are no programs. *)
Lemma parses_not n ts : (forall k, block (n + k) ts = None) -> ~ exists l, parses ts l.
Proof.
  intros H [l [m P]]. specialize (P (n + m)). rewrite H in P. discriminate (P ltac:(lia)).
Qed.
Example c39_rejected :
  (~ exists l, parses (on_one_line [id "a"; tk LESS_THAN $"<"; id "b"; tk LESS_THAN $"<"; id "c"]) l) /\
  (~ exists l, parses (on_one_line [id "f"; tLPAREN; id "x"; tRPAREN; id "y"]) l) /\
  (~ exists l, parses (on_one_line [id "f"; tLPAREN; id "x"; tEQUAL; id "y"; tEQUAL; id "z"; tRPAREN]) l).
Proof. repeat split; apply (parses_not 40); intros k; vm_compute; reflexivity. Qed.

(** Settles [file_grammatical] on a given file without strings. *)
Ltac gram :=
  repeat lazymatch goal with
  | |- _ /\ _ => split
  | |- True => exact I
  | |- atom_tokens _ => left; eexists; split; reflexivity
  | |- exists _, _ /\ _ => eexists; split; [vm_compute; reflexivity|]
  | |- _ < _ => vm_compute; repeat constructor
  | |- _ <= _ => vm_compute; repeat constructor
  | |- _ <> _ => discriminate
  | |- _ \/ _ => (left; reflexivity) || (right; reflexivity)
  | |- _ = _ => first [discriminate | vm_compute; reflexivity]
  | |- forall _, _ => intro
  | |- _ => progress cbn -[Nat.lt Nat.le atom_tokens]
  end.

(** The program of [c39_broken_program], where every line is broken: the pipe
    below the assignment, two pipes grouped to the left, the body of the loop
    in new braces. *)
Example c39_broken_parses :
  file_grammatical broken_program /\
  all_of (restylable AArrow) (r_exprs broken_program) /\
  exists out l, prints (root_doc (opts AArrow) wide_cell broken_program) out /\
    parses (read out) l /\
    nth_error l 0 =
      Some (Infix (Atom [tk IDENT $"x"]) tARROW
        (Infix (Infix (Atom [tk IDENT $"d"]) (tk PIPE $"|>")
            (Apply (Atom [tk IDENT $"f"]) KCall
              [(None, Some (Atom [tk IDENT $"y"]));
               (Some (Atom [tk IDENT $"z"]), Some (Atom [tk R_DOUBLE_LITERAL $"2"]))]))
          (tk PIPE $"|>") (Apply (Atom [tk IDENT $"g"]) KCall []))) /\
    nth_error l 1 =
      Some (While (Infix (Atom [tk IDENT $"a"]) (tk AND2 $"&&") (Atom [tk IDENT $"b"]))
        (Curly [Prefix (tk MINUS $"-") (Atom [tk IDENT $"q"])])).
Proof.
  split.
  { unfold file_grammatical. gram. }
  split.
  { cbn -[parse_comment_directive]. repeat split; right; repeat split; discriminate. }
  eexists. eexists. split; [apply narrow_root_prints; vm_compute; reflexivity|].
  split; [apply (parses_by 40); intros k; vm_compute; reflexivity|].
  split; vm_compute; reflexivity.
Qed.

(** [restylable] is needed: R reads [x <- y = 1] as [(x <- y) = 1] and the
    output [x <- y <- 1] as [x <- (y <- 1)]. *)
Theorem c39_mixed_chain_refuted :
  exists r out l l', root_shaped r /\ root_tame r /\ file_grammatical r /\
    prints (root_doc (opts AArrow) wide_cell r) out /\
    ptext out = $"x <- y <- 1" ++ [LF] /\
    parses (program (r_exprs r)) l /\ parses (read out) l' /\ ~ same_program AArrow l l'.
Proof.
  exists (file [bin (bin (v "x") ASSIGN "<-" (v "y")) EQUAL "=" (n1 "1")]).
  eexists. eexists. eexists.
  split; [vm_compute; repeat split; discriminate|].
  split; [vm_compute; repeat split; discriminate|].
  split. { unfold file_grammatical. gram. }
  split; [apply wide_root_prints; vm_compute; reflexivity|].
  split; [vm_compute; reflexivity|].
  split; [apply (parses_by 40); intros k; vm_compute; reflexivity|].
  split; [apply (parses_by 40); intros k; vm_compute; reflexivity|].
  vm_compute. discriminate.
Qed.
Print Assumptions c39_mixed_chain_refuted.

(** * C41: Assignment restyling is valid R and keeps the program's structure *)

(** Whatever the style, R's grammar accepts the restyled program and builds the
    structure of the source. *)
Lemma same_structure o pc r out :
  cell_printer pc -> root_shaped r -> file_grammatical r ->
  all_of (restylable (o_assignment_style o)) (r_exprs r) -> prints (root_doc o pc r) out ->
  exists es', file_tidied o r es' out /\
    parses (program es') (map term_of es') /\
    same_program (o_assignment_style o) (map term_of (r_exprs r)) (map term_of es').
Proof.
  intros A B G R D. destruct (tidied o pc r out A B D) as [es [[H2 Hb] _]].
  exists es. split; [split; assumption|]. exact (tidied_file o _ _ H2 B G R).
Qed.
Theorem c41_same_structure o pc r out :
  cell_printer pc -> root_shaped r -> file_grammatical r ->
  all_of (restylable (o_assignment_style o)) (r_exprs r) -> prints (root_doc o pc r) out ->
  exists es', file_tidied o r es' out /\
    parses (program es') (map term_of es') /\
    same_program (o_assignment_style o) (map term_of (r_exprs r)) (map term_of es').
Proof. exact (same_structure o pc r out). Qed.
Print Assumptions c41_same_structure.

(** A chain, a help query, a function body and arguments, restyled with [=]:
    [f(x <- 1)] keeps its arrow. *)
Definition arrows : root :=
  file [ bin (v "a") ASSIGN "<-" (bin (v "b") ASSIGN "<-" (n1 "1"));
         EUnary nn (tk WAT $"?") (bin (v "c") ASSIGN "<-" (n1 "2"));
         bin (v "g") ASSIGN "<-"
           (EFunction nn (tk FUNCTION_KW $"function") (EParams nn [EParam nn (v "x") None])
              (bin (v "y") ASSIGN "<-" (bin (v "x") PLUS "+" (n1 "3"))));
         call (v "f") [arg (bin (v "x") ASSIGN "<-" (n1 "1")); named "n" (n1 "4")] ].
Example c41_arrows :
  root_shaped arrows /\ file_grammatical arrows /\ all_of (restylable AEqual) (r_exprs arrows) /\
  exists out l, prints (root_doc (opts AEqual) wide_cell arrows) out /\
    ptext out = $"a = b = 1" ++ LF :: $"?c = 2" ++ LF :: $"g = function(x) y = x + 3" ++
      LF :: $"f(x <- 1, n = 4)" ++ [LF] /\
    parses (read out) l /\
    nth_error l 0 = Some (Infix (Atom [tk IDENT $"a"]) tEQUAL
                      (Infix (Atom [tk IDENT $"b"]) tEQUAL (Atom [tk R_DOUBLE_LITERAL $"1"]))).
Proof.
  split; [vm_compute; repeat split; discriminate|].
  split.
  { unfold file_grammatical. gram. }
  split.
  { cbn -[parse_comment_directive]. repeat split; right; repeat split; discriminate. }
  eexists. eexists. split; [apply wide_root_prints; vm_compute; reflexivity|].
  split; [vm_compute; reflexivity|].
  split; [apply (parses_by 60); intros k; vm_compute; reflexivity|].
  vm_compute; reflexivity.
Qed.

(** The skipped [y = 1] of [c41_skipped_refuted]: R reads the output
    [x <- y = 1] as [(x <- y) = 1]. *)
Theorem c41_skipped_chain_refuted :
  exists r out l l', root_shaped r /\ file_grammatical r /\
    prints (root_doc (opts AArrow) wide_cell r) out /\
    ptext out = $"x <-" ++ LF :: $"# fmt: skip" ++ LF :: $"y = 1" ++ [LF] /\
    parses (program (r_exprs r)) l /\ parses (read out) l' /\ ~ same_program AArrow l l'.
Proof.
  exists (file [ bin (v "x") EQUAL "="
    (EBinary (with_lead ["# fmt: skip"%string] (with_src "y = 1" (on_line 1 nn)))
       (v "y") (tk EQUAL $"=") (n1 "1")) ]).
  eexists. eexists. eexists.
  split; [vm_compute; repeat split; discriminate|].
  split. { unfold file_grammatical. gram. }
  split; [apply wide_root_prints; vm_compute; reflexivity|].
  split; [vm_compute; reflexivity|].
  split; [apply (parses_by 40); intros k; vm_compute; reflexivity|].
  split; [apply (parses_by 40); intros k; vm_compute; reflexivity|].
  vm_compute. discriminate.
Qed.
Print Assumptions c41_skipped_chain_refuted.

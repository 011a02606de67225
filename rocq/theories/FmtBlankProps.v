(** Properties of the formatter: C44.  Parameters as in FmtProps.v. *)
From Coq Require Import List Arith Bool NArith Lia String.
From Verif Require Import Text LineEndingModel SettingsModel SyntaxKind DirectiveModel FmtTree
  IrModel TableModel FmtModel FmtSpec FmtPathSpec FmtProofs FmtPathProofs FmtEdgeProofs
  FmtBlankProofs FmtLayout FmtProps.
Import ListNotations.

(** * C44: Blank lines are capped, and everything else keeps its blank line *)

(** At top level: the expressions are printed one below the other, each with
    its tokens and comments, with the blank lines of the source between them,
    two at most.  Comments of the file itself are left out: they come before
    and after all of this. *)
Theorem c44_top_level o pc r out :
  cell_printer pc -> root_shaped r -> r_exprs r <> [] ->
  n_lead (r_notes r) = [] -> n_dang (r_notes r) = [] -> n_trail (r_notes r) = [] ->
  prints (root_doc o pc r) out ->
  exists body, spaced (fun _ => shows_stmt o true) 2 (r_exprs r) body /\
    out = match r_bom r with Some t => [PWord (WTok (norm_token t))] | None => [] end
          ++ body ++ [PNewline].
Proof. exact (fun Cp => root_spaced o pc Cp r out). Qed.
Print Assumptions c44_top_level.

(** In braces, wherever they are: one at most.  Between the opening brace and
    the first expression there may be comments that end the brace's line. *)
Theorem c44_braces o pc r out p n es :
  cell_printer pc -> root_shaped r -> in_file o r p (EBraced n es) ->
  ~ skip_asked o p (EBraced n es) -> es <> [] -> ~ curly_curly es ->
  prints (root_doc o pc r) out ->
  exists pre a body post,
    out = pre ++ PWord (WTok tLCURLY) :: a ++ PNewline :: body ++
            PNewline :: PWord (WTok tRCURLY) :: post /\
    Forall remark a /\ spaced (fun last => shows_stmt o (negb last)) 1 es body.
Proof. exact (fun Cp => braces_spaced o pc Cp r out p n es). Qed.
Print Assumptions c44_braces.

(** Zero, one, two and three blank lines at top level; zero, one and two in
    braces; a comment before an expression and one after it. *)
Definition vl (lines : nat) (s : string) : expr :=
  ELeaf (on_line lines nn) R_IDENTIFIER [tk IDENT $s].
Definition blank_braces : expr :=
  EBraced (on_line 4 nn)
    [ vl 1 "a"; vl 1 "b"; vl 2 "c";
      ELeaf (with_trail ["# after"%string] (on_line 3 nn)) R_IDENTIFIER [tk IDENT $"d"] ].
Definition blank_program : root :=
  file [ v "u"; vl 1 "v"; vl 2 "w";
         ELeaf (with_lead ["# before"%string] (on_line 3 nn)) R_IDENTIFIER [tk IDENT $"x"];
         blank_braces ].
Example c44_blank_program :
  (root_shaped blank_program /\ r_exprs blank_program <> []) /\
  (in_file (opts AArrow) blank_program (p_stmt true) blank_braces /\
   ~ skip_asked (opts AArrow) (p_stmt true) blank_braces) /\
  exists out, prints (root_doc (opts AArrow) wide_cell blank_program) out /\
    ptext out = $"u" ++ LF :: $"v" ++ LF :: LF :: $"w" ++ LF :: LF :: LF :: $"# before" ++
      LF :: $"x" ++ LF :: LF :: LF :: $"{" ++ LF :: $"a" ++ LF :: $"b" ++ LF :: LF :: $"c" ++
      LF :: LF :: $"d # after" ++ LF :: $"}" ++ [LF].
Proof.
  split; [split; [vm_compute; repeat split; discriminate|discriminate]|]. split; [split|].
  - exists blank_braces. split; [do 4 right; left; reflexivity|constructor].
  - intros [[_ [c [[] _]]]|[n [f [a [E _]]]]]. discriminate.
  - eexists. split; [apply wide_root_prints; vm_compute; reflexivity|]. vm_compute. reflexivity.
Qed.

(** Blank lines after a comment are the comment's: of these one is kept, also
    at top level, where two after an expression would be. *)
Definition after_comment_program : root :=
  file [ v "u";
         ELeaf {| n_lead := [{| c_text := $"# c"; c_before := 1; c_after := 3; c_within := false |}];
                  n_dang := []; n_trail := []; n_lines := 1; n_newline := true; n_direct := false;
                  n_src := [] |}
           R_IDENTIFIER [tk IDENT $"v"] ].
Theorem c44_after_comment_refuted :
  exists r out, root_shaped r /\ prints (root_doc (opts AArrow) wide_cell r) out /\
    (exists e1 e2 c, r_exprs r = [e1; e2] /\ n_lead (notes_of e2) = [c] /\ c_after c = 3 /\
       n_lines (notes_of e2) = 1) /\
    ptext out = $"u" ++ LF :: $"# c" ++ LF :: LF :: $"v" ++ [LF].
Proof.
  exists after_comment_program. eexists. split; [vm_compute; repeat split; discriminate|].
  split; [apply wide_root_prints; vm_compute; reflexivity|].
  split; [eexists _, _, _; repeat split|]. vm_compute. reflexivity.
Qed.
Print Assumptions c44_after_comment_refuted.

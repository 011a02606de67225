(** The printed text as R reads it: C39 on texts. *)
From Coq Require Import List NArith Bool Arith Lia String.
From Verif Require Import Text LineEndingModel SettingsModel SyntaxKind DirectiveModel ParseModel
  ParseSpec ParseProps FmtTree IrModel TableModel FmtModel FmtSpec FmtLayout FmtProps CommentsModel
  CommentsSpec AstModel FrontProofs FrontProps LexSpec LexProps RReadSpec FmtLineSpec RTextSpec RWideProofs.
Import ListNotations.
Open Scope N_scope.

(** However the layout is chosen and however deep the lines are indented, R
    reads the printed text as the tokens of the tidied program, and sees the
    end of an expression exactly where the program has one: before every
    statement of the file or of braces but the first.  What is copied from the
    source is read there, too; it must read alone, where it stands, as the node
    it is ([fitting]). *)
Theorem c39_text_read o pc r out txt :
  cell_printer pc -> root_shaped r -> root_placed o r -> lexical r -> classed r ->
  root_tame_with (fun c0 c e => copied o e -> fitting c e) r ->
  prints (root_doc o pc r) out -> rendered out txt ->
  exists es' l, Forall2 (tidy o (p_stmt true)) (r_exprs r) es' /\
    Forall2 same_marked (program es') l /\ tokens_of txt = Some l.
Proof. exact (text_reads o pc r out txt). Qed.
Print Assumptions c39_text_read.

Ltac by_fitting :=
  cbv [root_tame_with tame all_of opt_all r_bom r_exprs notes_of n_lead n_dang n_trail uncommented
       has_role role_of t_kind body_context];
  repeat first
    [ exact I
    | match goal with
      | |- copied _ ?e -> fitting _ ?e =>
        intros _; split; [vm_compute; first [discriminate|intros _; split; reflexivity]|];
        eexists; exists (lines e); eexists;
        split; [vm_compute; reflexivity|]; split; [vm_compute; reflexivity|];
        split; [vm_compute; reflexivity|];
        split; [repeat (constructor; [split; [reflexivity|left; reflexivity]|]); constructor|];
        repeat split
      | |- _ /\ _ => split
      end
    | reflexivity
    | left; reflexivity
    | right; reflexivity ].
(** [f(x, # c], [)], [# d], [y <- 2L # e] of ParseProps.v. *)
Example c39_text_example :
  exists r out, source_root false ex_src ex_tree = Some r /\
    root_shaped r /\ root_placed (opts AArrow) r /\ lexical r /\ classed r /\
    root_tame_with (fun c0 c e => copied (opts AArrow) e -> fitting c e) r /\
    prints (root_doc (opts AArrow) wide_cell r) out /\
    let txt := $"f(" ++ LF :: $"  x, # c" ++ LF :: $")" ++ LF :: $"# d" ++ LF :: $"y <- 2L # e" ++ [LF] in
    rendered out txt /\
    tokens_of txt =
    Some [ (tk IDENT $"f", false); (tLPAREN, false); (tk IDENT $"x", false); (tCOMMA, false);
           (tRPAREN, false); (tk IDENT $"y", true); (tARROW, false); (tk R_INTEGER_LITERAL $"2L", false) ].
Proof.
  do 2 eexists. split; [vm_compute; reflexivity|].
  split; [vm_compute; repeat split; discriminate|].
  split; [by_placed|]. split; [by_lexing|]. split; [vm_compute; repeat split; reflexivity|].
  split; [by_fitting|].
  split; [apply wide_root_prints; vm_compute; reflexivity|].
  split; [|vm_compute; reflexivity].
  repeat first
    [ exact R_nil | refine (R_word _ _ _ _) | refine (R_space _ _ _)
    | refine (R_newline [32; 32] _ _ _ _); [repeat constructor|]
    | refine (R_newline [] _ _ _ _); [constructor|] ].
Qed.

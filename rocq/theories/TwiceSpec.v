(** Formatting more than once. *)
From Coq Require Import List NArith Bool Arith String.
From Verif Require Import Text LineEndingModel SettingsModel SyntaxKind DirectiveModel ParseModel
  ParseSpec FmtTree IrModel TableModel FmtModel FmtSpec FmtLayout FactorySpec CommentsModel CommentsSpec AstModel LexSpec LexSourceSpec
  RReadSpec FmtLineSpec RTextSpec GrammarSpec RProgramSpec.
Import ListNotations.

(** [t] is tree-sitter's tree of the text [s], and [r] the formatter's. *)
Definition tree_of (s : text) (t : ts) (r : root) : Prop :=
  well_parsed s t /\ conforms t = true /\ spelled s t /\ source_root false s t = Some r.

(** One run over the file [s], with the conditions of [c39_program_kept]: [s']
    is what may be printed, in any layout. *)
Definition run_once (o : format_options) (s s' : text) : Prop :=
  exists rf t r pc out,
    well_parsed s t /\ conforms t = true /\ spelled s t /\ read_by_r s t /\
    source_root rf s t = Some r /\ root_tables_clear o r /\ root_tame_with (stays o) r /\
    all_of (restylable (o_assignment_style o)) (r_exprs r) /\
    r_program s (map term_of (r_exprs r)) /\
    cell_printer pc /\ prints (root_doc o pc r) out /\ rendered out s'.

(** Any number of runs, each over the output of the one before. *)
Inductive run_often (o : format_options) : text -> text -> Prop :=
| Never s : run_often o s s
| Again s s' s'' : run_once o s s' -> run_often o s' s'' -> run_often o s s''.

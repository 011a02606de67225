(** What it means for the formatter to panic. *)
From Coq Require Import List Arith Bool NArith.
From Verif Require Import Text SyntaxKind FmtTree IrModel FmtSpec FmtTableSpec CommentsSpec.
Import ListNotations.

(** Some rule that was run while the document was written panicked. *)
Fixpoint panics (d : doc) : Prop :=
  match d with
  | DPanic => True
  | DCat a b | DBest a b => panics a \/ panics b
  | DIndent d | DGroup _ d | DIfBreaks d => panics d
  | DNil | DWord _ | DSpace | DLine _ | DExpandParent | DSuffix _ _ => False
  end.

(** The operators between two expressions are R's. *)
Definition known_operator (e : expr) : Prop :=
  match e with EBinary _ _ op _ => binary_operator (t_kind op) = true | _ => True end.

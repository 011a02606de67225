(** Property theorems C28. *)
From Coq Require Import List NArith Bool String.
From Verif Require Import Text DirectiveModel DirectiveSpec DirectiveProofs.
Import ListNotations.

(** C28: a comment is a directive exactly when it is spelled as one. *)
Theorem c28_directive_iff_spelled : forall t d, parse_comment_directive t = Some d <-> is_directive t d.
Proof. exact directive_iff. Qed.
Print Assumptions c28_directive_iff_spelled.

Theorem c28_generated_iff_spelled : forall t d, parse_special_skip_file t = Some d <-> d = DSkipFile /\ is_generated t.
Proof. exact special_iff. Qed.
Print Assumptions c28_generated_iff_spelled.

(** No comment is two directives at once. *)
Theorem c28_directive_unique : forall t d1 d2, is_directive t d1 -> is_directive t d2 -> d1 = d2.
Proof. exact directive_unique. Qed.
Print Assumptions c28_directive_unique.

Theorem c28_directive_not_generated : forall t d, is_directive t d -> ~ is_generated t.
Proof. exact directive_not_generated. Qed.
Print Assumptions c28_directive_not_generated.

Example c28_example :
  is_directive ($"##" ++ [9; 160]%N ++ $"fmt:  skip file " ++ [12288%N]) DSkipFile /\
  is_directive $"#fmt:table" DTable /\ is_generated $"# Generated by roxygen2: do not edit by hand" /\
  map parse_comment_directive [$"# fmt: skip"; $"# fmt : skip"; $"# fmt: skip  file"; $"# Fmt: skip"; $"#' fmt: skip"; $"fmt: skip"]
  = [Some DSkip; None; None; None; None; None].
Proof.
  split; [|split; [|split; [|vm_compute; reflexivity]]].
  - apply directive_iff. vm_compute. reflexivity.
  - apply directive_iff. vm_compute. reflexivity.
  - apply (special_iff _ DSkipFile). vm_compute. reflexivity.
Qed.

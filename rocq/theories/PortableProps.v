(** Where [else] stands in the printed file: C59. *)
From Coq Require Import List Arith Bool NArith String.
From Verif Require Import Text SettingsModel SyntaxKind FmtTree IrModel TableModel FmtModel FmtSpec
  FmtLayout FmtProps FmtLineProps ParseModel ParseSpec AstModel FrontProofs BodyProps PortableSpec
  PortableProofs PortableSourceProofs.
Import ListNotations.

(** In every layout of every file, [else] follows code and a blank on its own
    line, at top level as well as in braces.  Missing: see
    [c59_source_else_on_line_partial]. *)
Theorem c59_else_on_line_partial o pc r out :
  cell_printer pc -> root_shaped r -> root_else_free r -> prints (root_doc o pc r) out ->
  else_follows_code out.
Proof. intros C. exact (else_on_line o pc C r out). Qed.
Print Assumptions c59_else_on_line_partial.

(** A chain of if statements at top level, one on a single line, one inside
    braces with comments. *)
Definition portable_program : root :=
  file [ EIf nn (v "a") (v "t") (Some (EElse nn true
           (EIf nn (v "b") (EBraced nn []) (Some (EElse nn false (v "u"))))));
         bin (v "x") ASSIGN "<-" (EIf nn (v "c") (v "p") (Some (EElse nn false (v "q"))));
         EBraced nn [EIf (with_lead ["# c1"%string] nn) (v "d")
                       (ident (with_trail ["# c2"%string] nn) "k")
                       (Some (EElse nn false (ident (with_lead ["# c3"%string] nn) "l")))] ].
Example c59_portable_program_ok : root_shaped portable_program /\ root_else_free portable_program.
Proof.
  split; vm_compute; repeat split; try discriminate; repeat constructor; discriminate.
Qed.
(** Laid out with room. *)
Example c59_portable_wide :
  exists out, prints (root_doc (opts AArrow) wide_cell portable_program) out /\
    ptext out = $"if (a) {" ++ LF :: $"t" ++ LF :: $"} else if (b) {} else {" ++ LF :: $"u" ++ LF ::
      $"}" ++ LF :: $"x <- if (c) p else q" ++ LF :: $"{" ++ LF :: $"# c1" ++ LF :: $"if (d) {" ++
      LF :: $"k # c2" ++ LF :: $"} else {" ++ LF :: $"# c3" ++ LF :: $"l" ++ LF :: $"}" ++ LF ::
      $"}" ++ [LF].
Proof.
  eexists. split; [apply wide_root_prints; vm_compute; reflexivity|]. vm_compute. reflexivity.
Qed.
(** Laid out as if nothing fitted on a line. *)
Example c59_portable_narrow :
  exists out, prints (root_doc (opts AArrow) wide_cell portable_program) out /\
    ptext out = $"if (" ++ LF :: $"a" ++ LF :: $") {" ++ LF :: $"t" ++ LF :: $"} else if (" ++ LF ::
      $"b" ++ LF :: $") {} else {" ++ LF :: $"u" ++ LF :: $"}" ++ LF :: $"x <- if (" ++ LF :: $"c" ++
      LF :: $") {" ++ LF :: $"p" ++ LF :: $"} else {" ++ LF :: $"q" ++ LF :: $"}" ++ LF :: $"{" ++
      LF :: $"# c1" ++ LF :: $"if (" ++ LF :: $"d" ++ LF :: $") {" ++ LF :: $"k # c2" ++ LF ::
      $"} else {" ++ LF :: $"# c3" ++ LF :: $"l" ++ LF :: $"}" ++ LF :: $"}" ++ [LF].
Proof.
  eexists. split; [apply narrow_root_prints; vm_compute; reflexivity|]. vm_compute. reflexivity.
Qed.

Lemma else_starts_line pre t post :
  t_kind t = ELSE_KW -> ~ else_follows_code ((pre ++ [PNewline]) ++ PWord (WTok t) :: post).
Proof.
  intros K H. destruct (H _ _ _ eq_refl K) as [b [w [gap [E [_ [Ne B]]]]]].
  destruct (exists_last Ne) as [gap' [x ->]].
  change (b ++ PWord w :: gap' ++ [x]) with (b ++ (PWord w :: gap') ++ [x]) in E.
  rewrite app_assoc in E. apply app_inj_tail in E as [_ <-].
  apply Forall_app in B as [_ B]. inversion B as [|? ? [C|[n C]] _]; discriminate C.
Qed.
(** Were a comment attached to the else clause itself, [else] would start a
    line.  The placement rules attach it to the bodies instead: C54,
    [c54_source_before_else]. *)
Theorem c59_comment_refuted :
  exists r out,
    r = file [EIf nn (v "a") (EBraced nn []) (Some (EElse (with_lead ["# c"%string] nn) false (v "u")))] /\
    root_shaped r /\ prints (root_doc (opts AArrow) wide_cell r) out /\ ~ else_follows_code out /\
    ptext out = $"if (a) {} # c" ++ LF :: $"else {" ++ LF :: $"u" ++ LF :: $"}" ++ [LF].
Proof.
  do 2 eexists. split; [reflexivity|]. split; [vm_compute; repeat split; discriminate|].
  split; [apply wide_root_prints; vm_compute; reflexivity|].
  split; [|vm_compute; reflexivity].
  match goal with |- ~ else_follows_code ?l =>
    exact (else_starts_line (firstn 10 l) (tk ELSE_KW $"else") (skipn 12 l) eq_refl) end.
Qed.
Print Assumptions c59_comment_refuted.

(** * From the source *)

(** Wherever comments stand around [else] in the source, none is attached to
    the else clause. *)
Theorem c59_source_attached rf src t r :
  source_root rf src t = Some r -> all_of (everywhere well_attached) (r_exprs r).
Proof. exact (source_attached rf src t r). Qed.
Print Assumptions c59_source_attached.

Lemma source_else rf src t r o pc out :
  source_root rf src t = Some r -> root_else_plain r ->
  cell_printer pc -> prints (root_doc o pc r) out -> else_follows_code out.
Proof.
  intros F P C H. refine (else_on_line o pc C r out _ (source_free rf src t r F P) H).
  exact (source_front_shaped rf src t r F).
Qed.
(** So no [else] of a formatted file starts a line, comments or not.  Missing:
    files with a comment at the operand of a unary operator, for which
      [source_root rf src t = Some r -> cell_printer pc ->
       prints (root_doc o pc r) out -> else_follows_code out]
    needs that no group breaks inside one that does not. *)
Theorem c59_source_else_on_line_partial rf src t r o pc out :
  source_root rf src t = Some r -> root_else_plain r ->
  cell_printer pc -> prints (root_doc o pc r) out -> else_follows_code out.
Proof. exact (source_else rf src t r o pc out). Qed.
Print Assumptions c59_source_else_on_line_partial.

(** [body_src] of BodyProps.v: [} # l], [# m], [else # n], [if (r) {s}]. *)
Example c59_source_example :
  exists r out, source_root false body_src body_tree = Some r /\ root_else_plain r /\
    prints (root_doc (opts AArrow) wide_cell r) out /\ ptext out = body_out.
Proof.
  do 2 eexists. split; [vm_compute; reflexivity|].
  split; [vm_compute; repeat split; repeat constructor; discriminate|].
  split; [apply wide_root_prints; vm_compute; reflexivity|]. vm_compute. reflexivity.
Qed.

(** Properties of the formatter: C42, C43.  Parameters as in FmtProps.v. *)
From Coq Require Import List Arith Bool NArith Lia String.
From Verif Require Import Text LineEndingModel LineEndingSpec LineEndingProofs SettingsModel
  SyntaxKind DirectiveModel DirectiveSpec DirectiveProps FmtTree IrModel TableModel FmtModel
  FmtSpec FmtPathSpec FmtProofs FmtTidyProofs FmtPathProofs FmtSkipProofs FmtLayout FmtProps.
Import ListNotations.

(** * C42: Skipped code is reproduced verbatim *)

(** A node under a skip directive, or a call of a function listed in [skip],
    is printed as its source text with LF line endings. *)
Lemma skipped_text o pc r out p y :
  root_shaped r -> stored (o_skip o) -> in_file o r p y -> skip_asked o p y ->
  prints (root_doc o pc r) out ->
  exists a b, out = a ++ PWord (WVerb y) :: b /\
    ptext out = ptext a ++ without_cr_of_crlf (n_src (notes_of y)) ++ ptext b.
Proof.
  intros Sh St I Sk P. destruct (skipped_copied o pc r out p y Sh St I Sk P) as [a [b ->]].
  exists a, b. split; [reflexivity|]. unfold ptext. rewrite flat_map_app. cbn [flat_map word_text].
  rewrite normalize_ref_spec, normalize_spec. reflexivity.
Qed.
Theorem c42_skipped_reproduced o pc r out p y :
  root_shaped r -> stored (o_skip o) -> in_file o r p y -> skip_asked o p y ->
  prints (root_doc o pc r) out ->
  exists a b, out = a ++ PWord (WVerb y) :: b /\
    ptext out = ptext a ++ without_cr_of_crlf (n_src (notes_of y)) ++ ptext b.
Proof. exact (skipped_text o pc r out p y). Qed.
Print Assumptions c42_skipped_reproduced.

(** Nothing else is copied, except that the arguments of a call that is to be
    laid out as a table may be. *)
Theorem c42_others_formatted o pc r out y :
  cell_printer pc -> prints (root_doc o pc r) out -> In (PWord (WVerb y)) out ->
  exists e p, In e (r_exprs r) /\ inside o (p_stmt true) e p y /\
    (skip_asked o p y \/ table_args p y).
Proof. exact (fun Cp => only_asked o pc Cp r out y). Qed.
Print Assumptions c42_others_formatted.

(** A skipped statement, a skipped argument and a listed call; the rest is
    formatted. *)
Definition skipped_stmt : expr :=
  EBinary (with_src "x  =  1" (with_lead ["# fmt: skip"%string] nn)) (v "x") (tk EQUAL $"=") (n1 "1").
Definition skipped_arg : expr :=
  EArg (with_src "a+b" (with_lead ["# fmt: skip"%string] (on_line 1 nn))) None
    (Some (bin (v "a") PLUS "+" (v "b"))) 0.
Definition skipped_call : expr :=
  ECall (with_src "foo( 2 )" (on_line 1 nn)) (v "foo") (EArgs nn KCall false [arg (n1 "2")]).
Definition skipping_program : root :=
  file [ skipped_stmt; call (v "g") [skipped_arg]; bin (v "y") EQUAL "=" skipped_call ].
Definition skip_foo : format_options :=
  {| o_indent_style := ISpace; o_indent_width := 2%N; o_line_ending := Lf;
     o_line_width := 80%N; o_persistent_line_breaks := PRespect; o_assignment_style := AArrow;
     o_skip := Some [$"foo"]; o_table := None |}.
Example c42_skipping_program :
  (root_shaped skipping_program /\ stored (o_skip skip_foo)) /\
  (in_file skip_foo skipping_program (p_stmt true) skipped_stmt /\
   skip_asked skip_foo (p_stmt true) skipped_stmt) /\
  (in_file skip_foo skipping_program p_item skipped_arg /\
   skip_asked skip_foo p_item skipped_arg) /\
  (exists p, in_file skip_foo skipping_program p skipped_call /\
   skip_asked skip_foo p skipped_call) /\
  exists out, prints (root_doc skip_foo wide_cell skipping_program) out /\
    ptext out = $"# fmt: skip" ++ LF :: $"x  =  1" ++ LF :: $"g(" ++ LF :: $"# fmt: skip" ++
      LF :: $"a+b" ++ LF :: $")" ++ LF :: $"y <-" ++ LF :: $"foo( 2 )" ++ [LF].
Proof.
  assert (D : parse_comment_directive $"# fmt: skip" = Some DSkip) by (vm_compute; reflexivity).
  assert (N : forall p e, n_lead (notes_of e) = [] ->
    (forall n f a, e = ECall n f a -> ~ listed (o_skip skip_foo) f) -> ~ skip_asked skip_foo p e).
  { intros p e E F [[_ [c [I _]]]|[n [f [a [-> [_ L]]]]]]; [rewrite E in I; exact I|].
    exact (F n f a eq_refl L). }
  split; [split; [vm_compute; repeat split; discriminate|]|].
  { exists (Some [$"foo"]). vm_compute. reflexivity. }
  split; [|split; [|split]].
  - split; [exists skipped_stmt; split; [left; reflexivity|constructor]|].
    left. split; [reflexivity|]. eexists. split; [left; reflexivity|exact D].
  - assert (A : skip_asked skip_foo p_item skipped_arg).
    { left. split; [reflexivity|]. eexists. split; [left; reflexivity|exact D]. }
    split; [|exact A].
    exists (call (v "g") [skipped_arg]). split; [right; left; reflexivity|].
    eapply V_below; [|apply (P_args _ _ _ _ _ false)|].
    + apply N; [reflexivity|]. intros n f a E [l [name [El [Ca I]]]]. injection E as _ <- _.
      inversion Ca; subst. injection El as <-. destruct I as [I|[]]. discriminate.
    + split; [discriminate|]. intros [H|[[_ [c [I _]]]|[l [name [H _]]]]]; [discriminate|destruct I|discriminate].
    + eapply V_below; [|apply P_skipped_arg; [discriminate|left; reflexivity|exact A]|constructor].
      apply N; [reflexivity|discriminate].
  - eexists. split.
    + exists (bin (v "y") EQUAL "=" skipped_call). split; [right; right; left; reflexivity|].
      eapply V_below; [|apply (P_right _ _ _ _ _ _ false)|constructor].
      * apply N; [reflexivity|discriminate].
      * reflexivity.
      * split; [discriminate|]. intros [_ [_ [c [I _]]]]. destruct I.
    + right. eexists _, _, _. split; [reflexivity|].
      split; [do 5 eexists; reflexivity|]. eexists _, _. split; [reflexivity|].
      split; [constructor|left; reflexivity].
  - eexists. split; [apply wide_root_prints; vm_compute; reflexivity|]. vm_compute. reflexivity.
Qed.

(** The full claim, for every node under a directive, fails: the inner braces
    of [{{ x }}] are formatted. *)
Definition inner_braces : expr :=
  EBraced (with_src "{  x  }" (with_lead ["# fmt: skip"%string] nn)) [v "x"].
Definition curly_program : root :=
  file [ call (v "f") [arg (EBraced nn [inner_braces])] ].
Theorem c42_curly_curly_refuted :
  exists o r out p y, root_shaped r /\ stored (o_skip o) /\
    (exists e, In e (r_exprs r) /\ inside o (p_stmt true) e p y) /\ skip_asked o p y /\
    prints (root_doc o wide_cell r) out /\ ~ In (PWord (WVerb y)) out /\
    ptext out = $"f(" ++ LF :: $"# fmt: skip" ++ LF :: $"{{" ++ LF :: $"x" ++ LF :: $"}}" ++ LF :: $")" ++ [LF].
Proof.
  exists (opts AArrow), curly_program. eexists. exists (p_stmt false), inner_braces.
  split; [vm_compute; repeat split; discriminate|].
  split; [exists None; reflexivity|]. split.
  { eexists. split; [left; reflexivity|].
    eapply N_below; [apply (C_args _ _ _ _ _ false); discriminate|].
    eapply N_below; [apply C_item; left; reflexivity|].
    eapply N_below; [apply C_arg_value|].
    eapply N_below; [apply (C_stmt _ _ _ [] inner_braces [])|constructor]. }
  split.
  { left. split; [reflexivity|]. eexists. split; [left; reflexivity|vm_compute; reflexivity]. }
  split; [apply wide_root_prints; vm_compute; reflexivity|].
  split; [|vm_compute; reflexivity].
  intros I. repeat (destruct I as [I|I]; [discriminate|]). exact I.
Qed.
Print Assumptions c42_curly_curly_refuted.

(** Nor does a directive on a cell of a table keep the cell as it is. *)
Definition table_cell : expr :=
  EArg (with_src "f( x )" (with_lead ["# fmt: skip"%string] nn)) None (Some (call (v "f") [arg (v "x")])) 0.
Definition table_program : root :=
  file [ ECall (with_lead ["# fmt: table"%string] nn) (v "c") (EArgs nn KCall false [table_cell; arg (n1 "1")]) ].
Theorem c42_table_cell_refuted :
  exists o r out p y, root_shaped r /\ stored (o_skip o) /\
    (exists e, In e (r_exprs r) /\ inside o (p_stmt true) e p y) /\ skip_asked o p y /\
    prints (root_doc o wide_cell r) out /\ ~ In (PWord (WVerb y)) out /\
    ptext out = $"# fmt: table" ++ LF :: $"c(" ++ LF :: $"# fmt: skip" ++ LF :: $"f(x) , 1" ++
      LF :: $")" ++ [LF].
Proof.
  exists (opts AArrow), table_program. eexists. exists p_item, table_cell.
  split; [vm_compute; repeat split; discriminate|].
  split; [exists None; reflexivity|]. split.
  { eexists. split; [left; reflexivity|].
    eapply N_below; [apply (C_args _ _ _ _ _ true)|].
    - intros _. right. left. split; [reflexivity|]. eexists.
      split; [left; reflexivity|vm_compute; reflexivity].
    - eapply N_below; [apply C_item; left; reflexivity|constructor]. }
  split.
  { left. split; [reflexivity|]. eexists. split; [left; reflexivity|vm_compute; reflexivity]. }
  split; [apply wide_root_prints; vm_compute; reflexivity|].
  split; [|vm_compute; reflexivity].
  intros I. repeat (destruct I as [I|I]; [discriminate|]). exact I.
Qed.
Print Assumptions c42_table_cell_refuted.

(** * C43: A skip-file comment leaves the whole file alone *)

(** The comments before the first expression of a file that has one. *)
Definition comments_before (r : root) : list text :=
  match r_exprs r with [] => [] | e :: _ => map c_text (n_lead (notes_of e)) end.
Definition left_alone (r : root) : Prop :=
  (exists t, In t (comments_before r) /\ is_directive t DSkipFile) \/
  (exists t l, comments_before r = t :: l /\ is_generated t).

Lemma skip_file_iff t : is_skip_file (parse_comment_directive t) = true <-> is_directive t DSkipFile.
Proof.
  rewrite <- c28_directive_iff_spelled.
  destruct (parse_comment_directive t) as [[]|]; cbn; split; congruence.
Qed.
Lemma suppressed_iff r : root_suppressed r = true <-> left_alone r.
Proof.
  unfold root_suppressed, left_alone, comments_before.
  destruct (r_exprs r) as [|e es]; [split; [discriminate|intros [[t [[] _]]|[t [l [H _]]]]; discriminate]|].
  destruct (n_lead (notes_of e)) as [|c cs];
    [split; [discriminate|intros [[t [[] _]]|[t [l [H _]]]]; discriminate]|].
  cbn [map]. rewrite orb_true_iff.
  assert (Rest : existsb (fun c => is_skip_file (parse_comment_directive (c_text c))) cs = true <->
    exists t, In t (map c_text cs) /\ is_directive t DSkipFile).
  { rewrite existsb_exists. split.
    - intros [x [I H]]. exists (c_text x). split; [apply in_map, I|apply skip_file_iff, H].
    - intros [t [I H]]. apply in_map_iff in I. destruct I as [x [<- I]]. exists x.
      split; [exact I|apply skip_file_iff, H]. }
  rewrite Rest. pose proof (fun d => c28_generated_iff_spelled (c_text c) d) as G.
  destruct (parse_special_skip_file (c_text c)) as [d|] eqn:E.
  - specialize (G d). destruct (proj1 G eq_refl) as [-> Ge]. cbn [is_skip_file]. split.
    + intros _. right. eexists _, _. split; [reflexivity|exact Ge].
    + intros _. left. reflexivity.
  - assert (NG : ~ is_generated (c_text c)).
    { intros H. specialize (G DSkipFile). destruct G as [_ G]. discriminate G. split; auto. }
    rewrite skip_file_iff. split.
    + intros [H|[t [I H]]]; left; eexists; (split; [|exact H]); [left; reflexivity|right; exact I].
    + intros [[t [[<-|I] H]]|[t [l [H1 H2]]]]; [left; exact H|right; exists t; auto|].
      injection H1 as <- _. contradiction.
Qed.
Lemma root_out_iff o pc r :
  (left_alone r -> fmt_root o pc r = RCopied (without_cr_of_crlf (n_src (r_notes r)))) /\
  (~ left_alone r -> fmt_root o pc r = RFormatted (root_doc o pc r)).
Proof.
  pose proof (suppressed_iff r) as S. unfold fmt_root. destruct (root_suppressed r).
  - split; [intros _; rewrite normalize_ref_spec, normalize_spec; reflexivity|].
    intros H. destruct H. apply S. reflexivity.
  - split; [|reflexivity]. intros H. apply S in H. discriminate.
Qed.

(** With a skip-file directive before the first expression, or a first comment
    that marks the file as generated, the file is printed as it is, up to line
    endings; without, it is formatted. *)
Theorem c43_left_alone_iff o pc r :
  (left_alone r -> fmt_root o pc r = RCopied (without_cr_of_crlf (n_src (r_notes r)))) /\
  (~ left_alone r -> fmt_root o pc r = RFormatted (root_doc o pc r)).
Proof. exact (root_out_iff o pc r). Qed.
Print Assumptions c43_left_alone_iff.

(** The directive may come after other comments, the mark may not. *)
Definition headed (cs : list string) : root :=
  file [ EBinary (with_lead cs nn) (v "x") (tk EQUAL $"=") (n1 "1") ].
Example c43_headed :
  left_alone (headed ["# a"%string; "# fmt: skip file"%string]) /\
  left_alone (headed ["# Generated by x"%string; "# b"%string]) /\
  ~ left_alone (headed ["# a"%string; "# Generated by x"%string]) /\
  ~ left_alone (headed ["# fmt: skip"%string]).
Proof. rewrite <- !suppressed_iff. vm_compute. repeat split; discriminate. Qed.

(** In a file without expressions the comments belong to the root: it is not
    left alone, whatever they say. *)
Definition only_comments : root :=
  {| r_bom := None;
     r_notes := with_src "#a" (with_dang ["# fmt: skip file"%string] nn); r_exprs := [] |}.
Theorem c43_comments_only_refuted :
  exists r c, In c (n_dang (r_notes r)) /\ is_directive (c_text c) DSkipFile /\
    r_exprs r = [] /\
    forall o pc, fmt_root o pc r = RFormatted (root_doc o pc r).
Proof.
  exists only_comments. eexists. split; [left; reflexivity|]. split; [|split; reflexivity].
  apply skip_file_iff. vm_compute. reflexivity.
Qed.
Print Assumptions c43_comments_only_refuted.

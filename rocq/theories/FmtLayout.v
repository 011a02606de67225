(** One layout of a document, for concrete cases: as if lines were unlimited.
    A group is expanded if something in it forces a line break. *)
From Coq Require Import List Arith Bool NArith String.
From Verif Require Import Text LineEndingModel SettingsModel SyntaxKind DirectiveModel FmtTree
  IrModel FmtModel.
Import ListNotations.

Fixpoint wide (m : mode) (d : doc) : option (list op) :=
  match d with
  | DNil | DExpandParent => Some []
  | DCat a b =>
    match wide m a, wide m b with Some x, Some y => Some (x ++ y) | _, _ => None end
  | DWord w => Some [OStep (SWord w)]
  | DSpace => Some [OStep SSpace]
  | DLine LHard => Some [OStep (SLine false)]
  | DLine LEmpty => Some [OStep (SLine true)]
  | DLine LSoft => Some (match m with Flat => [] | Expanded => [OStep (SLine false)] end)
  | DLine LSoftOrSpace =>
    Some (match m with Flat => [OStep SSpace] | Expanded => [OStep (SLine false)] end)
  | DIndent d => wide m d
  | DGroup expand d => wide (if expand || will_break d then Expanded else Flat) d
  | DIfBreaks d => match m with Flat => Some [] | Expanded => wide Expanded d end
  | DSuffix g c => Some [OSuffix g c]
  | DBest a _ => wide (if will_break a then Expanded else Flat) a
  | DPanic => None
  end.

Lemma wide_lay d : forall m os, wide m d = Some os -> lay m d os.
Proof.
  induction d; intros mm os H; cbn [wide lay] in *; try (injection H as <-; reflexivity).
  - destruct (wide mm d1) as [x|] eqn:E1; [|discriminate].
    destruct (wide mm d2) as [y|] eqn:E2; [|discriminate]. injection H as <-.
    exists x, y. auto.
  - destruct m; injection H as <-; reflexivity.
  - auto.
  - destruct expand; [exact (IHd _ _ H)|]. eexists. exact (IHd _ _ H).
  - destruct mm; [injection H as <-; reflexivity|auto].
  - eexists. left. exact (IHd1 _ _ H).
  - discriminate.
Qed.

(** Another layout: as if nothing fitted on a line. *)
Fixpoint narrow (m : mode) (d : doc) : option (list op) :=
  match d with
  | DNil | DExpandParent => Some []
  | DCat a b =>
    match narrow m a, narrow m b with Some x, Some y => Some (x ++ y) | _, _ => None end
  | DWord w => Some [OStep (SWord w)]
  | DSpace => Some [OStep SSpace]
  | DLine LHard => Some [OStep (SLine false)]
  | DLine LEmpty => Some [OStep (SLine true)]
  | DLine LSoft => Some (match m with Flat => [] | Expanded => [OStep (SLine false)] end)
  | DLine LSoftOrSpace =>
    Some (match m with Flat => [OStep SSpace] | Expanded => [OStep (SLine false)] end)
  | DIndent d => narrow m d
  | DGroup _ d => narrow Expanded d
  | DIfBreaks d => match m with Flat => Some [] | Expanded => narrow Expanded d end
  | DSuffix g c => Some [OSuffix g c]
  | DBest _ b => narrow Expanded b
  | DPanic => None
  end.

Lemma narrow_lay d : forall m os, narrow m d = Some os -> lay m d os.
Proof.
  induction d; intros mm os H; cbn [narrow lay] in *; try (injection H as <-; reflexivity).
  - destruct (narrow mm d1) as [x|] eqn:E1; [|discriminate].
    destruct (narrow mm d2) as [y|] eqn:E2; [|discriminate]. injection H as <-.
    exists x, y. auto.
  - destruct m; injection H as <-; reflexivity.
  - auto.
  - destruct expand; [exact (IHd _ _ H)|]. exists Expanded. exact (IHd _ _ H).
  - destruct mm; [injection H as <-; reflexivity|auto].
  - exists Expanded. right. exact (IHd2 _ _ H).
  - discriminate.
Qed.

(** The printed text, without indentation. *)
Definition word_text (w : word) : text :=
  match w with
  | WTok t => t_text t
  | WComment c => c
  | WPad n => repeat 32%N n
  | WVerb e => normalize_ref (n_src (notes_of e))
  | WBreak => [LF]
  end.
Definition ptext (ps : list piece) : text :=
  flat_map (fun p => match p with PWord w => word_text w | PSpace => [32%N] | PNewline => [LF] end)
    ps.

(** The cell printer of the concrete cases. *)
Definition wide_cell (d : doc) : option (list piece) :=
  match wide Expanded d with Some os => Some (run os) | None => None end.

Definition wide_root (o : format_options) (r : root) : option (list piece) :=
  wide_cell (root_doc o wide_cell r).

Definition narrow_root (o : format_options) (r : root) : option (list piece) :=
  match narrow Expanded (root_doc o wide_cell r) with Some os => Some (run os) | None => None end.

(** Trees of the concrete cases. *)
Definition nn : notes :=
  {| n_lead := []; n_dang := []; n_trail := []; n_lines := 0; n_newline := false;
     n_direct := false; n_src := [] |}.
Definition with_lead (cs : list string) (n : notes) : notes :=
  {| n_lead := map (fun c => {| c_text := $c; c_before := 1; c_after := 1; c_within := false |}) cs;
     n_dang := n_dang n; n_trail := n_trail n; n_lines := n_lines n; n_newline := n_newline n;
     n_direct := n_direct n; n_src := n_src n |}.
Definition with_trail (cs : list string) (n : notes) : notes :=
  {| n_lead := n_lead n; n_dang := n_dang n;
     n_trail := map (fun c => {| c_text := $c; c_before := 0; c_after := 1; c_within := false |}) cs;
     n_lines := n_lines n; n_newline := n_newline n; n_direct := n_direct n; n_src := n_src n |}.
Definition with_dang (cs : list string) (n : notes) : notes :=
  {| n_lead := n_lead n;
     n_dang := map (fun c => {| c_text := $c; c_before := 1; c_after := 1; c_within := true |}) cs;
     n_trail := n_trail n;
     n_lines := n_lines n; n_newline := n_newline n; n_direct := n_direct n; n_src := n_src n |}.
Definition with_src (s : string) (n : notes) : notes :=
  {| n_lead := n_lead n; n_dang := n_dang n; n_trail := n_trail n; n_lines := n_lines n;
     n_newline := n_newline n; n_direct := n_direct n; n_src := $s |}.
Definition on_line (k : nat) (n : notes) : notes :=
  {| n_lead := n_lead n; n_dang := n_dang n; n_trail := n_trail n; n_lines := k;
     n_newline := 0 <? k; n_direct := n_direct n; n_src := n_src n |}.
Definition ident (n : notes) (s : string) : expr := ELeaf n R_IDENTIFIER [tk IDENT $s].
Definition number (n : notes) (s : string) : expr := ELeaf n R_DOUBLE_VALUE [tk R_DOUBLE_LITERAL $s].
Definition v (s : string) : expr := ident nn s.
Definition n1 (s : string) : expr := number nn s.
Definition bin (l : expr) (k : kind) (s : string) (r : expr) : expr := EBinary nn l (tk k $s) r.
Definition arg (x : expr) : expr := EArg nn None (Some x) 0.
Definition named (s : string) (x : expr) : expr :=
  EArg nn (Some (ENameClause nn (v s))) (Some x) 0.
Definition call (f : expr) (l : list expr) : expr := ECall nn f (EArgs nn KCall false l).
Definition file (l : list expr) : root := {| r_bom := None; r_notes := nn; r_exprs := l |}.

(** Options: all defaults. *)
Definition opts (st : assignment_style) : format_options :=
  {| o_indent_style := ISpace; o_indent_width := 2%N; o_line_ending := Lf;
     o_line_width := 80%N; o_persistent_line_breaks := PRespect; o_assignment_style := st;
     o_skip := None; o_table := None |}.

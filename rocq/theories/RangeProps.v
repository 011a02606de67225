(** Property theorems C33: range formatting. *)
From Coq Require Import List NArith ZArith Arith String Lia.
From Verif Require Import Text LineEndingModel LineEndingSpec LineIndexModel LineIndexSpec DocsModel DocsSpec DocsProps
  TextEditModel ProtoEditsModel ProtoEditsSpec ProtoEditsProps SyntaxKind ParseModel ParseSpec
  RangeModel RangeSpec RangeProofs.
Import ListNotations.

(** The edits replace a run of consecutive expressions of one expression list:
    the run that belongs to the selection, in the deepest list that holds both ends
    of it.  What is before the run and behind it stays, and so does the blank space
    at the outer ends of the run.  For an LF and for a CRLF document the client's
    text is determined exactly; for one with both, up to line ends. *)
Theorem c33_confined : forall parse fmt enc d u v r es,
  in_step parse enc d u v -> paired u -> fits parse (normalize u) ->
  range_formatting fmt false d r = Val (Edits es) ->
  exists s e a b before run after t mid g0,
    text_range enc (line_index_new (normalize u)) r = Val (s, e) /\
    sub_at (fst (parse (normalize u))) a (GNode R_EXPRESSION_LIST (before ++ run ++ after)) b /\
    selected (blen a) s e before run after /\
    deepest (fst (parse (normalize u))) s e (GNode R_EXPRESSION_LIST (before ++ run ++ after)) (blen a) /\
    fmt run = SubText t /\
    text_of run = blank_before (hd g0 run) ++ mid ++ blank_after (last run g0) /\
    let out := a ++ text_of before ++ blank_before (hd g0 run) ++ pop t
                 ++ blank_after (last run g0) ++ text_of after ++ b in
    (no_cr u -> d_endings d = Lf -> forall u', client_edits enc [] u es u' <-> u' = out) /\
    (u = to_crlf (normalize u) -> d_endings d = Crlf ->
       forall u', client_edits enc [] u es u' <-> u' = to_crlf out) /\
    (no_cr (pop t) -> exists u', client_edits enc [] u es u' /\ normalize u' = out /\ paired u' /\
       forall u2, client_edits enc [] u es u2 -> u2 = u').
Proof. exact range_client. Qed.
Print Assumptions c33_confined.

(** A selection that is not empty and both ends of which some expression list holds
    is formatted. *)
Theorem c33_selection_formatted : forall parse fmt enc d u v r s e,
  in_step parse enc d u v -> fits parse (normalize u) -> snd (parse (normalize u)) = false ->
  text_range enc (line_index_new (normalize u)) r = Val (s, e) -> s < e ->
  (exists g p, within s e (fst (parse (normalize u))) 0 g p /\ list_of_both s e g p) ->
  (forall run, exists t, fmt run = SubText t) ->
  exists es, range_formatting fmt false d r = Val (Edits es).
Proof. exact range_sent. Qed.
Print Assumptions c33_selection_formatted.

(** The only panic is that of an unusable range. *)
Theorem c33_panic : forall parse fmt enc d u v r ex,
  in_step parse enc d u v -> range_formatting fmt ex d r = Panic ->
  text_range enc (line_index_new (normalize u)) r = Panic.
Proof. exact range_panic. Qed.
Print Assumptions c33_panic.

(** [a], blank line, [# c], [  b=1 # k], [d], [e], with the parser's own tree. *)
Definition rx_src := $"a" ++ [LF; LF] ++ $"# c" ++ [LF] ++ $"  b=1 # k" ++ [LF] ++ $"d" ++ [LF] ++ $"e" ++ [LF].
Definition rx_tk k s e := TS k F_other s e [].
Definition rx_tree := TS R_ROOT F_other 0 21 [
  rx_tk R_IDENTIFIER 0 1; rx_tk COMMENT 3 6;
  TS R_BINARY_EXPRESSION F_other 9 12
    [rx_tk R_IDENTIFIER 9 10; rx_tk EQUAL 10 11; TS R_DOUBLE_VALUE F_other 11 12 []];
  rx_tk COMMENT 13 16; rx_tk R_IDENTIFIER 17 18; rx_tk R_IDENTIFIER 19 20].
Definition rx_parse (t : text) : green * bool :=
  match parse t false rx_tree with Some g => g | None => (GNode R_ROOT [], true) end.
Definition rx_fmt (l : list green) : sub_tree := SubText ($"# c" ++ [LF] ++ $"b = 1 # k" ++ [LF] ++ $"d" ++ [LF]).
Definition rx_range (a b c d : nat) : lsp_range := {| r_start := at_ a b; r_end := at_ c d |}.
Definition rx_doc (t : text) : document (green * bool) := document_new _ rx_parse t (Some 1%Z) EUtf16.

Example c33_example :
  well_parsed rx_src rx_tree /\ in_step rx_parse EUtf16 (rx_doc rx_src) rx_src 1%Z /\
  snd (rx_parse rx_src) = false /\ tree_text (fst (rx_parse rx_src)) = rx_src /\
  lists_of_nodes (fst (rx_parse rx_src)) = true /\
  all_some (map take_apart (tokens (fst (rx_parse rx_src)))) <> None /\
  range_formatting rx_fmt false (rx_doc rx_src) (rx_range 3 3 4 1)
  = Val (Edits [te (at_ 2 0) (at_ 4 1) ($"# c" ++ [LF] ++ $"b = 1 # k" ++ [LF] ++ $"d")]).
Proof. vm_compute. repeat split. discriminate. Qed.

Example c33_selection_example :
  exists g p, within 10 18 (fst (rx_parse rx_src)) 0 g p /\ list_of_both 10 18 g p.
Proof.
  let x := eval vm_compute in (rx_parse rx_src) in replace (rx_parse rx_src) with x by (vm_compute; reflexivity).
  cbn [fst].
  match goal with |- context [GNode R_ROOT [GNode R_EXPRESSION_LIST ?cs; ?z]] =>
    exists (GNode R_EXPRESSION_LIST cs), 0; split;
    [apply (within_down 10 18 R_ROOT [] R_EXPRESSION_LIST cs [z] 0 0);
       [reflexivity|vm_compute; lia|vm_compute; lia|vm_compute; lia|constructor]|];
    match cs with [?c1; GNode ?k2 ?c2; GNode ?k3 ?c3; ?c4] =>
      split; [exists [c1], k2, c2, [GNode k3 c3; c4]|exists [c1; GNode k2 c2], k3, c3, [c4]];
      (split; [reflexivity|vm_compute; lia])
    end
  end.
Qed.

(** With an empty last line in the selection, nothing is formatted: the end of
    the selection is in no expression.  So selecting a whole file that ends with a
    newline has no effect. *)
Theorem c33_select_all_refuted :
  in_step rx_parse EUtf16 (rx_doc rx_src) rx_src 1%Z /\ snd (rx_parse rx_src) = false /\
  text_range EUtf16 (line_index_new rx_src) (rx_range 0 0 6 0) = Val (0, blen rx_src) /\
  range_formatting rx_fmt false (rx_doc rx_src) (rx_range 0 0 6 0) = Val NoEdits.
Proof. vm_compute. repeat split. Qed.
Print Assumptions c33_select_all_refuted.

(** An empty selection at the end of an expression is in no expression either. *)
Theorem c33_caret_at_end_refuted :
  range_formatting rx_fmt false (rx_doc rx_src) (rx_range 4 1 4 1) = Val NoEdits /\
  exists es, range_formatting rx_fmt false (rx_doc rx_src) (rx_range 4 0 4 0) = Val (Edits es).
Proof. split; [vm_compute; reflexivity|]. eexists. vm_compute. reflexivity. Qed.
Print Assumptions c33_caret_at_end_refuted.

(** With [line-ending = "crlf"] the formatter prints CR LF, of which only the LF is
    taken off: the client gets a CR no LF follows. *)
Theorem c33_configured_crlf_refuted : exists u d fmt es u',
  in_step (fun t => match parse t false (TS R_ROOT F_other 0 1 [rx_tk R_IDENTIFIER 0 1]) with
                    | Some g => g | None => (GNode R_ROOT [], true) end) EUtf16 d u 1%Z /\
  uniform u /\ d_endings d = Lf /\ (forall l, fmt l = SubText ($"x" ++ [CR; LF])) /\
  range_formatting fmt false d (rx_range 0 0 0 1) = Val (Edits es) /\
  client_edits EUtf16 [] u es u' /\ u' = $"x" ++ [CR].
Proof.
  exists $"x".
  exists (document_new _ (fun t => match parse t false (TS R_ROOT F_other 0 1 [rx_tk R_IDENTIFIER 0 1]) with
                    | Some g => g | None => (GNode R_ROOT [], true) end) $"x" (Some 1%Z) EUtf16).
  exists (fun _ => SubText ($"x" ++ [CR; LF])), [te (at_ 0 0) (at_ 0 1) ($"x" ++ [CR])], ($"x" ++ [CR]).
  split; [vm_compute; repeat split|]. split.
  { left. intro H. vm_compute in H. intuition discriminate. }
  split; [reflexivity|]. split; [reflexivity|]. split; [vm_compute; reflexivity|]. split; [|reflexivity].
  apply (CEdit EUtf16 [] [] $"x" [] ($"x" ++ [CR]) [] []); [constructor| |constructor]. paired_tac.
Qed.
Print Assumptions c33_configured_crlf_refuted.

(** A range whose end is before its start stops the request with a panic. *)
Theorem c33_reversed_range_refuted :
  range_formatting rx_fmt false (rx_doc rx_src) (rx_range 4 1 3 3) = Panic.
Proof. vm_compute. reflexivity. Qed.
Print Assumptions c33_reversed_range_refuted.
